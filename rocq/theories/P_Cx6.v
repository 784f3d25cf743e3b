(** * Proofs about np.dot and comparisons on complex arrays (M_Cx.v) *)
From Coq Require Import Psatz ZArith.
From Verif Require Import Base Space Spec SpecOps ConvexFacts Sep VSum MatFacts Cplx M_ProxOp M_Loop M_PG M_L1 M_Cx DFT P_Conv Smooth P_Cx P_ProxOp P_Cx2 P_Cx4.
From Verif Require Export S_Cx.
Open Scope result_scope.

Lemma cre_inner n (v x : CArr n) : cre v x = << v, x >>.
Proof.
  rewrite inner_sym, carr_inner, csum_fst. unfold cre. apply RS_ext. intros i Hi. reflexivity.
Qed.
Lemma cdot_re n (v x : CArr n) : fst (cdot v x) = RS n (fun i => fst (cg v i) * fst (cg x i) - snd (cg v i) * snd (cg x i)).
Proof. unfold cdot. rewrite csum_fst. apply RS_ext. intros. reflexivity. Qed.
Lemma cdot_im n (v x : CArr n) : snd (cdot v x) = RS n (fun i => fst (cg v i) * snd (cg x i) + snd (cg v i) * fst (cg x i)).
Proof. unfold cdot. rewrite csum_snd. apply RS_ext. intros. reflexivity. Qed.
Lemma cdot_cre n (v x : CArr n) : fst (cdot v x) = cre v x - 2 * RS n (fun i => snd (cg v i) * snd (cg x i)).
Proof.
  rewrite cdot_re. unfold cre. rewrite <- RS_scal, <- RS_sub. apply RS_ext. intros i _. simpl. ring.
Qed.
Definition conjv {n} (v : CArr n) : CArr n := cvec n (fun i => cconj (cg v i)).
Definition imunit {n} (v : CArr n) : CArr n := cvec n (fun i => (0, snd (cg v i))).
Lemma cdot_conj n (v x : CArr n) : fst (cdot v x) = << conjv v, x >>.
Proof.
  rewrite <- cre_inner. unfold cre. rewrite cdot_re. apply RS_ext. intros i Hi. unfold conjv. rewrite cg_cvec by auto. simpl. ring.
Qed.
Lemma conjv_real n (v : CArr n) : conjv v = v <-> is_real v.
Proof.
  split.
  - intros H i Hi. assert (E : cg (conjv v) i = cg v i) by (rewrite H; auto). unfold conjv in E. rewrite cg_cvec in E by auto.
    apply (f_equal snd) in E. simpl in E. lra.
  - intro H. apply carr_ext. intros i Hi. unfold conjv. rewrite cg_cvec by auto. apply c_ext; simpl; auto. rewrite (H i Hi). ring.
Qed.
Lemma real_iff n (v : CArr n) (k : R) : k <> 0 -> (is_real v <-> forall x, k * fst (cdot v x) = k * cre v x).
Proof.
  intro Hk. split.
  - intros H x. f_equal. rewrite cdot_cre. rewrite (RS_ext n _ (fun _ => 0)); [rewrite RS_zero; ring|]. intros i Hi. rewrite (H i Hi). ring.
  - intros H i Hi. specialize (H (imunit v)). apply Rmult_eq_reg_l in H; auto. rewrite cdot_cre in H.
    assert (E : RS n (fun i => snd (cg v i) * snd (cg (imunit v) i)) = 0) by lra.
    match type of E with RS _ ?h = 0 => assert (A : forall j, (j < n)%nat -> 0 <= h j) by (intros j Hj; unfold imunit; rewrite cg_cvec by auto; simpl; nra) end.
    pose proof (RS_zero_all n _ A E i Hi) as Z. cbv beta in Z. unfold imunit in Z. rewrite cg_cvec in Z by auto. simpl in Z. nra.
Qed.

(*! C80_sum : f + v on complex arrays: prox and grad use the function f(x) + Re(v^H x) (they are exact for it by C05, which covers every
   inner product space), but call evaluates f(x) + Re(v^T x).  The two agree for all x exactly when v is real, and at a point where f is
   differentiable the returned gradient f.grad(x) + v is the gradient of the evaluated function exactly when v is real *)
Lemma C80_sum_l : forall n (f : CArr n -> R) (v : CArr n),
  ((forall x, add_call f v x = f x + cre v x) <-> is_real v) /\
  (forall x, add_call f v x = f x + cre v x - 2 * RS n (fun i => snd (cg v i) * snd (cg x i))) /\
  (forall x g, is_grad f x g -> (is_grad (add_call f v) x (g [+] v) <-> is_real v)).
Proof.
  intros n f v. split; [|split].
  - rewrite (real_iff n v 1 ltac:(lra)). unfold add_call. split; intros H x; specialize (H x); lra.
  - intro x. unfold add_call. rewrite cdot_cre. ring.
  - intros x g Hg.
    assert (Hc : is_grad (add_call f v) x (g [+] conjv v)).
    { intros eps He. destruct (Hg eps He) as [d [Hd H]]. exists d. split; auto. intros h Hh. specialize (H h Hh).
      unfold add_call. rewrite !cdot_conj. replace (f (x [+] h) + << conjv v, x [+] h >> - (f x + << conjv v, x >>) - << g [+] conjv v, h >>) with (f (x [+] h) - f x - << g, h >>); auto.
      rewrite inner_add_l, inner_add_r. ring. }
    rewrite <- conjv_real. split.
    + intro H. pose proof (grad_unique _ _ _ _ Hc H) as E.
      replace (conjv v) with ((g [+] conjv v) [-] g) by vring. rewrite E. vring.
    + intro E. rewrite <- E at 2. exact Hc.
Qed.

(*! C80_l2_q : L2 with a linear term q on complex arrays: call is the documented function with Re(q^H x) for all x exactly when q is real (alpha <> 0) *)
Lemma C80_l2_q_l : forall n sigma b alpha (q : CArr n), alpha <> 0 ->
  ((forall x, l2c_call sigma b alpha q x = sigma / 2 * norm2 (match b with Some b => x [-] b | None => x end) + alpha * cre q x) <-> is_real q).
Proof.
  intros n sigma b alpha q Ha. rewrite (real_iff n q alpha Ha). unfold l2c_call. split; intros H x; specialize (H x); lra.
Qed.

(*! C80_quadratic_refuted : Quadratic on complex arrays evaluates x^T A x / 2, not x^H A x / 2: with A the identity and b = 0 the value is
   (|Re x|^2 - |Im x|^2)/2 + c, which equals the documented |x|^2/2 + c exactly for real x, and is unbounded below although prox and
   grad are those of |x|^2/2 + c *)
Lemma C80_quadratic_refuted_l : forall n c (x : CArr n),
  (quadc_call (fun y => y) vzero c x = norm2 x / 2 + c <-> is_real x) /\
  ((0 < n)%nat -> forall m, exists y : CArr n, quadc_call (fun y => y) vzero c y < m).
Proof.
  intros n c x.
  assert (E : forall y : CArr n, quadc_call (fun y => y) vzero c y = norm2 y / 2 + c - RS n (fun i => snd (cg y i) * snd (cg y i))).
  { intro y. unfold quadc_call. rewrite !cdot_cre, !cre_inner. rewrite inner_zero_l. rewrite (RS_ext n (fun i => snd (cg (vzero : CArr n) i) * snd (cg y i)) (fun _ => 0)).
    - rewrite RS_zero. unfold norm2. field.
    - intros i Hi. rewrite cg_zero. unfold C0; simpl. ring. }
  split.
  - rewrite E. split.
    + intro H. assert (Z : RS n (fun i => snd (cg x i) * snd (cg x i)) = 0) by lra. intros i Hi.
      pose proof (RS_zero_all n _ (fun j _ => Rle_0_sqr (snd (cg x j))) Z i Hi) as K. cbv beta in K. apply Rmult_integral in K. tauto.
    + intro H. rewrite (RS_ext n _ (fun _ => 0)); [rewrite RS_zero; ring|]. intros i Hi. rewrite (H i Hi). ring.
  - intros Hn m. set (t := Rabs (c - m) + 2). exists (cvec n (fun i => if Nat.eqb i 0 then (0, t) else C0)). rewrite E.
    assert (E1 : RS n (fun i => snd (cg (cvec n (fun i => if Nat.eqb i 0 then (0, t) else C0) : CArr n) i) * snd (cg (cvec n (fun i => if Nat.eqb i 0 then (0, t) else C0) : CArr n) i)) = t * t).
    { destruct n as [|n]; [lia|]. rewrite RS_shift. rewrite cg_cvec by lia. simpl Nat.eqb. cbn [snd].
      rewrite (RS_ext n _ (fun _ => 0)); [rewrite RS_zero; ring|]. intros i Hi. rewrite cg_cvec by lia. simpl. ring. }
    assert (E2 : norm2 (cvec n (fun i => if Nat.eqb i 0 then (0, t) else C0) : CArr n) = t * t).
    { rewrite carr_norm2. rewrite <- E1. apply RS_ext. intros i Hi. rewrite cg_cvec by auto. destruct (Nat.eqb i 0); unfold cabs2, C0; simpl; ring. }
    rewrite E1, E2. pose proof (Rle_abs (c - m)). assert (2 <= t) by (unfold t; pose proof (Rabs_pos (c - m)); lra). unfold t in *. nra.
Qed.

(*! C80_backtracking_refuted : ProximalGradient with backtracking on complex arrays: np.dot in the acceptance test does not conjugate, so too long
   steps are accepted.  For f = 2 |x|^2 (gradient 4 x), g = 0, tau = 1 and any purely imaginary start, no step is ever shortened and the
   iterates are (-3)^k x0: they grow without bound although 0 is the minimiser *)
Lemma C80_backtracking_refuted_l : forall n (f g : Op (CArr n)) epsg beta nback k (x0 : CArr n),
  (forall x, o_call f x = Ok (VNum (2 * norm2 x))) -> (forall x, o_grad f x = Ok (Some (4 [*] x))) -> (forall x t, o_prox g x t = Ok x) ->
  (0 < nback)%nat -> (forall i, (i < n)%nat -> fst (cg x0 i) = 0) ->
  pgc_bt f g epsg beta nback k x0 1 = Ok ((-3) ^ k [*] x0, 1).
Proof.
  intros n f g epsg beta nback k x0 Hf Hg Hp Hb. revert x0. induction k as [|k IH]; intros x0 H0.
  - cbn [pgc_bt]. rewrite pow_O. replace (1 [*] x0) with x0 by vring. reflexivity.
  - cbn [pgc_bt]. destruct nback as [|nback]; [lia|]. cbn [btc_loop].
    assert (G : forall x, get_grad f x = Ok (4 [*] x)) by (intro; unfold get_grad; rewrite Hg; reflexivity).
    assert (V : forall x, get_val f x = Ok (2 * norm2 x)) by (intro; unfold get_val; rewrite Hf; reflexivity).
    rewrite G. cbn [bind]. rewrite Hp. cbn [bind]. unfold ftildec. rewrite V, G. cbn [bind]. rewrite V. cbn [bind].
    replace (x0 [-] 1 [*] (4 [*] x0)) with (-3 [*] x0) by vring.
    assert (D : fst (cdot (4 [*] x0) (-3 [*] x0 [-] x0)) = 16 * norm2 x0).
    { replace (-3 [*] x0 [-] x0) with (-4 [*] x0) by vring. rewrite cdot_re, carr_norm2, <- RS_scal. apply RS_ext. intros i Hi.
      rewrite !cg_scal. unfold cscal, cabs2; cbn [fst snd]. rewrite (H0 i Hi). ring. }
    rewrite D. pose proof (norm2_nonneg x0) as Hn.
    match goal with |- context[Rleb ?a ?b] => destruct (Rleb_spec a b) as [[_ ->]|[Hlt _]] end.
    + cbn [bind fst snd]. rewrite IH.
      * replace ((-3) ^ k [*] (-3 [*] x0)) with ((-3) ^ S k [*] x0) by (simpl pow; vring). reflexivity.
      * intros i Hi. rewrite cg_scal. simpl. rewrite (H0 i Hi). ring.
    + exfalso. replace (norm2 (-3 [*] x0)) with (9 * norm2 x0) in Hlt by (unfold norm2; iexp; ring).
      replace (norm2 (-3 [*] x0 [-] x0)) with (16 * norm2 x0) in Hlt by (unfold norm2; iexp; ring). lra.
Qed.

(*! C80_backtracking_real : ProximalGradient with backtracking on complex arrays whose data are real: if f has real gradients and g real proxes at
   real arrays, a run from a real start is the run on real arrays, error for error (the theorems about real arrays apply to it) *)
Lemma C80_backtracking_real_l : forall n (f g : Op (CArr n)) e beta nback tau k (x0 : CArr n),
  (forall x, is_real x -> exists d, o_grad f x = Ok (Some d) /\ is_real d) ->
  (forall x t p, is_real x -> o_prox g x t = Ok p -> is_real p) -> is_real x0 -> (0 < k)%nat ->
  match pgc_bt f g e beta nback k x0 tau with
  | Ok (x, _) => exists tr, ProximalGradient f g x0 [e] (Some tau) true beta 1 k nback None None = Ok (x, tr)
  | Err er => ProximalGradient f g x0 [e] (Some tau) true beta 1 k nback None None = Err er
  end.
Proof.
  intros n f g e beta nback tau k x0 Hf Hg H0 Hk.
  assert (RD : forall x t d : CArr n, is_real x -> is_real d -> forall a, is_real (x [-] a [*] d)).
  { intros x t d Hx Hd a i Hi. rewrite cg_sub, cg_scal by auto. unfold csub, cscal; cbn [fst snd]. rewrite (Hx i Hi), (Hd i Hi). ring. }
  assert (DOT : forall v x : CArr n, is_real v -> fst (cdot v x) = << v, x >>).
  { intros v x Hv. rewrite cdot_cre, cre_inner. rewrite (RS_ext n _ (fun _ => 0)); [rewrite RS_zero; ring|]. intros i Hi. rewrite (Hv i Hi). ring. }
  assert (BT : forall (x : CArr n) nb t z, is_real x -> btc_loop x f g e beta nb t z = bt_loop x f g e beta nb t z).
  { intros x nb. induction nb as [|nb IH]; intros t z Hx; [reflexivity|]. cbn [btc_loop bt_loop]. destruct (Hf x Hx) as [d [Ed Hd]].
    assert (G : get_grad f x = Ok d) by (unfold get_grad; rewrite Ed; reflexivity). rewrite G. cbn [bind].
    destruct (o_prox g (x [-] t [*] d) (e * t)) as [p|er] eqn:P; [|reflexivity]. cbn [bind].
    assert (FT : ftildec f p x t = ftilde f p x t).
    { unfold ftildec, ftilde. destruct (get_val f x); [|reflexivity]. cbn [bind]. rewrite G. cbn [bind]. rewrite (DOT d _ Hd). reflexivity. }
    rewrite FT. destruct (ftilde f p x t); [|reflexivity]. cbn [bind]. destruct (get_val f p); [|reflexivity]. cbn [bind]. destruct (Rleb _ _); [reflexivity|]. apply IH; auto. }
  assert (BR : forall (x : CArr n) nb t z p t', is_real x -> (forall z', z = Some z' -> is_real z') -> bt_loop x f g e beta nb t z = Ok (p, t') -> is_real p).
  { intros x nb. induction nb as [|nb IH]; intros t z p t' Hx Hz H; cbn [bt_loop] in H.
    - destruct z as [z|]; [|discriminate]. injection H as <- <-. apply Hz; reflexivity.
    - destruct (Hf x Hx) as [d [Ed Hd]]. assert (G : get_grad f x = Ok d) by (unfold get_grad; rewrite Ed; reflexivity). rewrite G in H. cbn [bind] in H.
      destruct (o_prox g (x [-] t [*] d) (e * t)) as [q|er] eqn:P; [|discriminate]. cbn [bind] in H.
      assert (Hq : is_real q) by (eapply Hg; [|exact P]; apply RD; auto).
      destruct (ftilde f q x t); [|discriminate]. cbn [bind] in H. destruct (get_val f q); [|discriminate]. cbn [bind] in H. destruct (Rleb _ _).
      + injection H as <- <-. exact Hq.
      + apply (IH _ _ _ _ Hx) in H; auto. intros z' E. injection E as <-. exact Hq. }
  assert (LP : forall (l : list R) m i s, (forall j, (i <= j < i + m)%nat -> nth_error l j = Some e) -> is_real (pg_x s) -> pg_y s = pg_x s ->
    match pgc_bt f g e beta nback m (pg_x s) (pg_tau s) with
    | Ok (x, _) => exists s' j, for_loop (pg_body f g l true beta 1 nback None None) m i s = Ok (s', j) /\ pg_x s' = x
    | Err er => for_loop (pg_body f g l true beta 1 nback None None) m i s = Err er
    end).
  { intros l m. induction m as [|m IH]; intros i s Hl Hx Hy.
    - cbn [pgc_bt for_loop]. exists s, i. split; reflexivity.
    - cbn [pgc_bt for_loop]. unfold pg_body at 1 3. unfold getitem. rewrite (Hl i) by lia. cbn [bind]. unfold pg_prox_step, backtracking.
      rewrite Hy, BT by auto. destruct (bt_loop (pg_x s) f g e beta nback (pg_tau s) None) as [[p t']|er] eqn:B; [|reflexivity]. cbn [bind fst snd].
      destruct (Reqb_spec 1 1) as [[_ ->]|[N _]]; [|lra]. cbn [bind fst snd accel_is].
      assert (Hp : is_real p) by (eapply BR; [exact Hx| |exact B]; discriminate).
      replace (p [+] 0 [*] (p [-] pg_x s)) with p by vring.
      specialize (IH (S i) (PG p p (pg_t s) t' (pg_pfg s) (pg_tr s ++ [p]))). cbn [pg_x pg_y pg_tau] in IH. apply IH; auto. intros j Hj. apply Hl. lia. }
  unfold ProximalGradient. destruct k as [|k]; [lia|]. cbn [pg_epsg bind accel_known].
  specialize (LP (repeat e (S k)) (S k) 0%nat (PG x0 x0 1 tau None [])). cbn [pg_x pg_y pg_tau] in LP.
  assert (L : forall j, (0 <= j < 0 + S k)%nat -> nth_error (repeat e (S k)) j = Some e) by (intros j Hj; apply nth_error_repeat; lia).
  specialize (LP L H0 eq_refl). clear L. rename LP into L.
  destruct (pgc_bt f g e beta nback (S k) x0 tau) as [[x t']|er].
  - destruct L as [s' [j [-> Ex]]]. cbn [bind fst]. rewrite Ex. eauto.
  - rewrite L. reflexivity.
Qed.
(*!ex C80_backtracking_real_example : satisfiable with a run that shortens its step: f = 2 |x|^2 and g = 0 from the real array [1 + 0j], tau = 1, beta = 1/4 *)
Lemma C80_backtracking_real_example_l :
  let f : Op (CArr 1) := mkOp (fun x => Ok (VNum (2 * norm2 x))) (fun x _ => Ok x) (fun x _ => Ok x) (fun x => Ok (Some (4 [*] x))) true in
  let g : Op (CArr 1) := mkOp (fun _ => Ok (VNum 0)) (fun x _ => Ok x) (fun x _ => Ok x) (fun _ => Ok None) false in
  let x0 : CArr 1 := cvec 1 (fun _ => (1, 0)) in
  (forall x, is_real x -> exists d, o_grad f x = Ok (Some d) /\ is_real d) /\ (forall x t p, is_real x -> o_prox g x t = Ok p -> is_real p) /\ is_real x0 /\
  pgc_bt f g 1 (1 / 4) 10 1 x0 1 = Ok (vzero, 1 / 4).
Proof.
  intros f g x0. split; [|split; [|split]].
  - intros x Hx. exists (4 [*] x). split; [reflexivity|]. intros i Hi. rewrite cg_scal. unfold cscal; cbn [snd]. rewrite (Hx i Hi). ring.
  - intros x t p Hx H. injection H as <-. exact Hx.
  - intros i Hi. unfold x0. rewrite cg_cvec by auto. reflexivity.
  - assert (N1 : norm2 x0 = 1). { rewrite carr_norm2. unfold RS; simpl. unfold x0. rewrite cg_cvec by lia. unfold cabs2; simpl. ring. }
    assert (D : forall a b, fst (cdot (a [*] x0) (b [*] x0)) = a * b).
    { intros a b. rewrite cdot_re. rewrite (RS_ext 1 _ (fun _ => a * b)); [unfold RS; simpl; ring|]. intros i Hi. rewrite !cg_scal. unfold x0. rewrite cg_cvec by auto. unfold cscal; cbn [fst snd]. ring. }
    assert (N : forall a, norm2 (a [*] x0) = a * a) by (intro a; unfold norm2 in *; iexp; rewrite N1; ring).
    cbn [pgc_bt btc_loop]. unfold get_grad, ftildec, get_val, get_grad. cbn [f g o_grad o_call o_prox bind as_num].
    replace (x0 [-] 1 [*] (4 [*] x0)) with (-3 [*] x0) by vring. replace (-3 [*] x0 [-] x0) with (-4 [*] x0) by vring. rewrite !N, N1, D.
    match goal with |- context[Rleb ?a ?b] => destruct (Rleb_spec a b) as [[H _]|[_ ->]] end; [exfalso; lra|].
    cbn [btc_loop]. unfold get_grad, ftildec, get_val, get_grad. cbn [f g o_grad o_call o_prox bind as_num].
    replace (x0 [-] (1 * (1 / 4)) [*] (4 [*] x0)) with (0 [*] x0) by vfield. replace (0 [*] x0 [-] x0) with (-1 [*] x0) by vring. rewrite ?N, ?N1, ?D.
    match goal with |- context[Rleb ?a ?b] => destruct (Rleb_spec a b) as [[_ ->]|[H _]] end; [|exfalso; lra].
    cbn [bind fst snd]. f_equal. f_equal; [vring|lra].
Qed.

(*! C80_box_refuted : Box on complex entries: an entry whose real part lies strictly between the bounds is accepted and returned whatever its imaginary
   part; an entry to the left of the lower bound with positive imaginary part is sent to the real number lower, although a point
   accepted by call is strictly nearer *)
Lemma C80_box_refuted_l : forall lo hi : R, lo < hi ->
  (forall z : C, lo < fst z < hi -> boxc_call lo hi z = true /\ boxc_pr lo hi z = z) /\
  (forall z : C, fst z < lo -> 0 < snd z -> boxc_pr lo hi z = cr lo /\
     exists y, boxc_call lo hi y = true /\ cmod (csub y z) < cmod (csub (boxc_pr lo hi z) z)).
Proof.
  intros lo hi Hlh. split.
  - intros [a b] [H1 H2]; simpl in *. unfold boxc_call, boxc_pr, cmaximum, cminimum, cle, cr; simpl.
    destruct (Rltb_spec lo a) as [[_ ->]|[? _]]; [|lra]. destruct (Rltb_spec a hi) as [[_ E]|[? _]]; [|lra]. simpl. rewrite E. split; reflexivity.
  - intros [a b] H1 H2; simpl in *.
    assert (E : boxc_pr lo hi (a, b) = cr lo).
    { unfold boxc_pr, cmaximum, cminimum, cle, cr; simpl. destruct (Rltb_spec lo a) as [[? _]|[_ ->]]; [lra|]. destruct (Reqb_spec lo a) as [[? _]|[_ ->]]; [lra|]. simpl.
      destruct (Rltb_spec lo hi) as [[_ ->]|[? _]]; [|lra]. reflexivity. }
    split; [exact E|]. exists (lo, b). split.
    + unfold boxc_call, cle, cr; simpl. destruct (Rltb_spec lo lo) as [[? _]|[_ ->]]; [lra|]. destruct (Reqb_spec lo lo) as [[_ ->]|[? _]]; [|lra].
      destruct (Rleb_spec 0 b) as [[_ ->]|[? _]]; [|lra]. destruct (Rltb_spec lo hi) as [[_ ->]|[? _]]; [|lra]. reflexivity.
    + rewrite E. unfold cmod. apply sqrt_lt_1_alt. unfold cabs2, csub, cr; simpl. nra.
Qed.

Lemma cmod_cdiv_real z t : 0 < t -> cdiv z (cr t) = cscal (/ t) z.
Proof. intro H. unfold cdiv, cr, cabs2, cmul, cconj, cscal; simpl. f_equal; field; lra. Qed.
(*! C80_halfspace_refuted : HalfSpace on complex arrays: for a real normal vector w <> 0, a point with Re(w.x) > b and Im(w.x) <> 0 is sent to the
   projection on {w.x = b} (two real equations), which is not the projection on {Re(w.x) <= b}, and a point accepted by call is strictly nearer.
   For the complex normal vector (1, i) the scaling w.w is 0 and every point that is not accepted produces a division by zero *)
Lemma C80_halfspace_refuted_l :
  (forall n (w x : CArr n) b, is_real w -> w <> vzero -> b < fst (cdot w x) -> snd (cdot w x) <> 0 ->
     exists p, halfspacec_prox w b x = Ok p /\ is_proj (fun y : CArr n => cdot w y = cr b) x p /\
       ~ is_proj (fun y : CArr n => cre w y <= b) x p /\
       exists y, halfspacec_call w b y = true /\ norm (y [-] x) < norm (p [-] x)) /\
  (forall b (x : CArr 2), let w : CArr 2 := cvec 2 (fun i => if Nat.eqb i 0 then (1, 0) else (0, 1)) in
     halfspacec_call w b x = false -> halfspacec_prox w b x = Err ZeroDivisionError).
Proof.
  split.
  - intros n w x b Hw Hw0 Hre Him.
    assert (Hww : cdot w w = cr (norm2 w)).
    { apply c_ext; cbn [fst snd cr].
      - rewrite cdot_re, carr_norm2. apply RS_ext. intros i Hi. unfold cabs2. rewrite (Hw i Hi). ring.
      - rewrite cdot_im. rewrite (RS_ext n _ (fun _ => 0)); [apply RS_zero|]. intros i Hi. rewrite (Hw i Hi). ring. }
    assert (Hn : 0 < norm2 w) by (apply norm2_pos; auto).
    set (A := fst (cdot w x) - b). set (B := snd (cdot w x)) in *. assert (HA : 0 < A) by (unfold A; lra).
    (* moving x along w by the complex number (s, t) / |w|^2 *)
    set (mv := fun (s t : R) => cvec n (fun i => csub (cg x i) (cmul (cscal (/ norm2 w) (s, t)) (cg w i))) : CArr n).
    assert (Mre : forall s t, fst (cdot w (mv s t)) = A + b - s).
    { intros s t. rewrite cdot_re. unfold mv. rewrite (RS_ext n _ (fun i => fst (cg w i) * fst (cg x i) - snd (cg w i) * snd (cg x i) - (s * / norm2 w) * cabs2 (cg w i))).
      - rewrite RS_sub, RS_scal, <- cdot_re, <- carr_norm2. unfold A. field. lra.
      - intros i Hi. rewrite cg_cvec by auto. unfold cabs2, csub, cmul, cscal; cbn [fst snd]. rewrite (Hw i Hi). ring. }
    assert (Mim : forall s t, snd (cdot w (mv s t)) = B - t).
    { intros s t. rewrite cdot_im. unfold mv. rewrite (RS_ext n _ (fun i => fst (cg w i) * snd (cg x i) + snd (cg w i) * fst (cg x i) - (t * / norm2 w) * cabs2 (cg w i))).
      - rewrite RS_sub, RS_scal, <- cdot_im, <- carr_norm2. unfold B. field. lra.
      - intros i Hi. rewrite cg_cvec by auto. unfold cabs2, csub, cmul, cscal; cbn [fst snd]. rewrite (Hw i Hi). ring. }
    assert (Mds : forall s t, norm2 (mv s t [-] x) = (s * s + t * t) * / norm2 w).
    { intros s t. rewrite carr_dist2. unfold mv. rewrite (RS_ext n _ (fun i => ((s * s + t * t) * (/ norm2 w * / norm2 w)) * cabs2 (cg w i))).
      - rewrite RS_scal, <- carr_norm2. field. lra.
      - intros i Hi. rewrite cg_cvec by auto. unfold cabs2, csub, cmul, cscal; cbn [fst snd]. rewrite (Hw i Hi). ring. }
    assert (Hin : 0 < / norm2 w) by (apply Rinv_0_lt_compat; auto).
    exists (mv A B). split; [|split; [|split]].
    + unfold halfspacec_prox. assert (Ec : cle (cdot w x) (cr b) = false).
      { unfold cle, cr; cbn [fst snd]. destruct (Rltb_spec (fst (cdot w x)) b) as [[? _]|[_ ->]]; [lra|]. destruct (Reqb_spec (fst (cdot w x)) b) as [[? _]|[_ ->]]; [lra|]. reflexivity. }
      rewrite Ec, Hww. destruct (Reqb_spec (cabs2 (cr (norm2 w))) 0) as [[Z _]|[_ ->]].
      { exfalso. unfold cabs2, cr in Z; cbn [fst snd] in Z. nra. }
      f_equal. unfold mv. apply carr_ext. intros i Hi. rewrite !cg_cvec by auto. rewrite cmod_cdiv_real by auto. f_equal. f_equal. f_equal.
      unfold csub, cr, A, B; cbn [fst snd]. f_equal; ring.
    + split.
      * apply c_ext; cbn [fst snd cr]; [rewrite Mre|rewrite Mim]; ring.
      * intros y Hy. apply norm_le_of_sq; [apply norm_nonneg|]. rewrite norm_sq, Mds.
        (* |A + iB| = |w.(x - y)| <= |w| |x - y| *)
        set (dd := cvec n (fun i => csub (cg x i) (cg y i)) : CArr n).
        assert (Ey : norm2 (y [-] x) = norm2 dd).
        { rewrite carr_dist2, carr_norm2. apply RS_ext. intros i Hi. unfold dd. rewrite cg_cvec by auto. unfold cabs2, csub; cbn [fst snd]. ring. }
        assert (Ew : fst (cdot w dd) = A /\ snd (cdot w dd) = B).
        { assert (H1 := f_equal fst Hy). assert (H2 := f_equal snd Hy). cbn [fst snd cr] in H1, H2. rewrite cdot_re in H1. rewrite cdot_im in H2. unfold A, B. rewrite !cdot_re, !cdot_im. split.
          - rewrite <- H1, <- RS_sub. apply RS_ext. intros i Hi. unfold dd. rewrite cg_cvec by auto. unfold csub; cbn [fst snd]. ring.
          - rewrite <- (Rminus_0_r (RS n (fun i => fst (cg w i) * snd (cg x i) + snd (cg w i) * fst (cg x i)))), <- H2, <- RS_sub. apply RS_ext. intros i Hi. unfold dd. rewrite cg_cvec by auto. unfold csub; cbn [fst snd]. ring. }
        rewrite Ey. apply (Rmult_le_reg_r (norm2 w)); auto. rewrite Rmult_assoc, Rinv_l, Rmult_1_r by lra.
        (* Cauchy-Schwarz with the array (A - iB... ) w *)
        set (u := cvec n (fun i => cmul (A, B) (cg w i)) : CArr n).
        assert (Hu : << u, dd >> = A * A + B * B).
        { rewrite <- cre_inner. unfold cre. destruct Ew as [E1 E2]. rewrite cdot_re in E1. rewrite cdot_im in E2. rewrite <- E1 at 2. rewrite <- E2 at 2. rewrite <- !RS_scal, <- RS_add. apply RS_ext. intros i Hi.
          unfold u. rewrite cg_cvec by auto. unfold cmul, cconj; cbn [fst snd]. rewrite (Hw i Hi). ring. }
        assert (Hu2 : norm2 u = (A * A + B * B) * norm2 w).
        { rewrite !carr_norm2, <- RS_scal. apply RS_ext. intros i Hi. unfold u. rewrite cg_cvec by auto. unfold cabs2, cmul; cbn [fst snd]. ring. }
        pose proof (CS_sq u dd) as CS. rewrite Hu, Hu2 in CS. set (Q := A * A + B * B) in *. assert (0 < Q) by (unfold Q; nra).
        apply (Rmult_le_reg_l Q); auto. nra.
    + intros [_ H]. specialize (H (mv A 0)). assert (Hc : cre w (mv A 0) <= b).
      { pose proof (cdot_cre n w (mv A 0)) as E. rewrite Mre in E. rewrite (RS_ext n _ (fun _ => 0)) in E; [rewrite RS_zero in E; lra|]. intros i Hi. rewrite (Hw i Hi). ring. }
      specialize (H Hc). assert (Hs : norm2 (mv A B [-] x) <= norm2 (mv A 0 [-] x)) by (rewrite <- !norm_sq; pose proof (norm_nonneg (mv A B [-] x)); nra).
      rewrite !Mds in Hs. apply Rmult_le_reg_r in Hs; auto. nra.
    + (* a little beyond the plane, keeping the imaginary part *)
      assert (Hd : exists e, 0 < e /\ (A + e) * (A + e) < A * A + B * B).
      { assert (0 < B * B) by nra. set (e := Rmin 1 (B * B / (2 * (2 * A + 1)))). assert (0 < 2 * (2 * A + 1)) by lra.
        assert (He : 0 < e <= 1). { unfold e. split; [apply Rmin_pos; [lra|apply Rmult_lt_0_compat; [lra|apply Rinv_0_lt_compat; lra]]|apply Rmin_l]. }
        assert (He2 : e * (2 * (2 * A + 1)) <= B * B).
        { apply Rle_trans with (B * B / (2 * (2 * A + 1)) * (2 * (2 * A + 1))); [apply Rmult_le_compat_r; [lra|apply Rmin_r]|]. unfold Rdiv. rewrite Rmult_assoc, Rinv_l by lra. lra. }
        exists e. split; [lra|]. nra. }
      destruct Hd as [e [He1 He2]]. exists (mv (A + e) 0). split.
      * unfold halfspacec_call, cle, cr; cbn [fst snd]. rewrite Mre. destruct (Rltb_spec (A + b - (A + e)) b) as [[_ ->]|[? _]]; [reflexivity|lra].
      * unfold norm. apply sqrt_lt_1_alt. split; [apply norm2_nonneg|]. rewrite !Mds. apply Rmult_lt_compat_r; auto. nra.
  - intros b x w H. unfold halfspacec_prox, halfspacec_call in *. rewrite H.
    assert (E : cdot w w = C0). { unfold cdot, w. cbn [csum]. rewrite !cg_cvec by lia. simpl. unfold cadd, cmul, C0; simpl. f_equal; ring. }
    rewrite E. unfold cabs2, C0; cbn [fst snd]. destruct (Reqb_spec (0 * 0 + 0 * 0) 0) as [[_ ->]|[K _]]; [reflexivity|exfalso; apply K; ring].
Qed.

(*! C80_nuclear_call : Nuclear on a complex matrix with one column: call equals sigma times the norm, the only singular value, exactly when the
   column is real (sigma > 0); prox is modelled on real matrices only, C32 *)
Lemma C80_nuclear_call_l : forall m sigma (x : CArr m), 0 < sigma -> (nucc_call sigma x = sigma * norm x <-> is_real x).
Proof.
  intros m sigma x Hs. unfold nucc_call.
  assert (E : fst (cdot x x) = norm2 x - 2 * RS m (fun i => snd (cg x i) * snd (cg x i))) by (rewrite cdot_cre, cre_inner; reflexivity).
  set (D := RS m (fun i => snd (cg x i) * snd (cg x i))) in *.
  assert (HD : 0 <= D) by (apply RS_nonneg; intros; apply Rle_0_sqr).
  assert (HDr : D = 0 <-> is_real x).
  { split.
    - intros Z i Hi. pose proof (RS_zero_all m _ (fun j _ => Rle_0_sqr (snd (cg x j))) Z i Hi) as K. cbv beta in K. apply Rmult_integral in K. tauto.
    - intro H. unfold D. rewrite (RS_ext m _ (fun _ => 0)); [apply RS_zero|]. intros i Hi. rewrite (H i Hi). ring. }
  assert (HDn : D <= norm2 x). { rewrite carr_norm2. apply RS_le. intros i Hi. unfold cabs2. nra. }
  rewrite <- HDr, E. pose proof (norm2_nonneg x) as Hn. split.
  - intro H. apply Rmult_eq_reg_l in H; [|lra]. unfold norm in H. apply sqrt_inj in H; [| |auto].
    + unfold Rmax in H. destruct (Rle_dec 0 (norm2 x - 2 * D)); lra.
    + apply Rmax_l.
  - intros ->. f_equal. unfold norm. f_equal. rewrite Rmax_right; lra.
Qed.
