(** * Sparse recovery with the objects of the library (tutorial basispursuit) *)
From Coq Require Import String Psatz.
From Verif Require Import Base Space Spec ConvexFacts Smooth VSum MatFacts M_ProxOp SpecOps P_ProxOp M_Norms P_Norms M_L1 M_L2 P_L1 P_L2 P_L21 M_Objs S_Lasso P_Lasso M_Loop LoopFacts SeqFacts M_PG M_Split M_PD M_Multi SplitMath P_PG P_PG2 P_PG3 P_Split P_Split2 P_Split3 P_PD P_PD2 S_Seq Compact Fejer P_Iter P_Iter2 P_Iter3 HahnBanach P_Qual M_Expr P_Expr P_Expr2 ExistMath P_Exist P_Exist2 P_Exist3.
From Verif Require Export S_Sparse.
Open Scope result_scope.
Open Scope R_scope.

Lemma sum_split {n} S (x : Vec n) : sum_abs x = sum_in S x + sum_out S x.
Proof. unfold sum_abs, sum_in, sum_out. rewrite <- RS_add. apply RS_ext. intros i _. destruct (S i); ring. Qed.
Lemma sum_in_pos {n} S (x : Vec n) : 0 <= sum_in S x.
Proof. apply RS_nonneg. intros i _. destruct (S i); [apply Rabs_pos|lra]. Qed.
Lemma sum_out_pos {n} S (x : Vec n) : 0 <= sum_out S x.
Proof. apply RS_nonneg. intros i _. destruct (S i); [lra|apply Rabs_pos]. Qed.
Lemma sum_out_supp {n} S (x : Vec n) : supported S x -> sum_out S x = 0.
Proof. intro H. unfold sum_out. rewrite (RS_ext n _ (fun _ => 0)); [apply RS_zero|]. intros i Hi. destruct (S i) eqn:E; [reflexivity|]. rewrite (H i Hi E). apply Rabs_R0. Qed.
(* Foucart-Rauhut: z compared with x through h = z - x *)
Lemma sum_compare {n} S (x z : Vec n) : sum_out S (z [-] x) <= sum_abs z - sum_abs x + sum_in S (z [-] x) + 2 * sum_out S x.
Proof.
  rewrite (sum_split S z), (sum_split S x). set (h := z [-] x).
  assert (H1 : sum_out S h <= sum_out S z + sum_out S x).
  { unfold sum_out. rewrite <- RS_add. apply RS_le. intros i Hi. unfold h. rewrite get_sub by auto. destruct (S i); [lra|]. unfold Rminus. pose proof (Rabs_triang (get z i) (- get x i)). rewrite Rabs_Ropp in H. lra. }
  assert (H2 : sum_in S x <= sum_in S z + sum_in S h).
  { unfold sum_in. rewrite <- RS_add. apply RS_le. intros i Hi. unfold h. rewrite get_sub by auto. destruct (S i); [|lra]. replace (get x i) with (get z i + - (get z i - get x i)) at 1 by ring. pose proof (Rabs_triang (get z i) (- (get z i - get x i))). rewrite Rabs_Ropp in H. lra. }
  lra.
Qed.
Lemma vzero_sum {n} (x : Vec n) : sum_abs x = 0 -> x = vzero.
Proof.
  intro H. apply vec_ext. intros i Hi. rewrite get_zero. pose proof (RS_zero_all n (fun i => Rabs (get x i)) (fun i _ => Rabs_pos _) H i Hi) as Hz. cbv beta in Hz.
  destruct (Req_dec (get x i) 0) as [|Hn]; [assumption|]. apply Rabs_no_R0 in Hn. contradiction.
Qed.
Lemma lsub_zero {E F : IPS} (A : linop E F) x y : A x = A y -> A (x [-] y) = vzero.
Proof. intro H. rewrite lapp_sub, H. vring. Qed.
Definition restrict {n} (S : nat -> bool) (h : Vec n) : Vec n := vtab n (fun i => if S i then get h i else 0).

(*! C92_recovery : basis pursuit min sum_i |x_i| s.t. A x = A xs has xs as its only solution for every xs that is zero outside S, if and only if A has the null
   space property on S; for any linear operator A on vectors and any set S of indices *)
Lemma C92_recovery_l : forall n (F : IPS) (A : linop (Vec n) F) S,
  (forall xs, supported S xs -> forall y, is_min (basis_pursuit A (A xs)) y <-> y = xs) <-> null_space A S.
Proof.
  intros n F A S. split.
  - intros H h Hh Hn. set (p := restrict S h). set (q := p [-] h).
    assert (Sp : supported S p) by (intros i Hi Hs; unfold p, restrict; rewrite get_vtab by auto; rewrite Hs; reflexivity).
    assert (Aq : A q = A p) by (unfold q; rewrite lapp_sub, Hh; vring).
    assert (Ip : sum_abs p = sum_in S h).
    { unfold sum_abs, sum_in. apply RS_ext. intros i Hi. unfold p, restrict. rewrite get_vtab by auto. destruct (S i); [reflexivity|apply Rabs_R0]. }
    assert (Iq : sum_abs q = sum_out S h).
    { unfold sum_abs, sum_out. apply RS_ext. intros i Hi. unfold q, p, restrict. rewrite get_sub, get_vtab by auto. destruct (S i); [rewrite Rminus_diag_eq; [apply Rabs_R0|reflexivity]|]. rewrite Rminus_0_l. apply Rabs_Ropp. }
    destruct (Rlt_le_dec (sum_in S h) (sum_out S h)) as [|Hle]; [assumption|exfalso]. apply Hn.
    assert (Hq : is_min (basis_pursuit A (A p)) q).
    { split; [exact Aq|]. intros y Hy. destruct (proj2 (H p Sp p) eq_refl) as [_ Hm]. specialize (Hm y Hy). cbn [eval basis_pursuit] in *. lra. }
    apply (H p Sp) in Hq. replace h with (p [-] q) by (unfold q; vring). rewrite Hq. vring.
  - intros H xs Hs y.
    assert (G : forall z, A z = A xs -> z <> xs -> sum_abs xs < sum_abs z).
    { intros z Hz Hne. assert (Hh : z [-] xs <> vzero). { intro Hc. apply Hne. replace z with (z [-] xs [+] xs) by vring. rewrite Hc. vring. }
      specialize (H _ (lsub_zero A z xs Hz) Hh). pose proof (sum_compare S xs z). rewrite (sum_out_supp S xs Hs) in H0. lra. }
    split.
    + intros [Hy Hm]. destruct (Req_dec (sum_abs (y [-] xs)) 0) as [Hz|Hz].
      * apply vzero_sum in Hz. replace y with (y [-] xs [+] xs) by vring. rewrite Hz. vring.
      * exfalso. specialize (Hm xs eq_refl). cbn [edom eval basis_pursuit] in *. specialize (G y Hy). assert (y <> xs); [|specialize (G H0); lra]. intros ->. apply Hz. replace (xs [-] xs) with (vzero : Vec n) by vring. unfold sum_abs. rewrite (RS_ext n _ (fun _ => 0)); [apply RS_zero|]. intros i _. rewrite get_zero. apply Rabs_R0.
    + intros ->. split; [reflexivity|]. intros z Hz. cbn [edom eval basis_pursuit] in *. destruct (Req_dec (sum_abs (z [-] xs)) 0) as [Hc|Hc].
      * apply vzero_sum in Hc. replace z with (z [-] xs [+] xs) by vring. rewrite Hc. right. f_equal. vring.
      * left. apply G; [exact Hz|]. intros ->. apply Hc. replace (xs [-] xs) with (vzero : Vec n) by vring. unfold sum_abs. rewrite (RS_ext n _ (fun _ => 0)); [apply RS_zero|]. intros i _. rewrite get_zero. apply Rabs_R0.
Qed.

(*! C92_stable : A with the quantitative null space property on S (rho < 1): every solution x of  min sum_i |x_i| s.t. |A x - b| <= r  is close to every feasible
   vector xs: sum_i |x_i - xs_i| <= (2 (1 + rho) sum_(i not in S) |xs_i| + 4 gamma r) / (1 - rho): the error is at most a multiple of what xs has outside S plus a
   multiple of the noise level *)
Lemma C92_stable_l : forall n (F : IPS) (A : linop (Vec n) F) S rho gamma b r xs x, 0 <= rho < 1 -> 0 <= gamma -> robust_null_space A S rho gamma ->
  norm (A xs [-] b) <= r -> is_min (basis_pursuit_noise A b r) x ->
  sum_abs (x [-] xs) <= (2 * (1 + rho) * sum_out S xs + 4 * gamma * r) / (1 - rho).
Proof.
  intros n F A S rho gamma b r xs x Hr Hg H Hxs [Hx Hm]. specialize (Hm xs Hxs). cbn [edom eval basis_pursuit_noise] in *.
  pose proof (sum_compare S xs x) as Hc. specialize (H (x [-] xs)). rewrite (sum_split S (x [-] xs)).
  assert (HA : norm (A (x [-] xs)) <= 2 * r).
  { replace (A (x [-] xs)) with ((A x [-] b) [+] (-1) [*] (A xs [-] b)) by (rewrite lapp_sub; vring). eapply Rle_trans; [apply norm_triangle|]. rewrite norm_scal, (Rabs_left (-1)) by lra. lra. }
  assert (H2 : gamma * norm (A (x [-] xs)) <= gamma * (2 * r)) by (apply Rmult_le_compat_l; assumption).
  apply (Rmult_le_reg_r (1 - rho)); [lra|]. unfold Rdiv. rewrite Rmult_assoc, Rinv_l, Rmult_1_r by lra.
  set (a := sum_in S (x [-] xs)) in *. set (o := sum_out S (x [-] xs)) in *. set (t := sum_out S xs) in *. set (g := gamma * norm (A (x [-] xs))) in *.
  assert (K : o * (1 - rho) <= 2 * t + g) by nra. nra.
Qed.

Lemma RS_sq_le n h : (forall i, (i < n)%nat -> 0 <= h i) -> RS n (fun i => h i * h i) <= RS n h * RS n h.
Proof.
  induction n as [|n IH]; intro H; cbn [RS]; [lra|]. specialize (IH (fun i Hi => H i ltac:(lia))). pose proof (RS_nonneg n h (fun i Hi => H i ltac:(lia))). pose proof (H n ltac:(lia)).
  assert (0 <= RS n h * h n) by (apply Rmult_le_pos; assumption). lra.
Qed.
Lemma norm_le_sum_abs {n} (x : Vec n) : norm x <= sum_abs x.
Proof.
  unfold norm. rewrite <- (sqrt_square (sum_abs x)) by (apply RS_nonneg; intros; apply Rabs_pos). apply sqrt_le_1_alt. unfold norm2. rewrite vec_inner. unfold sum_abs.
  eapply Rle_trans; [|apply (RS_sq_le n (fun i => Rabs (get x i))); intros; apply Rabs_pos]. right. apply RS_ext. intros i _. rewrite <- Rabs_mult. symmetry. apply Rabs_right. apply Rle_ge, Rle_0_sqr.
Qed.
Lemma l1n_sum {n} lam (x : Vec n) : l1n lam x = lam * sum_abs x.
Proof. reflexivity. Qed.
Lemma scaled_min {n} (f : efun (Vec n)) lam (D : Vec n -> Prop) x : 0 < lam -> (forall y, edom f y <-> D y) -> (forall y, eval f y = lam * sum_abs y) ->
  is_min f x <-> is_min (mkEfun D sum_abs) x.
Proof.
  intros Hl Hd Hv. split; intros [H1 H2]; (split; [apply Hd; exact H1|]); intros y Hy; apply Hd in Hy; specialize (H2 y Hy); rewrite ?Hv in *; cbn [eval] in *.
  - apply (Rmult_le_reg_l lam); assumption.
  - apply Rmult_le_compat_l; [lra|exact H2].
Qed.
Definition e_l1 n lam c0 ch := XL1 n (const_sigma n lam) None c0 ch.
Lemma bp_level {n} (f : efun (Vec n)) lam : 0 < lam -> (forall y, eval f y = lam * sum_abs y) -> level_bounded f.
Proof.
  intros Hl Hv c. exists (c / lam). intros x _ Hx. rewrite Hv in Hx. eapply Rle_trans; [apply norm_le_sum_abs|]. apply (Rmult_le_reg_l lam); [exact Hl|]. replace (lam * (c / lam)) with c by (field; lra). exact Hx.
Qed.
Lemma affine_feasible {E F : IPS} (o : Op E) (A : linop E F) b : is_affine o A b -> exists x, A x = b.
Proof. intros (close & cg & Hc & _). exists (vzero [-] ladj A (cg (fun v => A (ladj A v)) (A vzero [-] b))). rewrite lapp_sub, Hc. vring. Qed.

(*! C92_basis_pursuit : f = AffineSet(A, b) (inner solver exact), g = L1(sigma), sigma > 0, tau > 0, 0 < eta < 2, any start, either order, real vectors: ADMM and
   DouglasRachfordSplitting never raise, basis pursuit has a solution, the x and z of ADMM and the x of DouglasRachfordSplitting converge to solutions, and the
   x of ADMM satisfies A x = b exactly after every iteration.  If b = A xs with xs zero outside S and A has the null space property on S, all of
   them converge to xs *)
Lemma C92_basis_pursuit_l : forall n (F : IPS) (A : linop (Vec n) F) b lam (f g : Op (Vec n)) x0 tau eta (gfirst : bool),
  is_affine f A b -> is_L1 g lam -> 0 < lam -> 0 < tau -> 0 < eta < 2 ->
  exists xs zs xd yd l l', (forall k, exists tr, ADMM f g (Some x0) tau k None gfirst = Ok (xs k, zs k, tr) /\ Forall (fun p => A (fst p) = b) tr) /\
    (forall k, A (xs (S k)) = b) /\ (forall k, exists tr, DouglasRachford f g x0 tau eta (S k) gfirst = Ok (xd k, yd k, tr)) /\
    is_min (basis_pursuit A b) l /\ is_min (basis_pursuit A b) l' /\ vcv xs l /\ vcv zs l /\ vcv xd l' /\
    forall S x, supported S x -> null_space A S -> b = A x -> l = x /\ l' = x.
Proof.
  intros n F A b lam f g x0 tau eta gfirst Hf Hg Hl Ht He. destruct (affine_feasible f A b Hf) as [xf Hxf]. destruct Hf as (close & cg & Hc & Ef). destruct Hg as (c0 & ch & Eg).
  set (e1 := XAffine (Vec n) F close cg A b). set (e2 := e_l1 n lam c0 ch).
  assert (A1 : admissible e1) by exact Hc. assert (A2 : admissible e2) by (apply const_nonneg; lra).
  set (J := eadd (denote e1) (denote e2)).
  assert (DJ : forall y, edom J y <-> A y = b) by (intro y; cbn; tauto).
  assert (VJ : forall y, eval J y = lam * sum_abs y) by (intro y; unfold J; cbn [eval eadd denote e1 e2 e_l1 indic etot]; rewrite wl1_const, Rplus_0_l; apply l1n_sum).
  assert (M : forall y, is_min J y <-> is_min (basis_pursuit A b) y) by (intro y; apply (scaled_min J lam); assumption).
  destruct (proj1 C85_expr_solvers_l 0%nat (Vec n) e1 e2 x0 tau eta gfirst (proj1 (proj2 C75_arrays_l) n) (hb_vec n) (complete_pow R_IPS n complete_R) (described_pow R_IPS n described_R) A1 A2 I I Ht He)
    as (o1 & o2 & B1 & B2 & (xd & yd & l' & HD & Ml' & Vd) & (xs & zs & l & HA & Ml & Vx & Vz)).
  { exists xf. left. split; [exact Hxf|]. exists 1. split; [lra|]. intros; exact I. }
  { apply (bp_level _ lam); assumption. }
  assert (F1 : build 0 e1 = Ok f) by (rewrite Ef; reflexivity). assert (F2 : build 0 e2 = Ok g) by (rewrite Eg; reflexivity).
  rewrite F1 in B1. rewrite F2 in B2. injection B1 as <-. injection B2 as <-.
  destruct (expr_good 0 (Vec n) e1 A1) as (o1 & B1 & C1 & I1 & _). destruct (expr_good 0 (Vec n) e2 A2) as (o2 & B2 & C2 & I2 & _).
  rewrite F1 in B1. rewrite F2 in B2. injection B1 as <-. injection B2 as <-.
  assert (T : forall k, exists tr, ADMM f g (Some x0) tau k None gfirst = Ok (xs k, zs k, tr) /\ Forall (fun p => A (fst p) = b) tr /\ ((0 < k)%nat -> A (xs k) = b)).
  { intro k. destruct (HA k) as [tr Er]. exists tr. split; [exact Er|].
    assert (R : exists X Z, ADMM f g (Some x0) tau k None gfirst = Ok (X k, Z k, map (fun j => (X j, Z j)) (seq 1 k)) /\ forall j, (1 <= j <= k)%nat -> A (X j) = b).
    { destruct gfirst.
      - destruct (C47_lyapunov_gfirst_l (Vec n) f g (denote e1) (denote e2) tau (Some x0) None k x0 x0 I1 I2 C1 C2 Ht eq_refl) as (X & Z & U & E1 & _ & _ & Hd & _). exists X, Z. split; [exact E1|]. intros j Hj. apply (Hd j Hj).
      - destruct (C47_lyapunov_l (Vec n) f g (denote e1) (denote e2) tau (Some x0) None k x0 x0 I1 I2 C1 C2 Ht eq_refl) as (X & Z & U & E1 & _ & _ & Hd & _). exists X, Z. split; [exact E1|]. intros j Hj. apply (Hd j Hj). }
    destruct R as (X & Z & E1 & Hd). rewrite E1 in Er. injection Er as Ex Ez Et. split.
    - rewrite <- Et. apply Forall_forall. intros p Hp. apply in_map_iff in Hp. destruct Hp as (j & <- & Hj). apply in_seq in Hj. apply Hd. lia.
    - intro Hk. rewrite <- Ex. apply Hd. lia. }
  exists xs, zs, xd, yd, l, l'. split; [intro k; destruct (T k) as (tr & H1 & H2 & _); exists tr; auto|]. split; [intro k; destruct (T (S k)) as (tr & _ & _ & H); apply H; lia|].
  split; [exact HD|]. apply M in Ml. apply M in Ml'. split; [exact Ml|]. split; [exact Ml'|]. split; [exact Vx|]. split; [exact Vz|]. split; [exact Vd|].
  intros S x Hs Hn Hb. rewrite Hb in Ml, Ml'. split; apply (proj2 (C92_recovery_l n F A S) Hn x Hs); assumption.
Qed.

(*! C92_certificate : x solves basis pursuit exactly when A x = b and for some v the vector c = A^T v has |c_i| <= 1 everywhere, c_i = 1 where x_i > 0 and c_i = -1
   where x_i < 0 (whenever (A A^T) v = A z is solvable for every z, as the AffineSet object needs) *)
Lemma C92_certificate_l : forall n (F : IPS) (A : linop (Vec n) F) b x, (forall z, exists v, A (ladj A v) = A z) ->
  is_min (basis_pursuit A b) x <-> A x = b /\ exists v, forall i, (i < n)%nat -> let c := get (ladj A v) i in Rabs c <= 1 /\ (0 < get x i -> c = 1) /\ (get x i < 0 -> c = - 1).
Proof.
  intros n F A b x Hs. assert (L1 : 0 <= 1) by lra.
  assert (M : forall y, is_min (eadd (indic (fun z => A z = b)) (etot (l1n 1))) y <-> is_min (basis_pursuit A b) y).
  { intro y. apply (scaled_min _ 1); [lra| |]; intro z; cbn [edom eval eadd indic etot]; [tauto|rewrite l1n_sum; ring]. }
  split.
  - intro Hm. split; [apply Hm|]. apply M in Hm.
    assert (CI : convex (indic (fun z => A z = b))).
    { intros y z t Hy Hz Ht. cbn [edom eval indic] in *. split; [rewrite lapp_add, !lapp_scal, Hy, Hz; vring|lra]. }
    assert (QI : qualified2 (indic (fun z => A z = b)) (etot (l1n (n:=n) 1))) by (exists x; left; split; [apply Hm|]; exists 1; split; [lra|]; intros; exact I).
    destruct (proj1 (mult_two (indic (fun z => A z = b)) (etot (l1n 1)) x (hb_vec n) CI (l1n_convex n 1 L1) QI) Hm) as [u [Hu1 Hu2]].
    destruct (Hs u) as [v Hv]. exists (vopp v).
    assert (Eu : ladj A v = u).
    { assert (Hk : A (u [-] ladj A v) = vzero) by (rewrite lapp_sub, Hv; vring).
      destruct Hu1 as [Hd Hu1]. cbn [edom eval indic] in *. assert (P : forall w, A w = vzero -> << u, w >> <= 0).
      { intros w Hw. specialize (Hu1 (x [+] w)). rewrite lapp_add, Hw in Hu1. specialize (Hu1 ltac:(rewrite Hd; vring)). replace (x [+] w [-] x) with w in Hu1 by vring. lra. }
      specialize (P _ Hk). assert (Q : << ladj A v, u [-] ladj A v >> = 0) by (rewrite inner_sym, <- ladj_spec, Hk; apply inner_zero_l).
      assert (Z : norm2 (u [-] ladj A v) = 0). { apply Rle_antisym; [|apply norm2_nonneg]. replace (norm2 (u [-] ladj A v)) with (<< u, u [-] ladj A v >> - << ladj A v, u [-] ladj A v >>) by (unfold norm2; rewrite inner_sub_l; ring). lra. }
      apply norm2_eq0 in Z. replace (ladj A v) with (u [-] (u [-] ladj A v)) by vring. rewrite Z. vring. }
    replace (ladj A (vopp v)) with (vopp u) by (rewrite <- Eu; unfold vopp; rewrite ladj_scal; reflexivity). apply (l1n_subgrad n 1); [lra|exact Hu2].
  - intros [Hx [v Hv]]. apply (l1n_subgrad n 1 x (ladj A v) L1) in Hv. destruct Hv as [_ Hv]. split; [exact Hx|]. intros y Hy. cbn [edom eval basis_pursuit etot] in *. specialize (Hv y I). rewrite !l1n_sum in Hv.
    rewrite inner_sym, <- ladj_spec, lapp_sub, Hy, Hx in Hv. replace (b [-] b) with (vzero : F) in Hv by vring. rewrite inner_zero_l in Hv. lra.
Qed.

(*! C92_noise : f = L1(sigma), g = EuclideanBall(b, r) on real vectors, sigma, r > 0, some x has |A x - b| < r, theta = 1, steps with tau mu |A a|^2 <= |a|^2, any start,
   either order: PrimalDual never raises and its x converges to a solution l of  min sum_i |x_i| s.t. |A x - b| <= r; so does LinearizedADMM when
   mu |A a|^2 <= tau |a|^2.  If A has the quantitative null space property on S, every solution, hence each limit, is within
   (2 (1 + rho) sum_(i not in S) |xs_i| + 4 gamma r) / (1 - rho) of every xs with |A xs - b| <= r *)
Lemma C92_noise_l : forall n m (A : linop (Vec n) (Vec m)) b r lam (f : Op (Vec n)) (g : Op (Vec m)) x0 tau mu (gfirst : bool),
  is_L1 f lam -> is_ball g b r -> 0 < lam -> 0 < r -> 0 < tau -> 0 < mu -> (exists x, norm (A x [-] b) < r) ->
  ((forall a, tau * mu * norm2 (A a) <= norm2 a) ->
    exists xs ys l, (forall k, exists tr, PrimalDual f g A None x0 (Scalar tau) (Scalar mu) None None 1 k gfirst = Ok (xs k, ys k, tr)) /\ vcv xs l /\ is_min (basis_pursuit_noise A b r) l /\
      forall S rho gamma z, 0 <= rho < 1 -> 0 <= gamma -> robust_null_space A S rho gamma -> norm (A z [-] b) <= r -> sum_abs (l [-] z) <= (2 * (1 + rho) * sum_out S z + 4 * gamma * r) / (1 - rho)) /\
  ((forall a, mu * norm2 (A a) <= tau * norm2 a) ->
    exists xs zs l, (forall k, exists tr, LinearizedADMM f g A (Some x0) tau mu k None = Ok (xs k, zs k, tr)) /\ vcv xs l /\ vcv zs (A l) /\ (forall k, norm (zs (S k) [-] b) <= r) /\ is_min (basis_pursuit_noise A b r) l /\
      forall S rho gamma z, 0 <= rho < 1 -> 0 <= gamma -> robust_null_space A S rho gamma -> norm (A z [-] b) <= r -> sum_abs (l [-] z) <= (2 * (1 + rho) * sum_out S z + 4 * gamma * r) / (1 - rho)).
Proof.
  intros n m A b r lam f g x0 tau mu gfirst (c0 & ch & Ef) Eg Hl Hr Ht Hmu [xf Hxf].
  set (e1 := e_l1 n lam c0 ch). set (e2 := XBall (Vec m) b r).
  assert (A1 : admissible e1) by (apply const_nonneg; lra). assert (A2 : admissible e2) by exact Hr.
  set (J := eadd (denote e1) (epre (denote e2) (lapp A))).
  assert (DJ : forall y, edom J y <-> norm (A y [-] b) <= r) by (intro y; cbn; tauto).
  assert (VJ : forall y, eval J y = lam * sum_abs y) by (intro y; unfold J; cbn [eval eadd epre denote e1 e2 e_l1 indic etot]; rewrite wl1_const, Rplus_0_r; apply l1n_sum).
  assert (M : forall y, is_min J y <-> is_min (basis_pursuit_noise A b r) y) by (intro y; apply (scaled_min J lam); assumption).
  destruct (vec_bounded n _ A) as (CA & CA0 & HA).
  destruct (proj1 (proj2 C85_expr_solvers_l) 0%nat (Vec n) (Vec m) e1 e2 A (sqrt (CA / 1)) x0 tau mu 1 gfirst (proj1 (proj2 C75_arrays_l) n) (proj1 (proj2 C75_arrays_l) m) (hb_vec m) (complete_pow R_IPS n complete_R) (described_pow R_IPS n described_R) A1 A2 I I)
    as (o1 & o2 & B1 & B2 & RL & RP); try lra.
  { apply bound_of_step; [lra|exact CA0|intro v; rewrite Rmult_1_l; apply HA]. }
  { exists xf. split; [exact I|]. exists (r - norm (A xf [-] b)). split; [lra|]. intros v Hv. change (norm (A xf [+] v [-] b) <= r). replace (A xf [+] v [-] b) with ((A xf [-] b) [+] v) by vring. eapply Rle_trans; [apply norm_triangle|]. lra. }
  { apply (bp_level _ lam); assumption. }
  assert (F1 : build 0 e1 = Ok f) by (rewrite Ef; reflexivity). assert (F2 : build 0 e2 = Ok g) by (rewrite Eg; reflexivity).
  rewrite F1 in B1. rewrite F2 in B2. injection B1 as <-. injection B2 as <-. split; intro H.
  - destruct RP as (xs & ys & l & yl & H1 & H2 & H3 & H4); [intro a; rewrite Rmult_1_l; apply H|]. apply M in H2. exists xs, ys, l. repeat (split; [assumption|]).
    intros S rho gamma z Hrho Hg Hn Hz. apply (C92_stable_l n (Vec m) A S rho gamma b r z l); assumption.
  - destruct RL as (xs & zs & l & H1 & H2 & H3 & H4); [intro a; rewrite Rmult_1_l; apply H|]. apply M in H2. exists xs, zs, l. split; [assumption|]. split; [assumption|]. split; [assumption|]. split.
    { intro k. destruct (H1 (S k)) as [tr Hk]. destruct (expr_good 0 (Vec n) e1 A1) as (o1 & B1 & C1 & I1 & _). destruct (expr_good 0 (Vec m) e2 A2) as (o2 & B2 & C2 & I2 & _).
      rewrite F1 in B1. rewrite F2 in B2. injection B1 as <-. injection B2 as <-.
      destruct (C51_linearized_admm_l (Vec n) (Vec m) f g (denote e1) (denote e2) A tau mu x0 (S k) I1 I2 C1 C2 Ht Hmu H) as (X & Z & U & E1 & _ & _ & _ & _ & Hd & _).
      rewrite E1 in Hk. injection Hk as _ <- _. apply (Hd (S k)). lia. }
    split; [assumption|]. intros S rho gamma z Hrho Hg Hn Hz. apply (C92_stable_l n (Vec m) A S rho gamma b r z l); assumption.
Qed.

Lemma box_entries {n} (lu : nlist bounds n) (x : Vec n) : box_set lu x <-> forall i, (i < n)%nat -> within (nth i (proj1_sig lu) (None, None)) (get x i).
Proof.
  unfold box_set, get, lst. destruct lu as [lu Hl], x as [x Hx]. cbn [proj1_sig]. revert n lu Hl Hx. induction x as [|a x IH]; intros n [|c lu] Hl Hx; simpl in Hl, Hx; rewrite <- Hx in *; clear Hx n; try discriminate.
  - split; [intros _ i Hi; lia|intros _; constructor].
  - injection Hl as Hl. specialize (IH (List.length x) lu Hl eq_refl). split.
    + intro H. inversion H; subst. intros [|i] Hi; cbn [nth List.length] in *; [assumption|]. apply IH; [assumption|exact (proj2 (Nat.succ_lt_mono _ _) Hi)].
    + intro H. constructor; [apply (H 0%nat); apply Nat.lt_0_succ|]. apply IH. intros i Hi. apply (H (S i)). exact (proj1 (Nat.succ_lt_mono _ _) Hi).
Qed.
Lemma box_dom_iff {n} {F : IPS} (A : linop (Vec n) F) b s (lu : nlist bounds n) x : edom (bounded_ls A b s lu) x <-> box_set lu x.
Proof. rewrite box_entries. reflexivity. Qed.
Lemma bls_ext {n} {F : IPS} (A : linop (Vec n) F) b s e (lu : nlist bounds n) x : is_min (eadd (etot (sfit A b s)) (escal e (indic (box_set lu)))) x <-> is_min (bounded_ls A b s lu) x.
Proof.
  split; intros [H1 H2].
  - split; [apply box_dom_iff; apply H1|]. intros y Hy. apply box_dom_iff in Hy. specialize (H2 y (Logic.conj I Hy)). cbn [eval eadd escal indic etot bounded_ls] in *. unfold sfit in H2. lra.
  - split; [split; [exact I|apply box_dom_iff in H1; exact H1]|]. intros y [_ Hy]. cbn [edom escal indic] in Hy. apply (box_dom_iff A b s) in Hy. specialize (H2 y Hy). cbn [eval eadd escal indic etot bounded_ls] in *. unfold sfit. lra.
Qed.
Lemma box_convex n (lu : nlist bounds n) : convex (indic (box_set lu)).
Proof.
  intros x y t Hx Hy Ht. cbn [edom eval indic] in *. split; [|lra]. rewrite box_entries in *. intros i Hi. specialize (Hx i Hi). specialize (Hy i Hi). rewrite get_add, !get_scal by auto. destruct Hx as [X1 X2], Hy as [Y1 Y2].
  split; intros c Hc; [specialize (X1 c Hc); specialize (Y1 c Hc)|specialize (X2 c Hc); specialize (Y2 c Hc)]; nra.
Qed.
Lemma box_facts n (g : Op (Vec n)) (lu : nlist bounds n) : is_box g lu -> Forall bounds_ok (proj1_sig lu) -> impl_prox g (indic (box_set lu)) /\ closed (indic (box_set lu)).
Proof.
  intros Hg Hok. split.
  - destruct (expr_good 0 (Vec n) (XBox n lu) Hok) as (o & B & _ & Hi & _). assert (E : build 0 (XBox n lu) = Ok g) by (rewrite Hg; reflexivity). rewrite E in B. injection B as <-. exact Hi.
  - exact (expr_closed _ (XBox n lu) Hok I).
Qed.

(*! C92_box_optimality : x minimises s/2 |A x - b|^2 subject to lower_i <= x_i <= upper_i (each bound optional) exactly when x satisfies the bounds and, with
   c = s A^T(b - A x), c_i > 0 only where x_i is at its upper bound and c_i < 0 only where x_i is at its lower bound *)
Lemma C92_box_optimality_l : forall n (F : IPS) (A : linop (Vec n) F) b s (lu : nlist bounds n) x, 0 < s ->
  is_min (bounded_ls A b s lu) x <-> edom (bounded_ls A b s lu) x /\
    forall i, (i < n)%nat -> let c := s * get (ladj A (b [-] A x)) i in (0 < c -> upper_of lu i = Some (get x i)) /\ (c < 0 -> lower_of lu i = Some (get x i)).
Proof.
  intros n F A b s lu x Hs. destruct (sfit_smooth_convex n F A b s Hs) as (L & HL & HA & Hsm).
  assert (E : vopp (dsfit A b s x) = s [*] ladj A (b [-] A x)) by (unfold dsfit; rewrite !ladj_sub; vring).
  assert (M : is_min (bounded_ls A b s lu) x <-> is_min (eadd (etot (sfit A b s)) (indic (box_set lu))) x).
  { rewrite <- (bls_ext A b s 1 lu x). unfold is_min. cbn [edom eval eadd escal indic etot]. setoid_rewrite Rmult_0_r. reflexivity. }
  split.
  - intro Hm. split; [apply Hm|]. apply M in Hm. pose proof (min_sum_subgrad_inv _ _ L _ x (Rlt_le _ _ HL) Hsm (box_convex n lu) Hm) as [Hd Hg]. rewrite E in Hg. cbn [edom eval indic] in *.
    (* moving one entry *)
    assert (P : forall i v, (i < n)%nat -> within (nth i (proj1_sig lu) (None, None)) v -> s * get (ladj A (b [-] A x)) i * (v - get x i) <= 0).
    { intros i v Hi Hv. set (y := vtab n (fun j => if Nat.eqb i j then v else get x j)).
      assert (Hy : box_set lu y). { rewrite box_entries in *. intros j Hj. unfold y. rewrite get_vtab by auto. destruct (Nat.eqb_spec i j) as [<-|]; [exact Hv|apply Hd; exact Hj]. }
      specialize (Hg y Hy). rewrite vec_inner in Hg.
      rewrite (RS_ext n _ (fun j => get (s [*] ladj A (b [-] A x)) j * (v - get x j) * (if Nat.eqb i j then 1 else 0))) in Hg.
      - rewrite (RS_delta n i (fun j => get (s [*] ladj A (b [-] A x)) j * (v - get x j)) Hi), get_scal in Hg by auto. lra.
      - intros j Hj. rewrite get_sub by auto. unfold y. rewrite get_vtab by auto. destruct (Nat.eqb i j); ring. }
    cbn [edom indic] in Hd. intros i Hi. set (c := s * get (ladj A (b [-] A x)) i) in *. rewrite box_entries in Hd. specialize (Hd i Hi). unfold lower_of, upper_of. split; intro Hc.
    + destruct (snd (nth i (proj1_sig lu) (None, None))) as [u|] eqn:Eu.
      * f_equal. assert (W : within (nth i (proj1_sig lu) (None, None)) u). { split; [intros l Hl; apply Rle_trans with (get x i); [apply (proj1 Hd l Hl)|apply (proj2 Hd u Eu)]|intros u' Hu'; rewrite Eu in Hu'; injection Hu' as <-; lra]. }
        specialize (P i u Hi W). fold c in P. pose proof (proj2 Hd u Eu). nra.
      * exfalso. assert (W : within (nth i (proj1_sig lu) (None, None)) (get x i + 1)). { split; [intros l Hl; pose proof (proj1 Hd l Hl); lra|intros u' Hu'; rewrite Eu in Hu'; discriminate]. }
        specialize (P i _ Hi W). fold c in P. nra.
    + destruct (fst (nth i (proj1_sig lu) (None, None))) as [l|] eqn:El.
      * f_equal. assert (W : within (nth i (proj1_sig lu) (None, None)) l). { split; [intros l' Hl'; rewrite El in Hl'; injection Hl' as <-; lra|intros u Hu; apply Rle_trans with (get x i); [apply (proj1 Hd l El)|apply (proj2 Hd u Hu)]]. }
        specialize (P i l Hi W). fold c in P. pose proof (proj1 Hd l El). nra.
      * exfalso. assert (W : within (nth i (proj1_sig lu) (None, None)) (get x i - 1)). { split; [intros l' Hl'; rewrite El in Hl'; discriminate|intros u Hu; pose proof (proj2 Hd u Hu); lra]. }
        specialize (P i _ Hi W). fold c in P. nra.
  - intros [Hd Hc]. apply M. destruct (vec_bounded n F A) as [C [C0 HC]]. apply (min_sum_subgrad _ _ _ (dsfit A b s x)); [apply sfit_convex; lra|exact (sfit_grad A b s C C0 HC x)|].
    rewrite E. pose proof (proj1 (box_dom_iff A b s lu x) Hd) as Hx. split; [exact Hx|]. intros y Hy. cbn [edom eval indic] in *. rewrite Rplus_0_l. rewrite vec_inner.
    rewrite <- (RS_zero n). apply RS_le. intros i Hi. rewrite get_scal, get_sub by auto. specialize (Hc i Hi). cbv zeta in Hc. rewrite box_entries in Hy. specialize (Hy i Hi). unfold upper_of, lower_of in Hc.
    destruct Hc as [Hc1 Hc2], Hy as [Y1 Y2]. set (c := s * get (ladj A (b [-] A x)) i) in *.
    destruct (Rtotal_order c 0) as [Hlt|[Heq|Hgt]]; [specialize (Y1 _ (Hc2 Hlt)); nra|rewrite Heq; lra|specialize (Y2 _ (Hc1 Hgt)); nra].
Qed.

(*! C92_box : f = L2(Op=A, b=b, sigma=s), g = Box(lower, upper) with lower <= upper, epsg > 0, s |A v|^2 <= L |v|^2: if all the bounds are given, or more generally if
   the bounded least-squares problem has a solution, ProximalGradient with 0 < tau < 2/L and no acceleration never raises, every returned vector satisfies the
   bounds, they converge to a solution, and for tau <= 1/L the misfit after k iterations exceeds that of any vector z within the bounds by at most |x0 - z|^2/(2 tau k); with
   acceleration the excess over a solution z is at most 2 |x0 - z|^2/(tau (k+1)^2) *)
Lemma C92_box_l : forall n m (A : linop (Vec n) (Vec m)) b s (lu : nlist bounds n) (f g : Op (Vec n)) e L x0 tau beta niterback,
  is_L2 f A b s -> is_box g lu -> Forall bounds_ok (proj1_sig lu) -> 0 < s -> 0 < e -> 0 < L -> (forall v, s * norm2 (A v) <= L * norm2 v) -> 0 < tau < 2 / L ->
  ((forall i, (i < n)%nat -> lower_of lu i <> None /\ upper_of lu i <> None) -> exists z, is_min (bounded_ls A b s lu) z) /\
  ((exists z, is_min (bounded_ls A b s lu) z) -> forall accel, accel = None \/ accel = Some "None"%string ->
    exists xs l, xs 0%nat = x0 /\ (forall k, ProximalGradient f g x0 [e] (Some tau) false beta 1 (S k) niterback accel None = Ok (xs (S k), map xs (seq 1 (S k)))) /\
    (forall k, edom (bounded_ls A b s lu) (xs (S k))) /\ is_min (bounded_ls A b s lu) l /\ vcv xs l /\
    (tau <= / L -> forall k z, edom (bounded_ls A b s lu) z -> eval (bounded_ls A b s lu) (xs (S k)) - eval (bounded_ls A b s lu) z <= norm2 (x0 [-] z) / (2 * tau * INR (S k)))) /\
  (tau <= / L -> forall accel k, accel = Some "vandenberghe"%string \/ accel = Some "fista"%string -> (1 <= k)%nat ->
    exists x tr, ProximalGradient f g x0 [e] (Some tau) false beta 1 k niterback accel None = Ok (x, tr) /\ edom (bounded_ls A b s lu) x /\
    forall z, is_min (bounded_ls A b s lu) z -> eval (bounded_ls A b s lu) x - eval (bounded_ls A b s lu) z <= 2 * norm2 (x0 [-] z) / (tau * (INR k + 1)^2)).
Proof.
  intros n m A b s lu f g e L x0 tau beta nb Hf Hg Hok Hs He HL HA Ht. pose proof (L2_smooth_op f A b s L Hs HL Hf HA) as Hsm. destruct (box_facts n g lu Hg Hok) as [Hp Hcl]. pose proof (box_convex n lu) as Hcv.
  assert (HtL : tau * L < 2) by (replace 2 with (2 / L * L) by (field; lra); apply Rmult_lt_compat_r; lra).
  split; [|split].
  - intro Hb. destruct (proj1 C85_proximal_gradient_l (Vec n) f g (sfit A b s) (dsfit A b s) L (indic (box_set lu)) 1 x0 (/ L) beta 1 nb None (proj1 (proj2 C75_arrays_l) n) (complete_pow R_IPS n complete_R) (described_pow R_IPS n described_R) Hsm Hp Hcv Hcl) as (_ & l & _ & _ & Hm & _); try lra.
    + replace (/ L * L) with 1 by (field; lra). lra.
    + left; reflexivity.
    + set (B := fun i => Rabs (match lower_of lu i with Some l => l | None => 0 end) + Rabs (match upper_of lu i with Some u => u | None => 0 end)).
      intro c. exists (RS n B). intros x [_ Hx] _. cbn [edom escal indic] in Hx. rewrite box_entries in Hx. eapply Rle_trans; [apply norm_le_sum_abs|]. apply RS_le. intros i Hi. specialize (Hx i Hi). specialize (Hb i Hi). unfold B, lower_of, upper_of in *.
      destruct Hx as [X1 X2]. destruct (fst (nth i (proj1_sig lu) (None, None))) as [l|]; [|exfalso; apply (proj1 Hb); reflexivity]. destruct (snd (nth i (proj1_sig lu) (None, None))) as [u|]; [|exfalso; apply (proj2 Hb); reflexivity].
      specialize (X1 l eq_refl). specialize (X2 u eq_refl). unfold Rabs. repeat destruct (Rcase_abs _); lra.
    + exists l. apply bls_ext in Hm. exact Hm.
  - intros [z0 Hz0] accel Hac.
    destruct (C75_proximal_gradient_l (Vec n) f g (sfit A b s) (dsfit A b s) L (indic (box_set lu)) e x0 tau beta 1 nb accel) as (xs & l & X0 & HR & Hm & Hv); auto.
    + apply (proj1 (proj2 C75_arrays_l)).
    + lra.
    + lra.
    + destruct Hac as [-> | ->]; [left; reflexivity|right; left; reflexivity].
    + exists z0. apply bls_ext. exact Hz0.
    + exists xs, l. split; [exact X0|]. split; [exact HR|]. split; [|split; [apply (bls_ext A b s e), Hm|split; [exact Hv|]]].
      * intro k. apply box_dom_iff. pose proof (HR k) as Hk.
        destruct (C43_recursion_l (Vec n) f g (sfit A b s) (dsfit A b s) (indic (box_set lu)) (fun _ => 0) [e] (fun _ => e) x0 tau beta (S k) nb accel None (proj1 Hsm) (proj1 (proj2 Hsm)) Hp) as (X & Y & q & Er & X00 & [_ Hd] & Hs').
        { left. exists e. repeat split; auto; lia. }
        { intros; exact He. }
        { lra. }
        { destruct Hac; subst; reflexivity. }
        { intro Hq; contradiction Hq; reflexivity. }
        cbn in Hs'. subst q. rewrite Er in Hk. injection Hk as <- _. destruct (Hd k ltac:(lia)) as (p & Hpp & Ex & _). rewrite Ex. replace (Y k [+] 1 [*] (p [-] Y k)) with p by vring. apply Hpp.
      * intros Ht1 k z Hz. apply box_dom_iff in Hz.
        destruct (C41_rate_l (Vec n) f g (sfit A b s) (dsfit A b s) L (indic (box_set lu)) (fun _ => 0) e x0 tau beta (S k) nb accel None Hsm Hp Hcv He ltac:(lra) ltac:(lia) Hac ltac:(intro Hq; contradiction Hq; reflexivity))
        as (x & tr & k' & E & _ & _ & Hk & _ & Hr & _). injection (Hk eq_refl) as ->. rewrite HR in E. injection E as -> _. specialize (Hr z (Logic.conj I Hz)). cbn [eval eadd etot escal indic] in Hr.
        unfold sfit in Hr. cbn [eval bounded_ls]. lra.
  - intros Ht1 accel k Hac Hk.
    destruct (C42_accelerated_rate_l (Vec n) f g (sfit A b s) (dsfit A b s) L (indic (box_set lu)) (fun _ => 0) e x0 tau beta k nb accel None Hsm Hp Hcv He ltac:(lra) Hk Hac ltac:(intro Hq; contradiction Hq; reflexivity))
    as (x & tr & k' & E & _ & _ & Hk' & Hd & Hr). rewrite (Hk' eq_refl) in Hr. exists x, tr. split; [exact E|]. split; [apply box_dom_iff; apply Hd|]. intros z Hz. specialize (Hr z (proj2 (bls_ext A b s e lu z) Hz)).
    cbn [eval eadd etot escal indic] in Hr. unfold sfit in Hr. cbn [eval bounded_ls]. lra.
Qed.

Definition row12 : linop (Vec 2) (Vec 1).
Proof.
  refine (mkLinop (Vec 2) (Vec 1) (fun x => vtab 1 (fun _ => get x 0 + 2 * get x 1)) (fun y => vtab 2 (fun i => if Nat.eqb i 0 then get y 0 else 2 * get y 0)) _ _ _).
  - intros x y. apply vec_ext. intros i Hi. repeat first [rewrite get_vtab by lia | rewrite get_add by lia]. ring.
  - intros a x. apply vec_ext. intros i Hi. repeat first [rewrite get_vtab by lia | rewrite get_scal by lia]. ring.
  - intros x y. rewrite !vec_inner. cbn [RS]. rewrite !get_vtab by lia. cbn [Nat.eqb]. ring.
Defined.
Lemma row12_get x : get (row12 x) 0 = get x 0 + 2 * get x 1.
Proof. apply get_vtab. lia. Qed.
Lemma row12_norm2 x : norm2 (row12 x) = (get x 0 + 2 * get x 1) * (get x 0 + 2 * get x 1).
Proof. unfold norm2. rewrite vec_inner. cbn [RS]. rewrite row12_get. ring. Qed.

(*!ex C92_example : A x = x_0 + 2 x_1 on vectors of length 2: A has the null space property on {1} (also quantitatively with rho = gamma = 1/2) but not on {0}; the
   vector (0, 1) is zero outside {1}, AffineSet(A, 2), L2(A, 2), L1(1), EuclideanBall(2, 1) and Box([0,0],[1,1]) objects meet the hypotheses, and the step conditions hold with
   tau mu = 1/5 (PrimalDual), mu = 1, tau = 5 (LinearizedADMM) and L = 5 *)
Lemma C92_example_l : let A := row12 in let one := fun i => Nat.eqb i 1 in let zero := fun i => Nat.eqb i 0 in let xs := vtab 2 (fun i => if Nat.eqb i 1 then 1 else 0) in
  let lu : nlist bounds 2 := exist _ [(Some 0, Some 1); (Some 0, Some 1)] eq_refl in
  null_space A one /\ robust_null_space A one (1 / 2) (1 / 2) /\ ~ null_space A zero /\ supported one xs /\ A xs = vtab 1 (fun _ => 2) /\
  (exists f, is_affine f A (A xs)) /\ (exists f, is_L2 f A (A xs) 1) /\ (exists g : Op (Vec 2), is_L1 g 1) /\ (exists g, is_ball g (A xs) 1) /\ (exists g, is_box g lu) /\ norm (A xs [-] A xs) < 1 /\ Forall bounds_ok (proj1_sig lu) /\
  (forall i, (i < 2)%nat -> lower_of lu i <> None /\ upper_of lu i <> None) /\ edom (bounded_ls A (A xs) 1 lu) xs /\
  (forall a, 1 / 5 * 1 * norm2 (A a) <= norm2 a) /\ (forall a, 1 * norm2 (A a) <= 5 * norm2 a) /\ (forall z, exists v, A (ladj A v) = A z).
Proof.
  intros A one zero xs lu.
  assert (Z : forall h, A h = vzero -> get h 0 + 2 * get h 1 = 0) by (intros h Hh; rewrite <- row12_get; fold A; rewrite Hh; apply get_zero).
  assert (N : forall a, norm2 (A a) <= 5 * norm2 a).
  { intro a. unfold A. rewrite row12_norm2. unfold norm2. rewrite vec_inner. cbn [RS]. set (u := get a 0). set (v := get a 1). pose proof (Rle_0_sqr (2 * u - v)). unfold Rsqr in *. lra. }
  assert (K : forall z v, get v 0 = / 5 * get (A z) 0 -> A (ladj A v) = A z).
  { intros z v Hv. apply vec_ext. intros i Hi. replace i with 0%nat by lia. unfold A at 1. rewrite row12_get. unfold A at 1 2, row12. cbn [ladj]. rewrite !get_vtab by lia. cbn [Nat.eqb]. rewrite Hv. field. }
  split; [|split; [|split; [|split; [|split; [|split; [|split; [|split; [|split; [|split; [|split; [|split; [|split; [|split; [|split; [|split]]]]]]]]]]]]]]].
  - intros h Hh Hn. unfold sum_in, sum_out, one. cbn [RS Nat.eqb]. apply Z in Hh. assert (E0 : get h 0 = - (2) * get h 1) by lra. rewrite E0, Rabs_mult, Rabs_Ropp, (Rabs_right 2) by lra.
    assert (0 < Rabs (get h 1)); [|lra]. apply Rabs_pos_lt. intro H1. apply Hn. apply vec_ext. intros i Hi. rewrite get_zero. destruct i as [|[|i]]; [|assumption|lia]. rewrite E0, H1. ring.
  - intro h. unfold sum_in, sum_out, one. cbn [RS Nat.eqb]. unfold norm. unfold A. rewrite row12_norm2. fold (Rsqr (get h 0 + 2 * get h 1)). rewrite sqrt_Rsqr_abs. unfold Rabs. repeat destruct (Rcase_abs _); lra.
  - intro H. specialize (H (vtab 2 (fun i => if Nat.eqb i 0 then 2 else -1))). unfold sum_in, sum_out, zero in H. cbn [RS] in H. rewrite !get_vtab in H by lia. cbn [Nat.eqb] in H. rewrite (Rabs_right 2), (Rabs_left (-1)) in H by lra.
    assert (0 + 2 + 0 < 0 + 0 + - -1); [|lra]. apply H.
    + apply vec_ext. intros i Hi. replace i with 0%nat by lia. unfold A. rewrite row12_get, !get_vtab, get_zero by lia. cbn [Nat.eqb]. ring.
    + intro Hc. apply (f_equal (fun v => get v 0)) in Hc. rewrite get_vtab, get_zero in Hc by lia. cbn [Nat.eqb] in Hc. lra.
  - intros i Hi Hs. unfold xs. rewrite get_vtab by auto. unfold one in Hs. rewrite Hs. reflexivity.
  - apply vec_ext. intros i Hi. replace i with 0%nat by lia. unfold A. rewrite row12_get. unfold xs. rewrite !get_vtab by lia. cbn [Nat.eqb]. ring.
  - eexists. exists (fun _ _ => true), (fun _ y => / 5 [*] y). split; [|reflexivity]. intro x. rewrite <- lapp_sub. apply K. rewrite get_scal by lia. reflexivity.
  - eexists. apply (L2_exists 2 (Vec 1) A (A xs) 1 (mkL2 (WithOp A true (A xs)) None 1 true (fun _ => 10%nat) true Legacy DenseDefault) None); reflexivity.
  - eexists. exists 0%nat, (fun _ _ => 0%nat). reflexivity.
  - eexists. reflexivity.
  - eexists. reflexivity.
  - replace (A xs [-] A xs) with (vzero : Vec 1) by vring. rewrite norm_zero. lra.
  - cbn [proj1_sig lu]. apply Forall_forall. intros c Hc l u ->. destruct Hc as [Hc|[Hc|[]]]; injection Hc as <- <-; lra.
  - intros i Hi. unfold lower_of, upper_of. destruct i as [|[|i]]; [| |lia]; cbn; split; discriminate.
  - intros i Hi. unfold lower_of, upper_of, xs. rewrite get_vtab by auto. destruct i as [|[|i]]; [| |lia]; cbn; split; intros c Hc; injection Hc as <-; lra.
  - intro a. specialize (N a). lra.
  - intro a. specialize (N a). lra.
  - intro z. exists (vtab 1 (fun _ => / 5 * get (A z) 0)). apply K. apply get_vtab. lia.
Qed.
