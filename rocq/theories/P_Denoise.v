(** * Total-variation denoising with the solvers of the library *)
From Coq Require Import String Psatz ZArith Classical.
From Verif Require Import Base Space Spec ConvexFacts Sep Smooth VSum MatFacts M_ProxOp SpecOps P_ProxOp M_Norms P_Norms M_L1 P_L1 M_Bilin P_Bilin M_L2 S_L2 P_L2 M_Loop LoopFacts LoopFacts2 SeqFacts M_PG M_PD M_Split SplitMath P_PG P_PG2 S_Iter M_TV S_TV S_TV2 S_TV3 P_TV P_TV2 P_TV3 M_Seg M_Objs S_Lasso P_Lasso S_Seq S_Exist P_Exist S_Qual P_Qual S_Split3 S_Inexact InexactMath P_Inexact P_Iter S_PD P_Proj DualTV P_Iht M_Denoise.
From Verif Require Export S_Denoise.
Open Scope result_scope.
Open Scope R_scope.

Lemma RS_at n j (h : nat -> R) : (j < n)%nat -> (forall i, (i < n)%nat -> i <> j -> h i = 0) -> RS n h = h j.
Proof.
  intros Hj H. rewrite (RS_split_at n j h). apply Nat.ltb_lt in Hj. rewrite Hj. rewrite (RS_ext n _ (fun _ => 0)); [rewrite RS_zero; ring|]. intros i Hi. destruct (Nat.eqb_spec i j); auto.
Qed.
(** ** L21 on the flat array *)
Section Flat.
Variables (d N : nat).
Implicit Types p q y : Vec (d * N).
Lemma flat_dual p q : << p, q >> = RS N (fun i => RS d (fun a => get p (a * N + i) * get q (a * N + i))).
Proof. rewrite vec_inner, RS_flat, RS_swap. reflexivity. Qed.
Lemma pixel_nonneg p i : 0 <= pixel p i. Proof. apply sqrt_pos. Qed.
Lemma pixel_sq p i : pixel p i * pixel p i = RS d (fun a => get p (a * N + i) * get p (a * N + i)).
Proof. apply sqrt_sqrt. apply RS_nonneg. intros a _. apply Rle_0_sqr. Qed.
Lemma pixel_cs p q i : RS d (fun a => get p (a * N + i) * get q (a * N + i)) <= pixel p i * pixel q i.
Proof.
  pose proof (RS_cauchy d (fun a => get p (a * N + i)) (fun a => get q (a * N + i))) as H. cbv beta in H. rewrite <- !pixel_sq in H. pose proof (pixel_nonneg p i). pose proof (pixel_nonneg q i). set (v := RS d _) in *.
  apply Rnot_lt_le. intro Hl. assert (0 <= pixel p i * pixel q i) by (apply Rmult_le_pos; auto). assert ((pixel p i * pixel q i) * (pixel p i * pixel q i) < v * v) by nra. nra.
Qed.
Lemma pixel_scaled p q th i : 0 <= th -> (forall a, (a < d)%nat -> get q (a * N + i) = th * get p (a * N + i)) -> pixel q i = th * pixel p i.
Proof.
  intros Ht H. unfold pixel. rewrite (RS_ext _ _ (fun a => (th * th) * (get p (a * N + i) * get p (a * N + i)))); [|intros a Ha; rewrite H by auto; ring].
  rewrite RS_scal, sqrt_mult_alt by nra. rewrite sqrt_square by auto. reflexivity.
Qed.
Lemma pixel_scal c p i : (i < N)%nat -> 0 <= c -> pixel (c [*] p) i = c * pixel p i.
Proof. intros Hi Hc. apply pixel_scaled; auto. intros a Ha. apply get_scal. apply flat_lt; auto. Qed.
Lemma pixel_add p q i : (i < N)%nat -> pixel (p [+] q) i <= pixel p i + pixel q i.
Proof.
  intro Hi. pose proof (pixel_nonneg p i). pose proof (pixel_nonneg q i). pose proof (pixel_nonneg (p [+] q) i). pose proof (pixel_cs p q i) as Hc.
  assert (E : pixel (p [+] q) i * pixel (p [+] q) i = pixel p i * pixel p i + 2 * RS d (fun a => get p (a * N + i) * get q (a * N + i)) + pixel q i * pixel q i).
  { rewrite !pixel_sq, <- RS_scal, <- !RS_add. apply RS_ext. intros a Ha. rewrite get_add by (apply flat_lt; auto). ring. }
  nra.
Qed.
Lemma pixels_convex lam : 0 <= lam -> convex (etot (pixels (d:=d) (N:=N) lam)).
Proof.
  intros Hl p q t _ _ Ht. split; [exact I|]. cbn [eval etot]. unfold pixels.
  replace ((1 - t) * (lam * RS N (pixel p)) + t * (lam * RS N (pixel q))) with (lam * RS N (fun i => (1 - t) * pixel p i + t * pixel q i)) by (rewrite RS_add, !RS_scal; ring).
  apply Rmult_le_compat_l; [exact Hl|]. apply RS_le. intros i Hi. eapply Rle_trans; [apply pixel_add; exact Hi|]. rewrite !pixel_scal by (auto; lra). apply Rle_refl.
Qed.
Definition shrunk (sh : R) p : Vec (d * N) := vtab (d * N) (fun k => (1 - sh / Rmax (pixel p (k mod N)) sh) * get p k).
Lemma get_shrunk sh p a i : (a < d)%nat -> (i < N)%nat -> get (shrunk sh p) (a * N + i) = (1 - sh / Rmax (pixel p i) sh) * get p (a * N + i).
Proof. intros Ha Hi. unfold shrunk. rewrite get_vtab by (apply flat_lt; auto). destruct (divmod_flat N a i Hi) as [_ ->]. reflexivity. Qed.
Lemma pixels_prox lam tau p : 0 < lam -> 0 < tau -> is_prox (etot (pixels lam)) tau p (shrunk (tau * lam) p).
Proof.
  intros Hk Ht. apply subgrad_prox; auto. split; [exact I|]. intros y _. cbn [eval etot]. set (q := shrunk (tau * lam) p). unfold pixels. rewrite inner_scal_l, flat_dual.
  rewrite <- !RS_scal, <- RS_add. apply RS_le. intros i Hi. set (M := Rmax (pixel p i) (tau * lam)). assert (HM : 0 < M) by (unfold M; eapply Rlt_le_trans; [|apply Rmax_r]; nra).
  set (th := 1 - tau * lam / M). assert (Hq : tau * lam / M <= 1). { apply (Rmult_le_reg_r M); auto. unfold Rdiv. rewrite Rmult_assoc, Rinv_l, Rmult_1_r, Rmult_1_l by lra. apply Rmax_r. }
  assert (Hth : 0 <= th) by (unfold th; lra). assert (Hp : forall a, (a < d)%nat -> get q (a * N + i) = th * get p (a * N + i)) by (intros a Ha; unfold q; rewrite get_shrunk by auto; reflexivity).
  rewrite (pixel_scaled p q th i Hth Hp).
  rewrite (RS_ext _ _ (fun a => (tau * lam / M) * (get p (a * N + i) * get y (a * N + i)) - (tau * lam / M) * th * (get p (a * N + i) * get p (a * N + i)))).
  2:{ intros a Ha. rewrite !get_sub by (apply flat_lt; auto). rewrite !Hp by auto. unfold th. ring. }
  rewrite RS_sub, !RS_scal, <- pixel_sq. pose proof (pixel_cs p y i) as Hc. set (X := pixel p i) in *. set (Y := pixel y i) in *.
  assert (HX : 0 <= X) by apply pixel_nonneg. assert (HY : 0 <= Y) by apply pixel_nonneg. set (C := RS d (fun a => get p (a * N + i) * get y (a * N + i))) in *.
  replace (/ tau * (tau * lam / M * C - tau * lam / M * th * (X * X))) with (lam / M * C - lam / M * th * (X * X)) by (field; lra).
  assert (HXM : X <= M) by apply Rmax_l. assert (0 < lam / M) by (apply Rdiv_lt_0_compat; auto).
  assert (H1 : lam / M * C <= lam * Y). { apply Rle_trans with (lam / M * (M * Y)); [apply Rmult_le_compat_l; [lra|nra]|]. right. field. lra. }
  assert (H2 : th * X * (M - X) = 0). { unfold th, M, Rmax. destruct (Rle_dec X (tau * lam)); [replace (tau * lam / (tau * lam)) with 1 by (field; nra); ring|ring]. }
  assert (H3 : lam * (th * X) - lam / M * th * (X * X) = lam / M * (th * X * (M - X))) by (field; lra). rewrite H2 in H3. lra.
Qed.
Lemma pixels_ball lam p q : 0 <= lam -> pixels_le lam p -> << p, q >> <= pixels lam q.
Proof.
  intros Hl Hp. rewrite flat_dual. unfold pixels. rewrite <- RS_scal. apply RS_le. intros i Hi. eapply Rle_trans; [apply pixel_cs|]. apply Rmult_le_compat_r; [apply pixel_nonneg|apply Hp; exact Hi].
Qed.
Lemma pixels_zero lam : pixels lam (vzero : Vec (d * N)) = 0.
Proof.
  unfold pixels. rewrite (RS_ext N _ (fun _ => 0)); [rewrite RS_zero; ring|]. intros i Hi. unfold pixel. rewrite (RS_ext d _ (fun _ => 0)); [rewrite RS_zero; apply sqrt_0|]. intros a Ha. rewrite get_zero. ring.
Qed.
Lemma ball_of_bound lam p : 0 <= lam -> (forall q, << p, q >> <= pixels lam q) -> pixels_le lam p.
Proof.
  intros Hlam H j Hj. set (q := vtab (d * N) (fun k => if Nat.eqb (k mod N) j then get p k else 0)). specialize (H q).
  assert (Hq : forall a i, (a < d)%nat -> (i < N)%nat -> get q (a * N + i) = if Nat.eqb i j then get p (a * N + i) else 0).
  { intros a i Ha Hi. unfold q. rewrite get_vtab by (apply flat_lt; auto). destruct (divmod_flat N a i Hi) as [_ ->]. reflexivity. }
  assert (E1 : << p, q >> = pixel p j * pixel p j).
  { rewrite flat_dual, pixel_sq. rewrite (RS_at N j); auto.
    - apply RS_ext. intros a Ha. rewrite Hq, Nat.eqb_refl by auto. reflexivity.
    - intros i Hi Hij. rewrite (RS_ext d _ (fun _ => 0)); [apply RS_zero|]. intros a Ha. rewrite Hq by auto. destruct (Nat.eqb_spec i j); [contradiction|ring]. }
  assert (E2 : pixels lam q = lam * pixel p j).
  { unfold pixels. f_equal. rewrite (RS_at N j); auto.
    - unfold pixel. f_equal. apply RS_ext. intros a Ha. rewrite Hq, Nat.eqb_refl by auto. reflexivity.
    - intros i Hi Hij. unfold pixel. rewrite (RS_ext d _ (fun _ => 0)); [rewrite RS_zero; apply sqrt_0|]. intros a Ha. rewrite Hq by auto. destruct (Nat.eqb_spec i j); [contradiction|ring]. }
  rewrite E1, E2 in H. destruct (Rle_lt_dec (pixel p j) lam) as [|Hl]; auto. exfalso. pose proof (pixel_nonneg p j).
  nra.
Qed.
Lemma pixels_conj lam : 0 <= lam -> is_conj (etot (pixels (d:=d) (N:=N) lam)) (indic (pixels_le lam)).
Proof.
  intro Hl. split; [exists vzero; exact I|]. intro z. cbn [edom eval etot indic]. split.
  - split.
    + intro Hz. exists 0. intros y _. pose proof (pixels_ball lam z y Hl Hz). lra.
    + intros [M HM]. apply ball_of_bound; [exact Hl|]. intro q. apply Rnot_lt_le. intro Hlt. set (e := << z, q >> - pixels lam q) in *. assert (He : 0 < e) by (unfold e; lra).
      set (k := (Rabs M + 1) / e). assert (Hk : 0 < k) by (apply Rdiv_lt_0_compat; [pose proof (Rabs_pos M)|]; lra). specialize (HM (k [*] q) I). rewrite inner_scal_r in HM.
      assert (E : pixels lam (k [*] q) = k * pixels lam q). { unfold pixels. rewrite (RS_ext N _ (fun i => k * pixel q i)) by (intros i Hi; apply pixel_scal; [exact Hi|lra]). rewrite RS_scal. ring. }
      rewrite E in HM. assert (k * e = Rabs M + 1) by (unfold k; field; lra). assert (k * << z, q >> - k * pixels lam q = k * e) by (unfold e; ring). pose proof (Rle_abs M). lra.
  - intro Hz. split.
    + intros r (y & _ & ->). pose proof (pixels_ball lam z y Hl Hz). lra.
    + intros b Hb. apply Hb. exists vzero. split; [exact I|]. rewrite pixels_zero, inner_zero_r. ring.
Qed.
Definition clipped (lam : R) p : Vec (d * N) := vtab (d * N) (fun k => lam * get p k / Rmax (pixel p (k mod N)) lam).
Lemma clipped_prox lam tau p : 0 < lam -> 0 < tau -> is_prox (indic (pixels_le lam)) tau p (clipped lam p).
Proof.
  intros Hl Ht. assert (Hi : 0 < / tau) by (apply Rinv_0_lt_compat; exact Ht).
  pose proof (moreau_decomposition (etot (pixels lam)) _ (/ tau) (/ tau [*] p) _ (pixels_convex lam ltac:(lra)) (pixels_conj lam ltac:(lra)) Hi (pixels_prox lam (/ tau) (/ tau [*] p) Hl Hi)) as H.
  rewrite Rinv_inv in H. replace (tau [*] (/ tau [*] p)) with p in H by (vfield; lra).
  replace (clipped lam p) with (tau [*] (/ tau [*] p [-] shrunk (/ tau * lam) (/ tau [*] p))); [exact H|].
  apply vec_ext. intros k Hk. rewrite get_scal, get_sub, get_scal by exact Hk. unfold shrunk, clipped. rewrite !get_vtab by exact Hk. rewrite get_scal by exact Hk.
  assert (HN : (k mod N < N)%nat) by (apply Nat.mod_upper_bound; nia). rewrite (pixel_scal (/ tau) p _ HN) by lra.
  rewrite RmaxRmult by lra. assert (HM : 0 < Rmax (pixel p (k mod N)) lam) by (eapply Rlt_le_trans; [exact Hl|apply Rmax_r]). field. lra.
Qed.
End Flat.

Lemma sized_tab d N (f : nat -> nat -> R) (v : Vec (d * N)) : (forall a i, (a < d)%nat -> (i < N)%nat -> get v (a * N + i) = f a i) -> sized (n:=d * N) (Ok (tab d N f)) = Ok v.
Proof.
  intro H. unfold sized. cbn [bind]. assert (HL : length (tab d N f) = (d * N)%nat) by (unfold tab; rewrite map_length, seq_length; reflexivity).
  unfold as_vec. destruct (Nat.eq_dec (length (tab d N f)) (d * N)) as [e|Hn]; [|contradiction]. f_equal. apply (vec_ext _ (exist _ (tab d N f) e : Vec (d * N)) v). intros k Hk. unfold get at 1, lst, tab. cbn [proj1_sig].
  assert (HN : (N <> 0)%nat) by nia. rewrite (map_nth_lt _ _ k 0%nat 0) by (rewrite seq_length; exact Hk). rewrite seq_nth by exact Hk. cbn [Nat.add].
  rewrite <- H; [|apply Nat.div_lt_upper_bound; nia|apply Nat.mod_upper_bound; exact HN]. f_equal. pose proof (Nat.div_mod k N HN). lia.
Qed.
Lemma resh_ok {A} d N (x : Vec (d * N)) (k : nat -> result A) : (1 <= d)%nat -> resh d (lst x) k = k N.
Proof. intro Hd. unfold resh. rewrite lst_length. replace (d * N / d)%nat with N by (rewrite Nat.mul_comm, Nat.div_mul; lia). rewrite Nat.eqb_refl. reflexivity. Qed.
Lemma colnorm_pixel d N (x : Vec (d * N)) i : colnorm d N (lst x) i = pixel x i.
Proof. reflexivity. Qed.

(*! C98_l21 : L21(ndim, sigma) on the flat array of ndim * N entries (one axis after the other), sigma > 0: calling it gives sigma times the sum over the N pixels of the norm of their ndim entries,
   prox the exact proximal point of that function, proxdual that of its conjugate (the indicator of all pixel norms <= sigma); a length that is not a multiple of ndim raises ValueError *)
Lemma C98_l21_l : (forall d N fuel lam, (1 <= d)%nat -> 0 < lam -> let o := obj (S fuel) (l21_flat (n:=d * N) d lam) in
    impl_call o (etot (pixels (d:=d) (N:=N) lam)) /\ impl_prox o (etot (pixels (d:=d) (N:=N) lam)) /\
    is_conj (etot (pixels (d:=d) (N:=N) lam)) (indic (pixels_le lam)) /\ impl_proxdual o (indic (pixels_le (d:=d) (N:=N) lam))) /\
  (forall d n fuel lam (x : Vec n) tau, (1 <= d)%nat -> (n mod d <> 0)%nat -> let o := obj (S fuel) (l21_flat (n:=n) d lam) in
    o_call o x = Err ValueError /\ o_prox o x tau = Err ValueError /\ o_proxdual o x tau = Err ValueError).
Proof.
  split.
  - intros d N fuel lam Hd Hl o. split; [|split; [|split]].
    + intros x _. unfold o, obj, o_call, d_call. cbn [b_call l21_flat]. rewrite resh_ok by exact Hd. reflexivity.
    + intros x tau Ht. unfold o, obj, o_prox. cbn [d_prox b_prox l21_flat]. rewrite check_tau_pos by auto. rewrite resh_ok by exact Hd. exists (shrunk d N (tau * lam) x). split; [|apply pixels_prox; auto].
      apply sized_tab. intros a i Ha Hi. rewrite get_shrunk by auto. reflexivity.
    + apply pixels_conj. lra.
    + intros x tau Ht. unfold o, obj, o_proxdual. cbn [d_proxdual b_proxdual l21_flat]. rewrite check_tau_pos by auto. rewrite resh_ok by exact Hd. exists (clipped d N lam x). split; [|apply clipped_prox; auto].
      apply sized_tab. intros a i Ha Hi. unfold clipped. rewrite get_vtab by (apply flat_lt; auto). destruct (divmod_flat N a i Hi) as [_ ->]. reflexivity.
  - intros d n fuel lam x tau Hd Hn o. assert (E : forall A (k : nat -> result A), resh d (lst x) k = Err ValueError).
    { intros A k. unfold resh. rewrite lst_length. destruct (Nat.eqb_spec n (d * (n / d))) as [En|]; [|reflexivity]. exfalso. apply Hn. pose proof (Nat.div_mod n d ltac:(lia)). lia. }
    split; [|split].
    + unfold o, obj, o_call, d_call. cbn [b_call l21_flat]. apply E.
    + unfold o, obj, o_prox. cbn [d_prox b_prox l21_flat]. unfold check_tau. destruct (Rleb tau 0); [reflexivity|]. rewrite E. reflexivity.
    + unfold o, obj, o_proxdual. cbn [d_proxdual b_proxdual l21_flat]. unfold check_tau. destruct (Rleb tau 0); [reflexivity|]. rewrite E. reflexivity.
Qed.

(** ** The gradient *)
Section Grad.
Variables (dims : list nat) (c : R) (G : linop (Vec (nprod dims)) (Vec (length dims * nprod dims))).
Hypothesis Hdims : dims_ok dims.
Hypothesis HG : is_gradient dims c G.
Lemma grad_eq x : G x = c [*] gradop dims Hdims x.
Proof.
  apply dual_ext. intros a i Ha Hi. rewrite dent_scal by auto. unfold dent at 1. rewrite HG by auto. f_equal. change (gradop dims Hdims x) with (gapp dims x). unfold gapp. rewrite dent_dtab by auto. reflexivity.
Qed.
Lemma grad_bound x : norm2 (G x) <= 4 * INR (length dims) * (c * c) * norm2 x.
Proof.
  rewrite grad_eq. rewrite norm2_scal. pose proof (gradop_bound dims Hdims x) as H. rewrite mult_INR in H. replace (INR 4) with 4 in H by (simpl; lra). pose proof (Rle_0_sqr c) as H0. unfold Rsqr in H0.
  apply (Rmult_le_compat_l (c * c)) in H; [|exact H0]. lra.
Qed.
Lemma grad_pixels lam x : 0 <= c -> pixels lam (G x) = lam * c * variation dims (get x).
Proof.
  intro Hc. unfold pixels, variation. rewrite Rmult_assoc. f_equal. rewrite <- RS_scal. apply RS_ext. intros i Hi. unfold pixel.
  rewrite (RS_ext _ _ (fun a => (c * c) * (forward_diff dims (get x) a i * forward_diff dims (get x) a i))) by (intros a Ha; rewrite HG by auto; ring).
  rewrite RS_scal, sqrt_mult_alt by nra. rewrite sqrt_square by exact Hc. reflexivity.
Qed.
Lemma grad_l1 lam x : 0 <= c -> l1n lam (G x) = lam * c * variation1 dims (get x).
Proof.
  intro Hc. unfold l1n, variation1. rewrite RS_flat. rewrite Rmult_assoc. f_equal. rewrite <- RS_scal. apply RS_ext. intros a Ha. rewrite <- RS_scal. apply RS_ext. intros i Hi. rewrite HG by auto. rewrite Rabs_mult, (Rabs_right c) by lra. reflexivity.
Qed.
End Grad.
Lemma variation_nonneg dims x : 0 <= variation dims x.
Proof. apply RS_nonneg. intros i _. apply sqrt_pos. Qed.
Lemma sqrt_sum_abs n (h : nat -> R) : sqrt (RS n (fun a => h a * h a)) <= RS n (fun a => Rabs (h a)).
Proof.
  assert (H0 : 0 <= RS n (fun a => Rabs (h a))) by (apply RS_nonneg; intros; apply Rabs_pos). rewrite <- (sqrt_square _ H0). apply sqrt_le_1_alt. clear H0.
  induction n as [|n IH]; cbn [RS]; [lra|]. assert (H0 : 0 <= RS n (fun a => Rabs (h a))) by (apply RS_nonneg; intros; apply Rabs_pos). pose proof (Rabs_pos (h n)) as H1. assert (E : h n * h n = Rabs (h n) * Rabs (h n)) by (rewrite <- Rabs_mult; symmetry; apply Rabs_right; apply Rle_ge, Rle_0_sqr). rewrite E. nra.
Qed.
Lemma variation_le dims x : variation dims x <= variation1 dims x.
Proof. unfold variation, variation1. rewrite RS_swap. apply RS_le. intros i Hi. apply (sqrt_sum_abs (length dims) (fun a => forward_diff dims x a i)). Qed.
Lemma bw_vec n : bw (Vec n). Proof. exact (proj1 (proj2 C75_arrays_l) n). Qed.
Lemma hb_vec n : hb (Vec n). Proof. exact (proj1 (proj2 C81_arrays_l) n). Qed.
Lemma complete_vec n : complete (Vec n). Proof. exact (proj1 (proj1 (proj2 C85_arrays_l) n)). Qed.
Lemma described_vec n : described (Vec n). Proof. exact (proj2 (proj1 (proj2 C85_arrays_l) n)). Qed.
Lemma qualified_total {E F : IPS} (f : efun E) (g : F -> R) (A : linop E F) : (exists x, edom f x) -> qualified f (etot g) A.
Proof. intros [x Hx]. exists x. split; [exact Hx|]. exists 1. split; [lra|]. intros v _. exact I. Qed.

(** what both solvers need, for a regulariser g(G x) = w h(x) with h above the variation *)
Section Solve.
Variables (dims : list nat) (c lam : R) (G : linop (Vec (nprod dims)) (Vec (length dims * nprod dims))) (g : Vec (length dims * nprod dims) -> R) (h : (nat -> R) -> R).
Hypothesis Hdims : dims_ok dims.
Hypothesis HG : is_gradient dims c G.
Hypothesis Hc : 0 < c.
Hypothesis Hlam : 0 < lam.
Hypothesis Hgh : forall x, g (G x) = lam * c * h (get x).
Hypothesis Hh : forall x, variation dims x <= h x.
Hypothesis Hg : convex (etot g).
Variables (f : efun (Vec (nprod dims))) (proxf : Op (Vec (nprod dims))) (proxg : Op (Vec (length dims * nprod dims))).
Hypothesis Hpf : impl_prox proxf f.
Hypothesis Hf : data_term dims (lam * c) f.
Hypothesis Hpg : impl_prox proxg (etot g).
Lemma tv_level : level_bounded (eadd f (epre (etot g) (lapp G))).
Proof.
  destruct Hf as (_ & _ & _ & H). intro r. destruct (H r) as [M HM]. exists M. intros x [X1 _] X2. apply HM; [split; [exact X1|exact I]|]. cbn [eval eadd epre etot] in *. rewrite Hgh in X2.
  pose proof (Hh (get x)). assert (0 < lam * c) by (apply Rmult_lt_0_compat; auto). assert (lam * c * variation dims (get x) <= lam * c * h (get x)) by (apply Rmult_le_compat_l; lra). lra.
Qed.
Lemma tv_min x : is_min (eadd f (epre (etot g) (lapp G))) x -> is_min (eadd f (etot (fun v : Vec (nprod dims) => lam * c * h (get v)))) x.
Proof.
  intros [[H1 _] H2]. split; [split; [exact H1|exact I]|]. intros y [Y1 _]. specialize (H2 y (conj Y1 I)). cbn [eval eadd epre etot] in *. rewrite !Hgh in H2. exact H2.
Qed.
Lemma tv_pd gs alias x0 tau mu y0 gfirst : impl_proxdual proxg gs -> is_conj (etot g) gs -> 0 < tau -> 0 < mu -> 4 * INR (length dims) * (c * c) * (tau * mu) <= 1 ->
  exists xs ys xl yl, (forall n, exists tr, PrimalDual proxf proxg G alias x0 (Scalar tau) (Scalar mu) y0 None 1 n gfirst = Ok (xs n, ys n, tr)) /\
    is_min (eadd f (etot (fun v : Vec (nprod dims) => lam * c * h (get v)))) xl /\ vcv xs xl /\ vcv ys yl.
Proof.
  intros Hpd Hcj Ht Hmu Hst. destruct Hf as (F1 & F2 & F3 & _).
  destruct (C85_primal_dual_l (Vec (nprod dims)) (Vec (length dims * nprod dims)) G proxf proxg f (etot g) gs alias x0 tau mu 1 y0 None gfirst) as (xs & ys & xl & yl & H1 & H2 & H3 & H4); auto.
  - apply bw_vec.
  - apply bw_vec.
  - apply hb_vec.
  - apply complete_vec.
  - apply described_vec.
  - apply closed_total; [apply hb_vec|exact Hg].
  - intro u. destruct (Hpg u 1 Rlt_0_1) as (p & _ & Hp). exists p. exact Hp.
  - lra.
  - intro a. pose proof (grad_bound dims c G Hdims HG a) as Hb. assert (0 < tau * mu) by (apply Rmult_lt_0_compat; auto). apply (Rmult_le_compat_l (tau * mu)) in Hb; [|lra]. pose proof (norm2_nonneg a) as Ha. apply (Rmult_le_compat_r (norm2 a)) in Hst; [|exact Ha]. lra.
  - apply qualified_total. exact F3.
  - intro r. destruct (tv_level r) as [M HM]. exists M. intros x [X1 X2] X3. apply HM; [split; assumption|]. cbn [eval eadd elin epre etot zvec] in *. rewrite inner_zero_l in X3. lra.
  - exists xs, ys, xl, yl. split; [exact H1|]. split; [|split; assumption]. apply tv_min. destruct H2 as [[H2 _] H5]. split; [split; [exact H2|exact I]|]. intros y [Y1 Y2]. specialize (H5 y (conj Y1 Y2)). cbn [eval eadd elin epre etot zvec] in *. rewrite !inner_zero_l in H5. lra.
Qed.
Lemma tv_ladmm tau mu x0 z0 x z : 0 < tau -> 0 < mu -> 4 * INR (length dims) * (c * c) * mu <= tau -> x0z0_initA (lapp G) x0 z0 = Ok (x, z) ->
  exists xs zs xl, (forall n, exists tr, LinearizedADMM proxf proxg G x0 tau mu n z0 = Ok (xs n, zs n, tr)) /\
    is_min (eadd f (etot (fun v : Vec (nprod dims) => lam * c * h (get v)))) xl /\ vcv xs xl /\ vcv zs (G xl).
Proof.
  intros Ht Hmu Hst Hi. destruct Hf as (F1 & F2 & F3 & _).
  destruct (C85_linearized_admm_l (Vec (nprod dims)) (Vec (length dims * nprod dims)) proxf proxg f (etot g) G tau mu 1 x0 z0 x z) as (xs & zs & xl & H1 & H2 & H3 & H4); auto.
  - apply bw_vec.
  - apply bw_vec.
  - apply hb_vec.
  - apply complete_vec.
  - apply described_vec.
  - apply closed_total; [apply hb_vec|exact Hg].
  - lra.
  - intro a. pose proof (grad_bound dims c G Hdims HG a) as Hb. apply (Rmult_le_compat_l mu) in Hb; [|lra]. pose proof (norm2_nonneg a) as Ha. apply (Rmult_le_compat_r (norm2 a)) in Hst; [|exact Ha]. lra.
  - apply qualified_total. exact F3.
  - exact tv_level.
  - exists xs, zs, xl. split; [exact H1|]. split; [apply tv_min; exact H2|split; assumption].
Qed.
End Solve.

(*! C98_isotropic : images of any shape with axes of length at least 2, any data term with an exact prox, L21(ndim, sigma=lam) and the forward-difference gradient (scaled by c > 0):
   PrimalDual with theta = 1 and 4 ndim c^2 tau mu <= 1 and LinearizedADMM with 4 ndim c^2 mu <= tau converge to an image that minimises data term + lam c times the isotropic total variation, from any start, in either order;
   the second variable of LinearizedADMM converges to the gradient of that image *)
Lemma C98_isotropic_l : forall dims c G lam f proxf fuel, dims_ok dims -> (1 <= length dims)%nat -> is_gradient dims c G -> 0 < c -> 0 < lam -> impl_prox proxf f -> data_term dims (lam * c) f ->
  let proxg := obj (S fuel) (l21_flat (n:=length dims * nprod dims) (length dims) lam) in
  (forall alias x0 tau mu y0 gfirst, 0 < tau -> 0 < mu -> 4 * INR (length dims) * (c * c) * (tau * mu) <= 1 ->
     exists xs ys l yl, (forall n, exists tr, PrimalDual proxf proxg G alias x0 (Scalar tau) (Scalar mu) y0 None 1 n gfirst = Ok (xs n, ys n, tr)) /\ denoised dims f (lam * c) l /\ vcv xs l /\ vcv ys yl) /\
  (forall tau mu x0 z0 x z, 0 < tau -> 0 < mu -> 4 * INR (length dims) * (c * c) * mu <= tau -> x0z0_initA (lapp G) x0 z0 = Ok (x, z) ->
     exists xs zs l, (forall n, exists tr, LinearizedADMM proxf proxg G x0 tau mu n z0 = Ok (xs n, zs n, tr)) /\ denoised dims f (lam * c) l /\ vcv xs l /\ vcv zs (G l)).
Proof.
  intros dims c G lam f proxf fuel H1 H2 H3 H4 H5 H6 H7 proxg. destruct (proj1 C98_l21_l (length dims) (nprod dims) fuel lam H2 H5) as (_ & P1 & P2 & P3). fold proxg in P1, P3.
  pose proof (pixels_convex (length dims) (nprod dims) lam ltac:(lra)) as Hcv. assert (Hgh : forall x, pixels lam (G x) = lam * c * variation dims (get x)) by (intro x; apply grad_pixels; [exact H3|lra]). split.
  - intros alias x0 tau mu y0 gfirst Ht Hmu Hst. exact (tv_pd dims c lam G (pixels lam) (variation dims) H1 H3 H4 H5 Hgh (fun x => Rle_refl _) Hcv f proxf proxg H6 H7 P1 (indic (pixels_le lam)) alias x0 tau mu y0 gfirst P3 P2 Ht Hmu Hst).
  - intros tau mu x0 z0 x z Ht Hmu Hst Hi. exact (tv_ladmm dims c lam G (pixels lam) (variation dims) H1 H3 H4 H5 Hgh (fun x => Rle_refl _) Hcv f proxf proxg H6 H7 P1 tau mu x0 z0 x z Ht Hmu Hst Hi).
Qed.
(*! C98_anisotropic : the same with L1(sigma=lam) in place of L21: the limits minimise data term + lam c times the anisotropic total variation, the sum over samples and axes of the absolute differences *)
Lemma C98_anisotropic_l : forall dims c G lam f proxf proxg, dims_ok dims -> (1 <= length dims)%nat -> is_gradient dims c G -> 0 < c -> 0 < lam -> impl_prox proxf f -> data_term dims (lam * c) f -> is_L1 proxg lam ->
  (forall alias x0 tau mu y0 gfirst, 0 < tau -> 0 < mu -> 4 * INR (length dims) * (c * c) * (tau * mu) <= 1 ->
     exists xs ys l yl, (forall n, exists tr, PrimalDual proxf proxg G alias x0 (Scalar tau) (Scalar mu) y0 None 1 n gfirst = Ok (xs n, ys n, tr)) /\ denoised1 dims f (lam * c) l /\ vcv xs l /\ vcv ys yl) /\
  (forall tau mu x0 z0 x z, 0 < tau -> 0 < mu -> 4 * INR (length dims) * (c * c) * mu <= tau -> x0z0_initA (lapp G) x0 z0 = Ok (x, z) ->
     exists xs zs l, (forall n, exists tr, LinearizedADMM proxf proxg G x0 tau mu n z0 = Ok (xs n, zs n, tr)) /\ denoised1 dims f (lam * c) l /\ vcv xs l /\ vcv zs (G l)).
Proof.
  intros dims c G lam f proxf proxg H1 H2 H3 H4 H5 H6 H7 H8. destruct (L1_facts _ proxg lam ltac:(lra) H8) as (P1 & _ & gs & P2 & P3).
  pose proof (l1n_convex (length dims * nprod dims) lam ltac:(lra)) as Hcv. assert (Hgh : forall x, l1n lam (G x) = lam * c * variation1 dims (get x)) by (intro x; apply grad_l1; [exact H3|lra]). split.
  - intros alias x0 tau mu y0 gfirst Ht Hmu Hst. exact (tv_pd dims c lam G (l1n lam) (variation1 dims) H1 H3 H4 H5 Hgh (variation_le dims) Hcv f proxf proxg H6 H7 P1 gs alias x0 tau mu y0 gfirst P3 P2 Ht Hmu Hst).
  - intros tau mu x0 z0 x z Ht Hmu Hst Hi. exact (tv_ladmm dims c lam G (l1n lam) (variation1 dims) H1 H3 H4 H5 Hgh (variation_le dims) Hcv f proxf proxg H6 H7 P1 tau mu x0 z0 x z Ht Hmu Hst Hi).
Qed.

(** ** Certificates *)
Lemma pixels_subgrad d N lam (u v : Vec (d * N)) : 0 <= lam -> (is_subgrad (etot (pixels lam)) u v <-> pixels_le lam v /\ << v, u >> = pixels lam u).
Proof.
  intro Hl. split.
  - intros [_ H]. cbn [eval etot] in H. assert (E : << v, u >> = pixels lam u).
    { pose proof (H vzero I) as H0. pose proof (H (2 [*] u) I) as H2. rewrite pixels_zero in H0. replace (vzero [-] u) with (vopp u) in H0 by vring. rewrite inner_opp_r in H0. replace (2 [*] u [-] u) with u in H2 by vring.
      assert (E2 : pixels lam (2 [*] u) = 2 * pixels lam u). { unfold pixels. rewrite (RS_ext N _ (fun i => 2 * pixel u i)) by (intros i Hi; apply pixel_scal; [exact Hi|lra]). rewrite RS_scal. ring. }
      rewrite E2 in H2. lra. }
    split; [|exact E]. apply ball_of_bound; [exact Hl|]. intro q. specialize (H q I). replace (<< v, q [-] u >>) with (<< v, q >> - << v, u >>) in H by (iexp; ring). lra.
  - intros [H1 H2]. split; [exact I|]. intros y _. cbn [eval etot]. pose proof (pixels_ball d N lam v y Hl H1). replace (<< v, y [-] u >>) with (<< v, y >> - << v, u >>) by (iexp; ring). lra.
Qed.
(*! C98_certificate : an image x minimises data term + lam c times the isotropic total variation exactly when there is a dual field p of pixel norms <= lam with <p, G x> = lam c TV(x) such that -G^T p is a subgradient of the data term at x;
   for the data term s/2 |x - b|^2 this means s (b - x) = G^T p *)
Lemma C98_certificate_l : forall dims c G lam, dims_ok dims -> is_gradient dims c G -> 0 < c -> 0 < lam ->
  (forall f x, convex f -> (exists y, edom f y) -> (denoised dims f (lam * c) x <-> exists p, pixels_le lam p /\ << p, G x >> = lam * c * variation dims (get x) /\ is_subgrad f x (vopp (ladj G p)))) /\
  (forall b s x, 0 < s -> (denoised dims (near2 b s) (lam * c) x <-> exists p, pixels_le lam p /\ << p, G x >> = lam * c * variation dims (get x) /\ s [*] (b [-] x) = ladj G p)).
Proof.
  intros dims c G lam H1 H2 H3 H4.
  assert (A : forall f x, convex f -> (exists y, edom f y) -> (denoised dims f (lam * c) x <-> exists p, pixels_le lam p /\ << p, G x >> = lam * c * variation dims (get x) /\ is_subgrad f x (vopp (ladj G p)))).
  { intros f x Hf Hd. pose proof (mult_iff f (etot (pixels lam)) G x (hb_vec _) Hf (pixels_convex (length dims) (nprod dims) lam ltac:(lra)) (qualified_total f (pixels lam) G Hd)) as HK.
    assert (Hgh : forall x, pixels lam (G x) = lam * c * variation dims (get x)) by (intro y; apply grad_pixels; [exact H2|lra]).
    assert (E : denoised dims f (lam * c) x <-> is_min (eadd f (epre (etot (pixels lam)) (lapp G))) x).
    { unfold denoised. split; intros [[X1 X2] X3]; (split; [split; [exact X1|exact I]|]); intros y [Y1 Y2]; specialize (X3 y (Logic.conj Y1 I)); cbn [eval eadd epre etot] in *; [rewrite !Hgh; exact X3|rewrite !Hgh in X3; exact X3]. }
    rewrite E, HK. split; intros [p Hp]; exists p.
    - destruct Hp as [K1 K2]. apply pixels_subgrad in K2; [|lra]. rewrite Hgh in K2. tauto.
    - destruct Hp as (K1 & K2 & K3). split; [exact K3|]. apply pixels_subgrad; [lra|]. rewrite Hgh. tauto. }
  split; [exact A|]. intros b s x Hs. rewrite A; [|apply (bfit_convex b s); lra|exists vzero; exact I].
  split; intros (p & P1 & P2 & P3); exists p; (split; [exact P1|split; [exact P2|]]).
  - assert (Hsm : forall h, s / 2 * norm2 (x [+] h [-] b) = s / 2 * norm2 (x [-] b) + << s [*] (x [-] b), h >> + s / 2 * norm2 h) by (intro h; unfold norm2; iexp; field).
    destruct P3 as [_ P3]. cbn [eval near2 etot] in P3. set (e := vopp (ladj G p) [-] s [*] (x [-] b)). assert (He : e = vzero).
    { apply norm2_eq0. apply Rle_antisym; [|apply norm2_nonneg]. specialize (P3 (x [+] / s [*] e) I). rewrite Hsm in P3. replace (x [+] / s [*] e [-] x) with (/ s [*] e) in P3 by vring.
      assert (E1 : << vopp (ladj G p), / s [*] e >> - << s [*] (x [-] b), / s [*] e >> = / s * norm2 e) by (rewrite <- inner_sub_l; fold e; rewrite inner_scal_r; reflexivity).
      rewrite norm2_scal in P3. assert (0 < / s) by (apply Rinv_0_lt_compat; exact Hs). replace (s / 2 * (/ s * / s * norm2 e)) with (/ s * norm2 e / 2) in P3 by (field; lra).
      apply (Rmult_le_reg_l (/ s)); [assumption|]. lra. }
    unfold e in He. replace (s [*] (b [-] x)) with (ladj G p [+] (vopp (ladj G p) [-] s [*] (x [-] b))) by vring. rewrite He. vring.
  - rewrite <- P3. pose proof (bfit_subgrad b s x Hs) as HB. replace (vopp (s [*] (b [-] x))) with (s [*] (x [-] b)) by vring. exact HB.
Qed.

(** ** Constants, and how the variation controls an image up to a constant *)
Lemma coord_ex : forall dims i, (0 < i < nprod dims)%nat -> exists a, (a < length dims)%nat /\ (0 < coord dims a i)%nat.
Proof.
  induction dims as [|n l IH]; intros i Hi; [simpl in Hi; lia|]. change (nprod (n :: l)) with (n * nprod l)%nat in Hi.
  assert (Hl : (nprod l <> 0)%nat) by nia. destruct (le_lt_dec (nprod l) i) as [H|H].
  - exists 0%nat. split; [simpl; lia|]. unfold coord, astride, alen. cbn [skipn nth]. rewrite Nat.mod_small by (apply Nat.div_lt_upper_bound; lia). apply Nat.div_str_pos. lia.
  - destruct (IH i ltac:(lia)) as (a & Ha & Hc). exists (S a). split; [simpl; lia|exact Hc].
Qed.
Lemma step_back dims a i : dims_ok dims -> (a < length dims)%nat -> (0 < coord dims a i)%nat -> exists j, (j < i)%nat /\ (j + astride dims a = i)%nat /\ (S (coord dims a j) < alen dims a)%nat.
Proof.
  intros Hd Ha Hc. pose proof (astride_pos dims a Hd) as Hs. pose proof (alen_ok dims a Hd Ha) as Hn. unfold coord in *. set (s := astride dims a) in *. set (n := alen dims a) in *.
  assert (Hq : (1 <= i / s)%nat). { destruct (i / s)%nat; [rewrite Nat.mod_0_l in Hc; lia|lia]. }
  assert (Hi : (s <= i)%nat). { destruct (le_lt_dec s i) as [|Hl]; [assumption|]. rewrite Nat.div_small in Hq by exact Hl. lia. }
  exists (i - s)%nat. split; [lia|]. split; [lia|].
  assert (E : (i / s = S ((i - s) / s))%nat). { replace i with ((i - s) + 1 * s)%nat at 1 by lia. rewrite Nat.div_add by lia. lia. }
  rewrite E in Hc. set (k := ((i - s) / s)%nat) in *. pose proof (Nat.mod_upper_bound k n ltac:(lia)) as Hk. destruct (Nat.eq_dec (S (k mod n)) n) as [En|]; [|lia]. exfalso.
  assert (Ez : (S k mod n = 0)%nat); [|lia]. pose proof (Nat.div_mod k n ltac:(lia)) as Ek. replace (S k) with (0 + S (k / n) * n)%nat by nia. rewrite Nat.mod_add by lia. apply Nat.mod_0_l. lia.
Qed.
Lemma diff_le dims x a i : (a < length dims)%nat -> (i < nprod dims)%nat -> Rabs (forward_diff dims x a i) <= variation dims x.
Proof.
  intros Ha Hi. apply Rle_trans with (sqrt (RS (length dims) (fun b => forward_diff dims x b i * forward_diff dims x b i))).
  - rewrite <- sqrt_Rsqr_abs. apply sqrt_le_1_alt. unfold Rsqr. apply (RS_ge_one (length dims) (fun b => forward_diff dims x b i * forward_diff dims x b i)); [intros; apply Rle_0_sqr|exact Ha].
  - apply (RS_ge_one (nprod dims) (fun i => sqrt (RS (length dims) (fun b => forward_diff dims x b i * forward_diff dims x b i)))); [intros; apply sqrt_pos|exact Hi].
Qed.
(*! C98_variation : the total variation controls an image up to a constant: |x_i - x_0| <= i TV(x) for the flat index i; in particular TV vanishes exactly on constant images *)
Lemma C98_variation_l : forall dims, dims_ok dims -> (forall x i, (i < nprod dims)%nat -> Rabs (x i - x 0%nat) <= INR i * variation dims x) /\
  (forall x, variation dims x = 0 <-> forall i, (i < nprod dims)%nat -> x i = x 0%nat).
Proof.
  intros dims Hd. assert (A : forall x i, (i < nprod dims)%nat -> Rabs (x i - x 0%nat) <= INR i * variation dims x).
  { intros x i. induction i as [i IH] using lt_wf_ind. intro Hi. destruct (Nat.eq_dec i 0) as [->|Hz]; [rewrite Rminus_diag_eq, Rabs_R0 by reflexivity; simpl; lra|].
    destruct (coord_ex dims i ltac:(lia)) as (a & Ha & Hc). destruct (step_back dims a i Hd Ha Hc) as (j & Hj & E & Hl).
    pose proof (diff_le dims x a j Ha ltac:(lia)) as H1. unfold forward_diff in H1. fold (astride dims a) (alen dims a) in H1. fold (coord dims a j) in H1. apply Nat.ltb_lt in Hl. rewrite Hl, E in H1.
    specialize (IH j Hj ltac:(lia)). replace (x i - x 0%nat) with ((x i - x j) + (x j - x 0%nat)) by ring. eapply Rle_trans; [apply Rabs_triang|].
    assert (INR j + 1 <= INR i) by (rewrite <- S_INR; apply le_INR; lia). pose proof (variation_nonneg dims x). nra. }
  split; [exact A|]. intro x. split.
  - intros H i Hi. specialize (A x i Hi). rewrite H, Rmult_0_r in A. pose proof (Rabs_pos (x i - x 0%nat)). destruct (Req_dec (x i - x 0%nat) 0) as [E|E]; [lra|]. apply Rabs_pos_lt in E. lra.
  - intro H. unfold variation. rewrite (RS_ext _ _ (fun _ => 0)); [apply RS_zero|]. intros i Hi. rewrite (RS_ext _ _ (fun _ => 0)); [rewrite RS_zero; apply sqrt_0|]. intros a Ha.
    unfold forward_diff. fold (astride dims a) (alen dims a). fold (coord dims a i). destruct (Nat.ltb_spec (S (coord dims a i)) (alen dims a)) as [Hl|]; [|ring].
    pose proof (coord_range dims Hd a i Ha Hi Hl). rewrite (H i Hi), (H (i + astride dims a)%nat) by assumption. ring.
Qed.

(** ** Data terms *)
Lemma norm_sum n (x : Vec n) : norm x <= RS n (fun i => Rabs (get x i)).
Proof. unfold norm. rewrite vec_norm2. apply sqrt_sum_abs. Qed.
Lemma norm_le_1 {E : IPS} (x : E) : norm x <= 1 + norm2 x.
Proof. pose proof (norm_sq x). pose proof (norm_nonneg x). nra. Qed.
Lemma norm_vopp {E : IPS} (x : E) : norm (vopp x) = norm x.
Proof. unfold vopp. rewrite norm_scal, Rabs_left by lra. ring. Qed.
Lemma near2_level n (b : Vec n) s : 0 < s -> level_bounded (near2 b s).
Proof.
  intros Hs c. exists (1 + 2 * c / s + norm b). intros x _ Hx. cbn [eval near2 etot] in Hx. pose proof (norm_le_1 (x [-] b)) as H1. pose proof (norm_triangle (x [-] b) b) as H2. replace (x [-] b [+] b) with x in H2 by vring.
  assert (norm2 (x [-] b) <= 2 * c / s). { apply (Rmult_le_reg_l (s / 2)); [lra|]. replace (s / 2 * (2 * c / s)) with c by (field; lra). exact Hx. } lra.
Qed.
Lemma near1_eq n (b : Vec n) s x : wl1 (const_sigma n s) b x = s * RS n (fun i => Rabs (get x i - get b i)).
Proof.
  transitivity (l1n s (x [-] b)).
  - rewrite <- wl1_const. unfold wl1, gvec. rewrite vsub_0_r. reflexivity.
  - unfold l1n. f_equal. apply RS_ext. intros i Hi. rewrite get_sub by exact Hi. reflexivity.
Qed.
Lemma near1_convex n (b : Vec n) s : 0 <= s -> convex (near1 b s).
Proof. intro Hs. apply (convex_ext (etot (wl1 (const_sigma n s) b))); [intro; reflexivity| |apply wl1_convex, const_nonneg; exact Hs]. intros y _. apply near1_eq. Qed.
Lemma near1_level n (b : Vec n) s : 0 < s -> level_bounded (near1 b s).
Proof.
  intros Hs c. exists (c / s + norm b). intros x _ Hx. cbn [eval near1 etot] in Hx. pose proof (norm_sum n (x [-] b)) as H1. pose proof (norm_triangle (x [-] b) b) as H2. replace (x [-] b [+] b) with x in H2 by vring.
  rewrite (RS_ext n _ (fun i => Rabs (get x i - get b i))) in H1 by (intros i Hi; rewrite get_sub by exact Hi; reflexivity).
  assert (RS n (fun i => Rabs (get x i - get b i)) <= c / s). { apply (Rmult_le_reg_l s); [lra|]. replace (s * (c / s)) with c by (field; lra). exact Hx. } lra.
Qed.
Lemma near2A_level dims m (A : linop (Vec (nprod dims)) (Vec m)) b s w : dims_ok dims -> 0 < s -> 0 < w -> A (vtab (nprod dims) (fun _ => 1)) <> vzero ->
  level_bounded (eadd (near2A A b s) (etot (fun v => w * variation dims (get v)))).
Proof.
  intros Hd Hs Hw HA c. set (N := nprod dims) in *. set (one := vtab N (fun _ => 1)) in *. destruct (vec_bounded N (Vec m) A) as (C & C0 & HC).
  assert (Ha : 0 < norm (A one)). { pose proof (norm_nonneg (A one)). destruct (Req_dec (norm (A one)) 0) as [E|E]; [|lra]. exfalso. apply HA. apply norm_eq0. exact E. }
  assert (HCn : forall v, norm (A v) <= sqrt C * norm v). { intro v. unfold norm. rewrite <- sqrt_mult_alt by exact C0. apply sqrt_le_1_alt. apply HC. }
  set (V := c / w). set (W := INR N * (INR N * V)). set (U := (1 + 2 * c / s + norm b + sqrt C * W) / norm (A one)).
  exists (U * norm one + W). intros x _ Hx. cbn [eval near2A eadd etot] in Hx. pose proof (variation_nonneg dims (get x)) as Hv. pose proof (norm2_nonneg (A x [-] b)) as Hn.
  assert (H0 : 0 <= s / 2 * norm2 (A x [-] b)) by (apply Rmult_le_pos; lra). assert (H0' : 0 <= w * variation dims (get x)) by (apply Rmult_le_pos; lra).
  assert (HV : variation dims (get x) <= V). { apply (Rmult_le_reg_l w); [lra|]. unfold V. replace (w * (c / w)) with c by (field; lra). lra. }
  set (x0 := get x 0). set (e := x [-] x0 [*] one).
  assert (He : norm e <= W).
  { eapply Rle_trans; [apply norm_sum|]. unfold W. rewrite <- RS_const. apply RS_le. intros i Hi. unfold e. rewrite get_sub, get_scal by exact Hi. unfold one. rewrite get_vtab by exact Hi. rewrite Rmult_1_r.
    eapply Rle_trans; [apply (proj1 (C98_variation_l dims Hd) (get x) i Hi)|]. apply Rmult_le_compat; [apply pos_INR|exact Hv|apply le_INR; lia|exact HV]. }
  assert (Hq : norm2 (A x [-] b) <= 2 * c / s). { apply (Rmult_le_reg_l (s / 2)); [lra|]. replace (s / 2 * (2 * c / s)) with c by (field; lra). lra. }
  assert (HAx : norm (A x) <= 1 + 2 * c / s + norm b). { pose proof (norm_le_1 (A x [-] b)). pose proof (norm_triangle (A x [-] b) b) as H2. replace (A x [-] b [+] b) with (A x) in H2 by vring. lra. }
  assert (HU : Rabs x0 <= U).
  { apply (Rmult_le_reg_r (norm (A one))); [exact Ha|]. unfold U, Rdiv. rewrite (Rmult_assoc _ (/ norm (A one))), Rinv_l, Rmult_1_r by lra. rewrite <- norm_scal, <- lapp_scal.
    replace (x0 [*] one) with (x [-] e) by (unfold e; vring). rewrite lapp_sub. pose proof (norm_triangle (A x) (vopp (A e))) as H2. rewrite (norm_vopp (A e)) in H2. replace (A x [+] vopp (A e)) with (A x [-] A e) in H2 by vring.
    pose proof (HCn e) as H3. assert (sqrt C * norm e <= sqrt C * W) by (apply Rmult_le_compat_l; [apply sqrt_pos|exact He]). unfold Rdiv in *. lra. }
  pose proof (norm_triangle (x0 [*] one) e) as H2. replace (x0 [*] one [+] e) with x in H2 by (unfold e; vring). rewrite norm_scal in H2. assert (Rabs x0 * norm one <= U * norm one) by (apply Rmult_le_compat_r; [apply norm_nonneg|exact HU]). lra.
Qed.

Lemma data_of dims (f : Vec (nprod dims) -> R) w : convex (etot f) -> level_bounded (eadd (etot f) (etot (fun v => w * variation dims (get v)))) -> data_term dims w (etot f).
Proof. intros Hc Hl. split; [exact Hc|]. split; [apply closed_total; [apply hb_vec|exact Hc]|]. split; [exists vzero; exact I|exact Hl]. Qed.
Lemma var_below dims w : 0 <= w -> bounded_below (etot (fun v : Vec (nprod dims) => w * variation dims (get v))).
Proof. intro Hw. exists 0. intros x _. cbn [eval etot]. apply Rmult_le_pos; [exact Hw|apply variation_nonneg]. Qed.
(*! C98_data_terms : data terms these theorems apply to, with the objects that provide their prox: s/2 |x - b|^2 (L2(b, sigma=s)), s |x - b|_1 (L1(g=b, sigma=s)), and s/2 |A x - b|^2 (L2(Op=A, b, sigma=s))
   as soon as A does not map constant images to zero *)
Lemma C98_data_terms_l : forall dims s w, dims_ok dims -> 0 < s -> 0 < w ->
  (forall b, data_term dims w (near2 b s) /\ forall o, is_L2b o b s -> impl_prox o (near2 b s)) /\
  (forall b, data_term dims w (near1 b s) /\ forall fuel c0 ch, impl_prox (obj (S fuel) (l1_body (fun _ => const_sigma (nprod dims) s) (Some b) c0 ch)) (near1 b s)) /\
  (forall m (A : linop (Vec (nprod dims)) (Vec m)) b, A (vtab (nprod dims) (fun _ => 1)) <> vzero -> data_term dims w (near2A A b s) /\ forall o, is_L2 o A b s -> impl_prox o (near2A A b s)).
Proof.
  intros dims s w Hd Hs Hw. split; [|split].
  - intro b. split; [|intros o Ho; exact (proj1 (L2b_facts o b s Hs Ho))]. apply data_of; [apply (bfit_convex b s); lra|]. apply level_add; [apply (near2_level _ b s Hs)|apply var_below; lra].
  - intro b. split; [apply data_of; [apply (near1_convex _ b s); lra|]; apply level_add; [apply (near1_level _ b s Hs)|apply var_below; lra]|].
    intros fuel c0 ch x tau Ht. cbn [obj o_prox d_prox l1_body b_prox]. rewrite check_tau_pos by auto.
    destruct (C11_prox_exact_l (nprod dims) (fun _ => const_sigma (nprod dims) s) (Some b) (ch x tau) x tau (const_nonneg _ s ltac:(lra)) Ht) as [p [E1 E2]]. exists p. split; [exact E1|].
    revert E2. apply is_prox_ext; [reflexivity|]. intros y _. apply near1_eq.
  - intros m A b HA. split; [|intros o Ho; exact (proj1 (L2_facts o A b s Hs Ho))]. apply data_of; [apply (sfit_convex A b s); lra|]. apply near2A_level; auto.
Qed.

(** ** The Rudin-Osher-Fatemi problem *)
Lemma gradop_is dims (Hd : dims_ok dims) : is_gradient dims 1 (gradop dims Hd).
Proof. intros x a i Ha Hi. change (dent dims (gapp dims x) a i = 1 * forward_diff dims (get x) a i). unfold gapp. rewrite dent_dtab by auto. rewrite Rmult_1_l. reflexivity. Qed.
Lemma variation_convex dims lam : dims_ok dims -> 0 <= lam -> convex (etot (fun v : Vec (nprod dims) => lam * variation dims (get v))).
Proof.
  intros Hd Hl. apply (convex_ext (epre (etot (pixels (d:=length dims) (N:=nprod dims) lam)) (lapp (gradop dims Hd)))); [intro; reflexivity| |apply convex_pre, pixels_convex; exact Hl].
  intros y _. cbn [eval epre etot]. rewrite (grad_pixels dims 1 _ (gradop_is dims Hd) lam y) by lra. ring.
Qed.
Lemma rof_prox dims lam s b x : 0 < s -> (denoised dims (near2 b s) lam x <-> tv_exact lam dims (/ s) b x).
Proof.
  intro Hs. assert (E : / (2 * / s) = s / 2) by (field; lra). unfold denoised, tv_exact, is_min, is_prox. rewrite E. split; intros [_ H].
  - split; [exact I|]. intros y _. specialize (H y (Logic.conj I I)). cbn [eval eadd near2 etot] in *. lra.
  - split; [split; exact I|]. intros y _. specialize (H y I). cbn [eval eadd near2 etot] in *. lra.
Qed.
Lemma rof_unique dims lam s b x y : dims_ok dims -> 0 < lam -> 0 < s -> denoised dims (near2 b s) lam x -> denoised dims (near2 b s) lam y -> y = x.
Proof.
  intros Hd Hl Hs Hx Hy. apply (rof_prox dims lam s b) in Hx; [|exact Hs]. apply (rof_prox dims lam s b) in Hy; [|exact Hs].
  exact (prox_unique _ (/ s) b y x (variation_convex dims lam Hd ltac:(lra)) (Rinv_0_lt_compat s Hs) Hy Hx).
Qed.
Definition clip1 (lo hi a : R) : R := Rmax lo (Rmin hi a).
Lemma clip1_lip lo hi a b : (clip1 lo hi a - clip1 lo hi b) * (clip1 lo hi a - clip1 lo hi b) <= (a - b) * (a - b).
Proof.
  change (Rsqr (clip1 lo hi a - clip1 lo hi b) <= Rsqr (a - b)). apply Rsqr_le_abs_1. unfold clip1. apply Rle_trans with (Rabs (Rmin hi a - Rmin hi b)).
  - generalize (Rmin hi a) (Rmin hi b). intros u v. unfold Rmax. destruct (Rle_dec lo u), (Rle_dec lo v); unfold Rabs; repeat match goal with |- context [Rcase_abs ?u] => destruct (Rcase_abs u) end; lra.
  - unfold Rmin. destruct (Rle_dec hi a), (Rle_dec hi b); unfold Rabs; repeat match goal with |- context [Rcase_abs ?u] => destruct (Rcase_abs u) end; lra.
Qed.
Lemma clip1_id lo hi a : lo <= a <= hi -> clip1 lo hi a = a.
Proof. intro H. unfold clip1. rewrite Rmin_right, Rmax_right by lra. reflexivity. Qed.
Lemma clip1_in lo hi a : lo <= hi -> lo <= clip1 lo hi a <= hi.
Proof. intro H. unfold clip1. split; [apply Rmax_l|]. apply Rmax_lub; [exact H|apply Rmin_l]. Qed.
Lemma variation_clip dims lo hi (x : nat -> R) : variation dims (fun i => clip1 lo hi (x i)) <= variation dims x.
Proof.
  apply RS_le. intros i _. apply sqrt_le_1_alt. apply RS_le. intros a _. unfold forward_diff. destruct (Nat.ltb _ _); [apply clip1_lip|lra].
Qed.
Lemma variation_ext dims (x y : nat -> R) : dims_ok dims -> (forall i, (i < nprod dims)%nat -> x i = y i) -> variation dims x = variation dims y.
Proof.
  intros Hd H. apply RS_ext. intros i Hi. f_equal. apply RS_ext. intros a Ha. assert (E : forward_diff dims x a i = forward_diff dims y a i); [|rewrite E; reflexivity].
  unfold forward_diff. fold (astride dims a) (alen dims a). fold (coord dims a i). destruct (Nat.ltb_spec (S (coord dims a i)) (alen dims a)) as [Hl|]; [|reflexivity].
  pose proof (coord_range dims Hd a i Ha Hi Hl). rewrite !H by assumption. reflexivity.
Qed.
(*! C98_rof : s/2 |x - b|^2 + lam TV(x) with s, lam > 0 has exactly one minimiser, the proximal point of lam TV at b with step 1/s; it has the same mean as b, stays between the bounds of b,
   moves by at most |b - b'| when b does, and is the constant mean image as soon as lam >= s sum_i i |b_i - mean| *)
Lemma C98_rof_l : forall dims lam s, dims_ok dims -> (1 <= length dims)%nat -> 0 < lam -> 0 < s ->
  (forall b, exists x, denoised dims (near2 b s) lam x /\ (forall y, denoised dims (near2 b s) lam y -> y = x) /\ tv_exact lam dims (/ s) b x /\ RS (nprod dims) (get x) = RS (nprod dims) (get b)) /\
  (forall b x lo hi, denoised dims (near2 b s) lam x -> (forall i, (i < nprod dims)%nat -> lo <= get b i <= hi) -> forall i, (i < nprod dims)%nat -> lo <= get x i <= hi) /\
  (forall b b' x x', denoised dims (near2 b s) lam x -> denoised dims (near2 b' s) lam x' -> norm (x [-] x') <= norm (b [-] b')) /\
  (forall b x, let m := RS (nprod dims) (get b) / INR (nprod dims) in s * RS (nprod dims) (fun i => INR i * Rabs (get b i - m)) <= lam -> denoised dims (near2 b s) lam x ->
     forall i, (i < nprod dims)%nat -> get x i = m).
Proof.
  intros dims lam s Hd H1 Hl Hs. assert (Hi : 0 < / s) by (apply Rinv_0_lt_compat; exact Hs). split; [|split; [|split]].
  - intro b. destruct (dmin_exists dims Hd H1 (lam * / s) b ltac:(apply Rmult_lt_0_compat; auto)) as [z Hz]. pose proof (tv_prox_exact dims Hd lam (/ s) Hl Hi b z Hz) as Hx.
    set (x := dsol (gradop dims Hd) (lam * / s) b z) in *. pose proof (proj2 (rof_prox dims lam s b x Hs) Hx) as Hx'. exists x. split; [exact Hx'|]. split; [intros y Hy; apply (rof_unique dims lam s b); auto|]. split; [exact Hx|].
    set (one := vtab (nprod dims) (fun _ => 1)). assert (HO : forall v : Vec (nprod dims), RS (nprod dims) (get v) = << one, v >>). { intro v. rewrite vec_inner. apply RS_ext. intros i Hi'. unfold one. rewrite get_vtab by exact Hi'. ring. }
    assert (Hx2 : denoised dims (near2 b s) (lam * 1) x) by (rewrite Rmult_1_r; exact Hx').
    apply (proj2 (C98_certificate_l dims 1 _ lam Hd (gradop_is dims Hd) Rlt_0_1 Hl) b s x Hs) in Hx2. destruct Hx2 as (p & _ & _ & E).
    assert (E1 : << one, s [*] (b [-] x) >> = 0).
    { transitivity (<< one, ladj (gradop dims Hd) p >>); [exact (f_equal (fun v => << one, v >>) E)|]. rewrite <- ladj_spec. replace (gradop dims Hd one) with (vzero : Vec (length dims * nprod dims)); [apply inner_zero_l|]. symmetry. apply dual_ext. intros a i Ha Hi'. unfold dent at 1. rewrite (gradop_is dims Hd one a i Ha Hi'). unfold dent. rewrite get_zero.
      unfold forward_diff. fold (astride dims a) (alen dims a). fold (coord dims a i). destruct (Nat.ltb_spec (S (coord dims a i)) (alen dims a)) as [Hlt|]; [|ring]. pose proof (coord_range dims Hd a i Ha Hi' Hlt). unfold one. rewrite !get_vtab by assumption. ring. }
    rewrite inner_scal_r, inner_sub_r, <- !HO in E1. apply Rmult_integral in E1. destruct E1; lra.
  - intros b x lo hi Hx Hb i Hii. set (y := vtab (nprod dims) (fun i => clip1 lo hi (get x i))). assert (Hy : denoised dims (near2 b s) lam y).
    { destruct Hx as [_ Hx]. split; [split; exact I|]. intros w Hw. eapply Rle_trans; [|apply (Hx w Hw)]. cbn [eval eadd near2 etot]. apply Rplus_le_compat.
      - apply Rmult_le_compat_l; [lra|]. rewrite !vec_norm2. apply RS_le. intros j Hj. rewrite !get_sub by exact Hj. unfold y. rewrite get_vtab by exact Hj. rewrite <- (clip1_id lo hi (get b j)) at 1 2 by (apply Hb; exact Hj). apply clip1_lip.
      - apply Rmult_le_compat_l; [lra|]. rewrite (variation_ext dims (get y) (fun i => clip1 lo hi (get x i)) Hd); [apply variation_clip|]. intros j Hj. unfold y. rewrite get_vtab by exact Hj. reflexivity. }
    rewrite (rof_unique dims lam s b y x Hd Hl Hs Hy Hx). unfold y. rewrite get_vtab by exact Hii. apply clip1_in. destruct (Hb i Hii). lra.
  - intros b b' x x' Hx Hx'. apply (rof_prox dims lam s) in Hx; [|exact Hs]. apply (rof_prox dims lam s) in Hx'; [|exact Hs].
    pose proof (prox_lip_convex _ (/ s) (variation_convex dims lam Hd ltac:(lra)) Hi b b' x x' Hx Hx') as H. rewrite Rmult_1_l in H. exact H.
  - intros b x m Hm Hx i Hii. set (y := vtab (nprod dims) (fun _ => m)). assert (HN : 0 < INR (nprod dims)) by (apply lt_0_INR; lia).
    assert (HV : variation dims (get y) = 0). { apply (proj2 (C98_variation_l dims Hd)). intros j Hj. unfold y. rewrite !get_vtab by lia. reflexivity. }
    assert (Hy : denoised dims (near2 b s) lam y).
    { split; [split; exact I|]. intros w _. cbn [eval eadd near2 etot]. rewrite HV, Rmult_0_r, Rplus_0_r.
      assert (E : s / 2 * norm2 (w [-] b) = s / 2 * norm2 (y [-] b) + s * << y [-] b, w [-] y >> + s / 2 * norm2 (w [-] y)) by (unfold norm2; iexp; field).
      assert (Z : RS (nprod dims) (fun j => m - get b j) = 0). { rewrite RS_sub, RS_const. unfold m. field. lra. }
      assert (E2 : << y [-] b, w [-] y >> = RS (nprod dims) (fun j => (m - get b j) * (get w j - get w 0))).
      { rewrite vec_inner. rewrite (RS_ext (nprod dims) _ (fun j => (m - get b j) * (get w j - get w 0) + (get w 0 - m) * (m - get b j))).
        - rewrite RS_add, RS_scal, Z. ring.
        - intros j Hj. rewrite !get_sub by exact Hj. unfold y. rewrite get_vtab by exact Hj. ring. }
      assert (E3 : - (variation dims (get w) * RS (nprod dims) (fun j => INR j * Rabs (get b j - m))) <= << y [-] b, w [-] y >>).
      { rewrite E2, <- RS_scal, <- RS_opp. apply RS_le. intros j Hj. pose proof (proj1 (C98_variation_l dims Hd) (get w) j Hj) as Hp. pose proof (Rabs_pos (get b j - m)) as Hq.
        pose proof (Rle_abs (- ((m - get b j) * (get w j - get w 0)))) as Hr. rewrite Rabs_Ropp, Rabs_mult, (Rabs_minus_sym m) in Hr.
        apply (Rmult_le_compat_l (Rabs (get b j - m))) in Hp; [|exact Hq]. lra. }
      rewrite E. pose proof (norm2_nonneg (w [-] y)) as Hw. pose proof (variation_nonneg dims (get w)) as Hv. apply (Rmult_le_compat_l (variation dims (get w))) in Hm; [|exact Hv].
      apply (Rmult_le_compat_l s) in E3; [|lra]. assert (0 <= s / 2 * norm2 (w [-] y)) by (apply Rmult_le_pos; lra). lra. }
    rewrite (rof_unique dims lam s b y x Hd Hl Hs Hy Hx). unfold y. rewrite get_vtab by exact Hii. reflexivity.
Qed.

(** ** TV as an operator inside ProximalGradient *)
Lemma L2b_grad {F : IPS} (o : Op F) b s x : is_L2b o b s -> o_grad o x = Ok (Some (s [*] (x [-] b))).
Proof.
  intros (ext & cfg & x0 & st0 & ch & Hex & Hd & Hq & H0 & Hch & ->). destruct (reached_fresh _ _ _ _ _ H0) as [Hsg _]. cbn [obj o_grad d_grad l2_body b_grad]. do 2 f_equal. unfold l2_grad. rewrite Hd, Hq, Hsg. reflexivity.
Qed.
Lemma sized_lst n (v : Vec n) : sized (Ok (lst v)) = Ok v.
Proof.
  unfold sized. cbn [bind]. unfold as_vec. destruct (Nat.eq_dec (length (lst v)) n) as [e|Hn]; [|exfalso; apply Hn, lst_length]. f_equal. apply (vec_ext _ (exist _ (lst v) e : Vec n) v). intros i Hi. reflexivity.
Qed.
Lemma tv_approx dims lam ws ch K tau fuel : dims_ok dims -> (1 <= length dims <= 4)%nat -> 0 < lam -> 0 < tau -> 1 <= tv_mt ws -> (1 <= K)%nat -> (forall x t, (Z.of_nat K <= ch x t)%Z) ->
  approx_prox (12 * (lam * tau) * tv_mt ws * sqrt (INR (length dims * nprod dims)) / INR K) tau (obj (S fuel) (tv_flat dims lam 0 ws ch)) (etot (fun v : Vec (nprod dims) => lam * variation dims (get v))).
Proof.
  intros H1 H2 H3 H4 H5 HK Hch x. destruct (C66_converges_l dims lam tau ws x H1 H2 H3 H4 H5) as (p & Hp & Hr). pose proof (Hch x tau) as Hc. destruct (Hr (Z.to_nat (ch x tau)) ltac:(lia)) as (v & Ev & Hv).
  rewrite Z2Nat.id in Ev by lia. exists v, p. split; [|split; [exact Hp|]].
  - cbn [obj o_prox d_prox tv_flat b_prox]. rewrite check_tau_pos by exact H4. rewrite Ev. apply sized_lst.
  - eapply Rle_trans; [exact Hv|]. unfold Rdiv. apply Rmult_le_compat_l.
    + repeat apply Rmult_le_pos; try lra. apply sqrt_pos.
    + apply Rinv_le_contravar; [apply lt_0_INR; lia|apply le_INR; lia].
Qed.
(*! C98_tv_operator : ProximalGradient (no acceleration, 0 < tau < 2/s) on L2(b, sigma=s) and TV(dims, sigma=lam, rtol=0) with at least K inner iterations per prox, on 1 to 4 axes of length at least 2, weights of maximum mt >= 1:
   it never fails and after n iterations is within q^n |x0 - l| + 12 lam tau mt sqrt(axes * size) / (K (1 - q)) of the minimiser l, q = |1 - tau s| < 1 *)
Lemma C98_tv_operator_l : forall dims lam s b proxf ws ch K x0 tau beta nb accel fuel, dims_ok dims -> (1 <= length dims <= 4)%nat -> 0 < lam -> 0 < s -> is_L2b proxf b s -> 1 <= tv_mt ws ->
  (1 <= K)%nat -> (forall x t, (Z.of_nat K <= ch x t)%Z) -> 0 < tau < 2 / s -> unaccelerated accel 1 ->
  let q := Rabs (1 - tau * s) in q < 1 /\
  exists l, denoised dims (near2 b s) lam l /\
    forall n, exists x tr, ProximalGradient proxf (obj (S fuel) (tv_flat dims lam 0 ws ch)) x0 [1] (Some tau) false beta 1 (S n) nb accel None = Ok (x, tr) /\
      norm (x [-] l) <= q ^ S n * norm (x0 [-] l) + 12 * lam * tau * tv_mt ws * sqrt (INR (length dims * nprod dims)) / (INR K * (1 - q)).
Proof.
  intros dims lam s b proxf ws ch K x0 tau beta nb accel fuel H1 H2 Hl Hs Hf Hm HK Hch Ht Ha q.
  assert (Hts : tau * s < 2). { destruct Ht as [_ H]. apply (Rmult_lt_compat_r s) in H; [|lra]. replace (2 / s * s) with 2 in H by (field; lra). exact H. }
  assert (Hts0 : 0 < tau * s) by (apply Rmult_lt_0_compat; lra). assert (Hq : q < 1) by (apply Rabs_def1; lra). assert (Hq0 : 0 <= q) by apply Rabs_pos. split; [exact Hq|].
  destruct (proj1 (C98_rof_l dims lam s H1 ltac:(lia) Hl Hs) b) as (l & L1 & _ & L2 & _). exists l. split; [exact L1|].
  set (g := etot (fun v : Vec (nprod dims) => lam * variation dims (get v))). set (df := fun x : Vec (nprod dims) => s [*] (x [-] b)).
  set (e := 12 * (lam * tau) * tv_mt ws * sqrt (INR (length dims * nprod dims)) / INR K). assert (Hcv : convex g) by (apply variation_convex; [exact H1|lra]).
  assert (Hgr : approx_grad 0 proxf df). { intro x. exists (df x). split; [apply L2b_grad; exact Hf|]. rewrite vsub_diag, norm_zero. lra. }
  assert (Hap : approx_prox e (1 * tau) (obj (S fuel) (tv_flat dims lam 0 ws ch)) g) by (rewrite Rmult_1_l; apply (tv_approx dims lam ws ch K tau fuel); auto; lra).
  assert (Hpl : prox_lip 1 g (1 * tau)) by (rewrite Rmult_1_l; apply prox_lip_convex; [exact Hcv|lra]).
  destruct (pg_runs proxf _ df g 1 x0 tau beta 1 nb accel 0 e 1 Hgr Hap Hpl ltac:(lra) (proj1 Ht) ltac:(lra) Ha) as (xs & X0 & HR & HS).
  assert (HL : pg_seq 0 df g (1 * tau) tau 1 (fun _ => l)).
  { intro j. exists l. split; [|replace (l [-] (l [+] 1 [*] (l [-] l))) with (vzero : Vec (nprod dims)) by vring; rewrite norm_zero; lra]. rewrite Rmult_1_l. apply subgrad_prox; [lra|].
    pose proof (prox_subgrad g (/ s) b l Hcv ltac:(apply Rinv_0_lt_compat; lra) L2) as Hsg. rewrite Rinv_inv in Hsg. replace (/ tau [*] (l [-] tau [*] df l [-] l)) with (s [*] (b [-] l)); [exact Hsg|]. unfold df. vfield. lra. }
  assert (Hlip : lipschitz q (fun x => x [-] tau [*] df x)).
  { intros x y. unfold df. replace (x [-] tau [*] (s [*] (x [-] b)) [-] (y [-] tau [*] (s [*] (y [-] b)))) with ((1 - tau * s) [*] (x [-] y)) by vring. rewrite norm_scal. fold q. lra. }
  intro n. exists (xs (S n)), (map xs (seq 1 (S n))). split; [apply HR|].
  pose proof (pg_cmp 0 _ df g (1 * tau) tau 1 q 1 (fun _ => l) xs Hlip Hpl Hq0 ltac:(lra) ltac:(lra) HL HS (S n)) as H. cbv zeta in H. rewrite X0 in H.
  replace (Rabs (1 - 1) + 1 * (1 * q)) with q in H by (replace (1 - 1) with 0 by ring; rewrite Rabs_R0; ring). eapply Rle_trans; [exact H|]. apply Rplus_le_compat_l.
  assert (He : 0 <= e). { unfold e, Rdiv. repeat apply Rmult_le_pos; try lra; [apply sqrt_pos|]. apply Rlt_le, Rinv_0_lt_compat, lt_0_INR. lia. }
  pose proof (geom_le q (S n) ltac:(lra)) as Hge. apply Rle_trans with (e * / (1 - q)).
  - replace (0 + 1 * (e + 1 * (tau * 0))) with e by ring. apply Rmult_le_compat_l; [exact He|exact Hge].
  - right. unfold e. assert (0 < INR K) by (apply lt_0_INR; lia). field. lra.
Qed.
(*! C98_stop_refuted : with an early stop (any rtol in (0, 1], the default is 1e-4) this fails: ProximalGradient with tau = 1 on L2(b) and TV(dims=(2,), sigma=1/4, niter, rtol), b = (0, 1/2), returns (1/8, 3/8) after
   every number n >= 1 of iterations, from every start, for every niter >= 1; the minimiser is (1/4, 1/4) *)
Lemma C98_stop_refuted_l : forall proxf K rtol x0 beta nb n fuel, is_L2b proxf stop_x 1 -> (1 <= K)%nat -> 0 < rtol <= 1 ->
  (exists x tr, ProximalGradient proxf (obj (S fuel) (tv_flat [2%nat] (1 / 4) rtol [] (fun _ _ => Z.of_nat K))) x0 [1] (Some 1) false beta 1 (S n) nb None None = Ok (x, tr) /\ lst x = [1 / 8; 3 / 8]) /\
  denoised [2%nat] (near2 stop_x 1) (1 / 4) (ofl (nprod [2%nat]) [1 / 4; 1 / 4]).
Proof.
  intros proxf K rtol x0 beta nb n fuel Hf HK Hr. destruct (C66_stop_refuted_l K rtol HK Hr) as (E1 & E2 & _). split.
  2:{ apply rof_prox; [lra|]. rewrite Rinv_1. exact E2. }
  assert (Hok : dims_ok [2%nat]) by (intros k [<-|[]]; lia).
  set (o := obj (S fuel) (tv_flat [2%nat] (1 / 4) rtol [] (fun _ _ => Z.of_nat K))).
  assert (EO : forall x, o_prox o x (1 * 1) = sized (tv_run (1 / 4) rtol [] [2%nat] (Z.of_nat K) (lst x) 1)).
  { intro x. unfold o. cbn [obj o_prox d_prox tv_flat b_prox]. rewrite Rmult_1_l, check_tau_pos by lra. reflexivity. }
  destruct (raw_run proxf o (fun x => 1 [*] (x [-] stop_x)) 1 x0 1 beta nb) as (xs & _ & HR & HS).
  - intro x. apply L2b_grad. exact Hf.
  - intro x. rewrite EO. destruct (C66_sum_preserved_l [2%nat] (1 / 4) 1 [] rtol K x Hok ltac:(simpl; lia) ltac:(lra) ltac:(lra) ltac:(simpl; lra)) as (v & -> & _). exists v. apply sized_lst.
  - exists (xs (S n)), (map xs (seq 1 (S n))). split; [apply HR|]. specialize (HS n). rewrite EO in HS. replace (xs n [-] 1 [*] (1 [*] (xs n [-] stop_x))) with stop_x in HS by vring.
    change (lst stop_x) with [0; 1 / 2] in HS.
    rewrite E1 in HS. unfold sized in HS. cbn [bind] in HS. unfold as_vec in HS. destruct (Nat.eq_dec _ _) as [e|Hn] in HS; [|discriminate]. injection HS as <-. reflexivity.
Qed.
Lemma L2b_obj n (b : Vec n) : exists o, is_L2b o b 1.
Proof.
  set (cfg := mkL2 (E:=Vec n) (F:=Vec n) (OnlyB b) None 1 true (fun _ => 10%nat) true Legacy DenseDefault).
  exists (obj 2 (l2_body (gs_ext n (Vec n)) cfg (l2_init _ cfg 1 None) (fun _ _ => l2_init _ cfg 1 None))), (gs_ext n (Vec n)), cfg, None, (l2_init _ cfg 1 None), (fun _ _ => l2_init _ cfg 1 None).
  split; [apply gs_ext_exact|]. split; [reflexivity|]. split; [reflexivity|]. split; [apply reached_init|]. split; [intros; apply reached_init|reflexivity].
Qed.
(*!ex C98_example : a 2 x 2 image b: an object L2(b) exists, PrimalDual with tau = 1/4 and mu = 1/2 on it, L21(2, sigma=1/10) and the gradient converges to the minimiser; for b = (0, 1) and lam = 1/2 the minimiser of 1/2 |x-b|^2 + lam TV(x) is (1/2, 1/2) *)
Lemma C98_example_l :
  (forall b : Vec (nprod [2%nat; 2%nat]), exists proxf G, is_L2b proxf b 1 /\ is_gradient [2%nat; 2%nat] 1 G /\
    exists xs ys l yl, (forall n, exists tr, PrimalDual proxf (obj 2 (l21_flat 2 (1 / 10))) G None vzero (Scalar (1 / 4)) (Scalar (1 / 2)) None None 1 n false = Ok (xs n, ys n, tr)) /\
      denoised [2%nat; 2%nat] (near2 b 1) (1 / 10 * 1) l /\ vcv xs l /\ vcv ys yl) /\
  denoised [2%nat] (near2 (ofl (nprod [2%nat]) [0; 1]) 1) (1 / 2) (ofl (nprod [2%nat]) [1 / 2; 1 / 2]).
Proof.
  split.
  - intro b. assert (Hok : dims_ok [2%nat; 2%nat]) by (intros k [<-|[<-|[]]]; lia). destruct (L2b_obj _ b) as [proxf Hf]. exists proxf, (gradop _ Hok). split; [exact Hf|]. split; [apply gradop_is|].
    destruct (proj1 (C98_data_terms_l [2%nat; 2%nat] 1 (1 / 10 * 1) Hok ltac:(lra) ltac:(lra)) b) as [D1 D2].
    apply (proj1 (C98_isotropic_l [2%nat; 2%nat] 1 (gradop _ Hok) (1 / 10) (near2 b 1) proxf 1 Hok ltac:(simpl; lia) (gradop_is _ Hok) Rlt_0_1 ltac:(lra) (D2 proxf Hf) D1)); [lra|lra|]. simpl. lra.
  - assert (Hok : dims_ok [2%nat]) by (intros k [<-|[]]; lia). set (b := ofl (nprod [2%nat]) [0; 1]). destruct (proj1 (C98_rof_l [2%nat] (1 / 2) 1 Hok ltac:(simpl; lia) ltac:(lra) ltac:(lra)) b) as (x & Hx & _).
    pose proof (proj2 (proj2 (proj2 (C98_rof_l [2%nat] (1 / 2) 1 Hok ltac:(simpl; lia) ltac:(lra) ltac:(lra)))) b x) as H. cbv zeta in H.
    assert (EM : RS (nprod [2%nat]) (get b) / INR (nprod [2%nat]) = 1 / 2) by (cbn; lra). rewrite EM in H. 
    assert (Hb : 1 * RS (nprod [2%nat]) (fun i => INR i * Rabs (get b i - 1 / 2)) <= 1 / 2). { cbn. rewrite (Rabs_right (1 - 1 / 2)) by lra. lra. }
    specialize (H Hb Hx). replace (ofl (nprod [2%nat]) [1 / 2; 1 / 2]) with x; [exact Hx|]. apply vec_ext. intros i Hi. rewrite H by exact Hi. destruct i as [|[|i]]; [reflexivity|reflexivity|cbn in Hi; lia].
Qed.
