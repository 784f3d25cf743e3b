(** * Proofs about ProximalGradient (M_PG.v): fixed points, relaxation,
    backtracking, option validation and concrete instances *)
From Coq Require Import String Psatz.
From Verif Require Import Base Space Spec ConvexFacts Smooth M_ProxOp SpecOps P_ProxOp M_Loop LoopFacts Trace SeqFacts M_PG M_Norms P_Norms P_PG P_PG2.
From Verif Require Export S_PG3.
Open Scope result_scope.
Open Scope R_scope.

Section Fix.
Context {E : IPS}.
(** x is a fixed point of the proximal gradient step iff -grad is a subgradient. *)
Lemma pg_fix_subgrad (g : efun E) (u x : E) eps tau : convex g -> 0 < eps -> 0 < tau ->
  (is_prox g (eps * tau) (x [-] tau [*] u) x <-> is_subgrad (escal eps g) x (vopp u)).
Proof.
  intros Hg He Ht. rewrite prox_iff_subgrad by (auto; nra). rewrite eq_scal_subgrad by auto.
  replace (/ (eps * tau) [*] (x [-] tau [*] u [-] x)) with (/ eps [*] vopp u) by (vfield; lra). tauto.
Qed.
Lemma pg_fix_min (f : E -> R) df L (g : efun E) x eps tau : convex (etot f) -> 0 < L -> L_smooth f df L -> convex g -> 0 < eps -> 0 < tau ->
  (is_prox g (eps * tau) (x [-] tau [*] df x) x <-> is_min (eadd (etot f) (escal eps g)) x).
Proof.
  intros Hc HL Hs Hg He Ht. rewrite pg_fix_subgrad by auto. split.
  - intro H. apply (min_sum_subgrad f (escal eps g) x (df x)); auto. apply Hs.
  - intro H. apply (min_sum_subgrad_inv f df L); auto; [lra|apply L_smooth_convex; auto|apply convex_scal; auto; lra].
Qed.
End Fix.

(*! C41_fixed_points : without acceleration and with 0 < tau <= 1/L the returned vector equals x0 (for some, equivalently
   every, iteration count >= 1) if and only if x0 minimises f + eps g; and then every callback receives x0 *)
Lemma C41_fixed_points_l : forall (E : IPS) (proxf proxg : Op E) f df L g eps x0 tau beta niter niterback accel,
  smooth_op proxf f df L -> impl_prox proxg g -> convex g -> 0 < eps -> 0 < tau <= / L -> (1 <= niter)%nat ->
  accel = None \/ accel = Some "None"%string ->
  let F := eadd (etot f) (escal eps g) in
  let run := ProximalGradient proxf proxg x0 [eps] (Some tau) false beta 1 niter niterback accel None in
  (is_min F x0 <-> exists tr, run = Ok (x0, tr)) /\ (is_min F x0 -> run = Ok (x0, repeat x0 niter)).
Proof.
  intros E proxf proxg f df L g eps x0 tau beta niter niterback accel [Hc [Hg [Hcv [HL Hsm]]]] Hp Hgc He Ht Hn Hac F run.
  destruct (L_smooth_convex f df L Hcv Hsm) as [Hf1 Hf2].
  destruct (pg_fixed proxf proxg f df g (fun _ => 0) Hc Hg Hp [eps] (fun _ => eps) x0 tau beta niter niterback accel None) as
    [xs [ys [k [Er [H0 [Hd [Hs Hk0]]]]]]]; auto; try lra.
  { left. exists eps. repeat split; auto; lia. }
  { destruct Hac; subst; auto. }
  { congruence. }
  simpl in Hs. subst k. fold run in Er.
  assert (Hom : forall j, omega_seq accel j = 0) by (intro; destruct Hac; subst; reflexivity).
  assert (Hst : forall j, (j < niter)%nat -> is_prox g (eps * tau) (xs j [-] tau [*] df (xs j)) (xs (S j))).
  { intros j Hj. pose proof (pg_doc_step df g eps (fun _ => tau) (omega_seq accel) xs ys 1 niter eq_refl Hd j Hj) as H.
    rewrite (pg_plain df g eps (fun _ => tau) (omega_seq accel) xs ys niter Hom Hd j) in H by lia. exact H. }
  assert (Hfix : is_min F x0 -> forall j, (j <= niter)%nat -> xs j = x0).
  { intros Hm j. induction j as [|j IH]; intro Hj; auto. specialize (Hst j ltac:(lia)). rewrite IH in Hst by lia.
    apply (prox_unique g (eps * tau) (x0 [-] tau [*] df x0)); auto; [nra|]. apply (pg_fix_min f df L); auto; lra. }
  assert (Hrep : is_min F x0 -> run = Ok (x0, repeat x0 niter)).
  { intro Hm. rewrite Er, (Hfix Hm niter) by lia. f_equal. f_equal. clear - Hm Hfix. specialize (Hfix Hm).
    assert (forall n i, (i + n <= S niter)%nat -> map xs (seq i n) = repeat x0 n).
    { induction n as [|n IH]; intros i Hi; [reflexivity|]. simpl. rewrite Hfix by lia. f_equal. apply IH. lia. }
    apply H. lia. }
  split; [split; [intro Hm; eexists; apply Hrep; auto|]|exact Hrep].
  intros [tr Htr]. rewrite Er in Htr. injection Htr as Hx _.
  assert (Hsd : suff_dec f df (fun _ => tau) xs ys niter).
  { apply (suff_dec_small f df L); auto. split; auto. }
  assert (HdX : forall j, (j <= niter)%nat -> edom g (xs j)).
  { intros j Hj. destruct j. { rewrite H0, <- Hx. apply (pg_doc_dom df g eps (fun _ => tau) (omega_seq accel) xs ys niter); auto. }
    apply (pg_doc_dom df g eps (fun _ => tau) (omega_seq accel) xs ys niter); auto. lia. }
  assert (Hmono : forall j, (j < niter)%nat -> f (xs (S j)) + eps * eval g (xs (S j)) <= f (xs j) + eps * eval g (xs j)).
  { intros j Hj. apply (pg_mono f df g eps Hf1 Hgc He (fun _ => tau) (omega_seq accel) xs ys (fun _ => proj1 Ht) niter Hom Hd Hsd j); auto. apply HdX; lia. }
  assert (Hmono1 : forall j, (1 <= j <= niter)%nat -> f (xs j) + eps * eval g (xs j) <= f (xs 1%nat) + eps * eval g (xs 1%nat)).
  { induction j as [|j IH]; intro Hj; [lia|]. destruct j; [lra|]. specialize (IH ltac:(lia)). specialize (Hmono (S j) ltac:(lia)). lra. }
  pose proof (Hmono1 niter ltac:(lia)) as Hend. rewrite Hx, <- H0 in Hend.
  pose proof (pg_ineq f df g tau eps (xs 0%nat) (xs 1%nat) (proj1 Ht) He (Hf1 _) Hgc (Hst 0%nat ltac:(lia))) as Hi.
  assert (Hy0 : ys 0%nat = xs 0%nat) by (apply (pg_plain df g eps (fun _ => tau) (omega_seq accel) xs ys niter Hom Hd); lia).
  specialize (Hsd 0%nat ltac:(lia)). rewrite Hy0 in Hsd. specialize (Hi Hsd (xs 0%nat) (HdX 0%nat ltac:(lia))).
  rewrite vsub_diag, norm2_zero in Hi.
  assert (Hz : norm2 (xs 1%nat [-] xs 0%nat) = 0). { pose proof (norm2_nonneg (xs 1%nat [-] xs 0%nat)). nra. }
  apply norm2_eq0 in Hz. apply vsub_eq in Hz. specialize (Hst 0%nat ltac:(lia)). rewrite Hz, H0 in Hst.
  apply (pg_fix_min f df L g x0 eps tau); auto; lra.
Qed.

(*! C43_acceleration_ignored : with eta <> 1 and a fixed step, the acceleration option has no effect: any two accepted
   values give the same result and the same callbacks *)
Lemma C43_acceleration_ignored_l : forall (E : IPS) (proxf proxg : Op E) f df g epsg eps x0 tau beta eta niter niterback accel1 accel2,
  impl_call proxf (etot f) -> (forall x, o_grad proxf x = Ok (Some (df x))) -> impl_prox proxg g -> convex g ->
  eps_arg epsg niter eps -> (forall j, (j < niter)%nat -> 0 < eps j) -> 0 < tau -> eta <> 1 ->
  accel_known accel1 = true -> accel_known accel2 = true ->
  ProximalGradient proxf proxg x0 epsg (Some tau) false beta eta niter niterback accel1 None =
  ProximalGradient proxf proxg x0 epsg (Some tau) false beta eta niter niterback accel2 None.
Proof.
  intros E proxf proxg f df g epsg eps x0 tau beta eta niter niterback a1 a2 Hc Hg Hp Hcv He Hep Ht Hne K1 K2.
  destruct (pg_relaxed proxf proxg f df g (fun _ => 0) Hg Hp epsg eps x0 tau beta eta niter niterback a1) as [xs [E1 [X0 HX]]]; auto.
  destruct (pg_relaxed proxf proxg f df g (fun _ => 0) Hg Hp epsg eps x0 tau beta eta niter niterback a2) as [ys [E2 [Y0 HY]]]; auto.
  assert (H : forall j, (j <= niter)%nat -> xs j = ys j).
  { induction j as [|j IH]; intro Hj; [congruence|]. specialize (IH ltac:(lia)).
    destruct (HX j ltac:(lia)) as [p [Hp1 ->]]. destruct (HY j ltac:(lia)) as [q [Hq1 ->]]. rewrite <- IH in *.
    rewrite (prox_unique g (eps j * tau) (xs j [-] tau [*] df (xs j)) p q); auto. specialize (Hep j ltac:(lia)). nra. }
  rewrite E1, E2, (H niter) by lia. f_equal. f_equal. apply map_ext_in. intros j Hj. apply in_seq in Hj. apply H. lia.
Qed.

(*! C43_relaxed_rate : with 0 < eta < 1, fixed 0 < tau <= 1/L and x0 in the domain of g (acceleration has no effect): F
   never increases and 2 tau (1 + eta (k-1)) (F(x_k) - F(z)) <= |x0-z|^2 + 2 tau (1-eta) (F(x0) - F(z)) for every z *)
Lemma C43_relaxed_rate_l : forall (E : IPS) (proxf proxg : Op E) f df L g eps x0 tau beta eta niter niterback accel,
  smooth_op proxf f df L -> impl_prox proxg g -> convex g -> 0 < eps -> 0 < tau <= / L -> 0 < eta < 1 ->
  accel_known accel = true -> edom g x0 ->
  let F := eadd (etot f) (escal eps g) in
  exists x tr, ProximalGradient proxf proxg x0 [eps] (Some tau) false beta eta (S niter) niterback accel None = Ok (x, tr) /\
    List.length tr = S niter /\ edom F x /\
    (forall z, edom F z -> 2 * tau * (1 + eta * INR niter) * (eval F x - eval F z) <=
       norm2 (x0 [-] z) + 2 * tau * (1 - eta) * (eval F x0 - eval F z)) /\
    (forall i a b, nth_error (x0 :: tr) i = Some a -> nth_error (x0 :: tr) (S i) = Some b -> eval F b <= eval F a).
Proof.
  intros E proxf proxg f df L g eps x0 tau beta eta niter niterback accel [Hc [Hg [Hcv [HL Hsm]]]] Hp Hgc He Ht Heta Hac Hx0 F.
  pose proof (L_smooth_convex f df L Hcv Hsm) as Hsc. destruct Hsc as [Hf1 Hf2].
  destruct (pg_relaxed proxf proxg f df g (fun _ => 0) Hg Hp [eps] (fun _ => eps) x0 tau beta eta (S niter) niterback accel) as [xs [E1 [X0 HX]]]; auto; try lra.
  { left. exists eps. repeat split; auto. }
  exists (xs (S niter)), (map xs (seq 1 (S niter))). split; auto. split; [rewrite map_length, seq_length; auto|].
  assert (HFc : convex F). { apply convex_add; auto. apply convex_scal; auto; lra. }
  assert (Hdom : forall j, (j <= S niter)%nat -> edom g (xs j)).
  { induction j as [|j IH]; intro Hj; [congruence|]. destruct (HX j ltac:(lia)) as [p [[Hpd _] ->]].
    replace (xs j [+] eta [*] (p [-] xs j)) with ((1 - eta) [*] xs j [+] eta [*] p) by vring.
    apply (Hgc (xs j) p (eta)); auto; try lra. apply IH; lia. }
  set (Fv := fun x => f x + eps * eval g x).
  assert (Hstep : forall j z, (j <= niter)%nat -> edom g z ->
     norm2 (xs (S j) [-] z) + 2 * tau * (Fv (xs (S j)) - Fv z) <= norm2 (xs j [-] z) + 2 * tau * (1 - eta) * (Fv (xs j) - Fv z)).
  { intros j z Hj Hz. destruct (HX j ltac:(lia)) as [p [Hp1 Hx]].
    assert (Hsd : f p <= f (xs j) + << df (xs j), p [-] xs j >> + / (2 * tau) * norm2 (p [-] xs j)).
    { pose proof (suff_dec_small f df L (fun _ => tau) (fun i => match i with O => xs j | _ => p end) (fun _ => xs j) 1 (conj Hf1 Hf2) HL (fun _ _ => Ht) 0%nat ltac:(lia)) as H. exact H. }
    pose proof (pg_ineq f df g tau eps (xs j) p (proj1 Ht) He (Hf1 _) Hgc Hp1 Hsd z Hz) as Hi.
    destruct (HFc (xs j) p eta) as [_ Hcx]; [split; [exact I|apply Hdom; lia]|split; [exact I|apply Hp1]|lra|].
    replace ((1 - eta) [*] xs j [+] eta [*] p) with (xs (S j)) in Hcx by (rewrite Hx; vring).
    cbn [eval F eadd etot escal] in Hcx. unfold Fv.
    assert (Hn : norm2 (xs (S j) [-] z) = (1 - eta) * norm2 (xs j [-] z) + eta * norm2 (p [-] z) - eta * (1 - eta) * norm2 (p [-] xs j)).
    { rewrite Hx. iexp. ring. }
    pose proof (norm2_nonneg (p [-] xs j)). rewrite Hn.
    assert (2 * tau * (f (xs (S j)) + eps * eval g (xs (S j))) <= 2 * tau * ((1 - eta) * (f (xs j) + eps * eval g (xs j)) + eta * (f p + eps * eval g p))).
    { apply Rmult_le_compat_l; lra. }
    assert (0 <= eta * (1 - eta) * norm2 (p [-] xs j)) by (apply Rmult_le_pos; auto; nra).
    assert (eta * (2 * tau * (f p + eps * eval g p - (f z + eps * eval g z)) + norm2 (p [-] z)) <= eta * norm2 (xs j [-] z)) by (apply Rmult_le_compat_l; lra).
    nra. }
  assert (Hmono : forall j, (j <= niter)%nat -> Fv (xs (S j)) <= Fv (xs j)).
  { intros j Hj. specialize (Hstep j (xs j) Hj (Hdom j ltac:(lia))). rewrite vsub_diag, norm2_zero in Hstep.
    pose proof (norm2_nonneg (xs (S j) [-] xs j)). nra. }
  split; [split; [exact I|apply Hdom; lia]|]. split.
  - intros z [_ Hz].
    assert (Hsum : forall j, (j <= niter)%nat -> norm2 (xs (S j) [-] z) + 2 * tau * (1 + eta * INR j) * (Fv (xs (S j)) - Fv z) <=
        norm2 (xs 0%nat [-] z) + 2 * tau * (1 - eta) * (Fv (xs 0%nat) - Fv z)).
    { induction j as [|j IH]; intro Hj.
      - specialize (Hstep 0%nat z Hj Hz). simpl (INR 0). lra.
      - specialize (IH ltac:(lia)). pose proof (Hstep (S j) z Hj Hz) as H1. rewrite S_INR.
        pose proof (Hmono (S j) Hj) as H2. pose proof (pos_INR j).
        assert (H3 : 2 * tau * (eta * (INR j + 1)) * Fv (xs (S (S j))) <= 2 * tau * (eta * (INR j + 1)) * Fv (xs (S j))).
        { apply Rmult_le_compat_l; auto. apply Rmult_le_pos; [lra|]. apply Rmult_le_pos; lra. }
        nra. }
    specialize (Hsum niter (Nat.le_refl _)). pose proof (norm2_nonneg (xs (S niter) [-] z)). rewrite X0 in Hsum.
    cbn [eval F eadd etot escal]. unfold Fv in *. lra.
  - assert (Hs : x0 :: map xs (seq 1 (S niter)) = map xs (seq 0 (S (S niter)))) by (rewrite <- X0; reflexivity).
    rewrite Hs. intros i a b Ha Hb. apply nth_error_map_seq in Ha as [_ ->]. apply nth_error_map_seq in Hb as [Hl ->].
    apply (Hmono i). lia.
Qed.

(** ** Two small operators on the real line *)

Lemma quad1_smooth c : 0 < c -> smooth_op (quad1 c) (fun x : R_IPS => c / 2 * (x * x)) (fun x : R_IPS => c * x) c.
Proof.
  intro Hc. split; [intros x _; reflexivity|]. split; [reflexivity|]. split; [|split; auto].
  - intros x y a _ _ Ha. split; [exact I|]. cbn.
    assert (0 <= c / 2 * (a * (1 - a) * ((x - y) * (x - y)))).
    { apply Rmult_le_pos; [lra|]. apply Rmult_le_pos; [apply Rmult_le_pos; lra|apply Rle_0_sqr]. }
    nra.
  - split.
    + intros x eps He. exists (2 * eps / c). split; [apply Rdiv_lt_0_compat; lra|]. intros h Hh.
      cbn -[norm].
      assert (Hn : forall v : R_IPS, norm v = Rabs v). { intro v. unfold norm, norm2; simpl. apply sqrt_Rsqr_abs. }
      rewrite !Hn in *. replace (c / 2 * ((x + h) * (x + h)) - c / 2 * (x * x) - c * x * h) with (c / 2 * h * h) by field.
      rewrite Rabs_mult. apply Rmult_le_compat_r; [apply Rabs_pos|]. rewrite Rabs_mult, (Rabs_right (c / 2)) by lra.
      apply (Rmult_le_reg_l (2 / c)); [apply Rdiv_lt_0_compat; lra|]. replace (2 / c * (c / 2 * Rabs h)) with (Rabs h) by (field; lra).
      replace (2 / c * eps) with (2 * eps / c) by (field; lra). lra.
    + intros x y. assert (Hn : forall v : R_IPS, norm v = Rabs v). { intro v. unfold norm, norm2; simpl. apply sqrt_Rsqr_abs. }
      rewrite !Hn. change (Rabs (c * x + (-1) * (c * y)) <= c * Rabs (x + (-1) * y)). replace (c * x + (-1) * (c * y)) with (c * (x + (-1) * y)) by ring. rewrite Rabs_mult, (Rabs_right c) by lra. lra.
Qed.
Lemma zero1_prox : impl_prox zero1 (etot (E:=R_IPS) (fun _ => 0)).
Proof.
  intros x tau Ht. exists x. split; auto. apply subgrad_prox; auto. split; [exact I|]. intros y _. cbn. lra.
Qed.
Lemma zero1_prox_inv tau x p : 0 < tau -> is_prox (etot (E:=R_IPS) (fun _ => 0)) tau x p -> p = x.
Proof.
  intros Ht H. destruct (zero1_prox x tau Ht) as [q [Eq Hq]]. inversion Eq; subst q.
  apply (prox_unique (etot (E:=R_IPS) (fun _ => 0)) tau x); auto. intros a b t _ _ _. split; [exact I|]. cbn. lra.
Qed.

(*! C43_relaxation_refuted : for eta <> 1 with acceleration the executed recursion is not the documented one: f = x^2/2,
   g = 0, tau = 1/2, eta = 1/2, x0 = 1, 'vandenberghe', three iterations: documented x_3 = 99/256, returned 27/64 *)
Lemma C43_relaxation_refuted_l :
  let f := fun x : R_IPS => 1 / 2 * (x * x) in let g := etot (E:=R_IPS) (fun _ => 0) in
  smooth_op (quad1 1) f (fun x : R_IPS => 1 * x) 1 /\ impl_prox zero1 g /\
  ProximalGradient (quad1 1) zero1 1 [1] (Some (1/2)) false (1/2) (1/2) 3 10 (Some "vandenberghe"%string) None
    = Ok (27/64, [3/4; 9/16; 27/64]) /\
  forall xs ys, xs 0%nat = 1 ->
    pg_doc (E:=R_IPS) (fun x : R_IPS => 1 * x) g (fun _ => 1) (fun _ => 1/2) (1/2) (omega_seq (Some "vandenberghe"%string)) xs ys 3 ->
    xs 3%nat = 99/256.
Proof.
  split; [apply quad1_smooth; lra|]. split; [apply zero1_prox|]. split.
  - unfold ProximalGradient. cbn [pg_epsg bind accel_known String.eqb Ascii.eqb Bool.eqb orb repeat].
    assert (Hs' : forall x y, pg_prox_step (E:=R_IPS) (quad1 1) zero1 false (1/2) (1/2) 10 1 x y (1/2) = Ok (x * (3/4), 1/2)).
    { intros. unfold pg_prox_step. destruct (Reqb_spec (1/2) 1) as [[? _]|[_ ->]]; [lra|]. cbn. f_equal. f_equal. field. }
    cbn [for_loop]. unfold pg_body. cbn [getitem nth_error bind pg_x pg_y pg_tau pg_tr]. rewrite Hs'. cbn [bind fst snd pg_x pg_y pg_tau pg_tr pg_t].
    rewrite Hs'. cbn [bind fst snd pg_x pg_y pg_tau pg_tr pg_t]. rewrite Hs'. cbn [bind fst snd pg_x pg_y pg_tau pg_tr pg_t app].
    f_equal. f_equal; [field|]. repeat (f_equal; try field).
  - intros xs ys H0 [Hy Hd].
    assert (Hst : forall j, (j < 3)%nat -> xs (S j) = 3/4 * ys j /\ ys (S j) = xs (S j) + omega_seq (Some "vandenberghe"%string) j * (xs (S j) + -1 * xs j)).
    { intros j Hj. destruct (Hd j Hj) as [p [Hp [Hx HY]]]. apply zero1_prox_inv in Hp; [|lra]. split; [|exact HY].
      rewrite Hx, Hp. cbn. field. }
    destruct (Hst 0%nat ltac:(lia)) as [A1 B1]. destruct (Hst 1%nat ltac:(lia)) as [A2 B2]. destruct (Hst 2%nat ltac:(lia)) as [A3 _].
    unfold omega_seq in *. cbn in B1, B2. rewrite A3, B2, A2, B1, A1, Hy, H0. field.
Qed.

(*! C43_backtracking_relaxation_refuted : with backtracking and eta <> 1 the step is applied twice: same data, one
   iteration: documented x_1 = 3/4 (one relaxed step), returned 3/8 *)
Lemma C43_backtracking_relaxation_refuted_l :
  let g := etot (E:=R_IPS) (fun _ => 0) in
  smooth_op (quad1 1) (fun x : R_IPS => 1 / 2 * (x * x)) (fun x : R_IPS => 1 * x) 1 /\ impl_prox zero1 g /\
  ProximalGradient (quad1 1) zero1 1 [1] (Some (1/2)) true (1/2) (1/2) 1 10 None None = Ok (3/8, [3/8]) /\
  forall xs ys tau, xs 0%nat = 1 -> tau = 1/2 ->
    pg_doc (E:=R_IPS) (fun x : R_IPS => 1 * x) g (fun _ => 1) (fun _ => tau) (1/2) (omega_seq None) xs ys 1 -> xs 1%nat = 3/4.
Proof.
  split; [apply quad1_smooth; lra|]. split; [apply zero1_prox|]. split.
  - unfold ProximalGradient. cbn [pg_epsg bind accel_known repeat].
    cbn [for_loop]. unfold pg_body. cbn [getitem nth_error bind pg_x pg_y pg_tau pg_tr]. unfold pg_prox_step.
    assert (B : backtracking (E:=R_IPS) 1 (1/2) (quad1 1) zero1 1 (1/2) 10 = Ok (1/2, 1/2)).
    { unfold backtracking. cbn -[Rleb].
      match goal with |- context [Rleb ?a ?b] => destruct (Rleb_spec a b) as [[_ ->]|[H _]] end.
      - f_equal. f_equal. field.
      - exfalso. unfold norm2 in H. cbn in H. lra. }
    rewrite B. cbn [bind fst snd]. destruct (Reqb_spec (1/2) 1) as [[? _]|[_ ->]]; [lra|]. cbn. repeat (f_equal; try field).
  - intros xs ys tau H0 -> [Hy Hd]. destruct (Hd 0%nat ltac:(lia)) as [p [Hp [Hx HY]]]. apply zero1_prox_inv in Hp; [|lra].
    rewrite Hx, Hp, Hy, H0. cbn. field.
Qed.

(*! C44_accepted : for every x, tau > 0 and niterback >= 1, either the line search accepts at its i-th trial (i < niterback):
   the returned point is the proximal step with the returned tau = tau beta^i and passes the sufficient decrease test, all
   earlier trials failed it; or all niterback trials failed *)
Lemma C44_accepted_l : forall (E : IPS) (proxf proxg : Op E) f df g e beta niterback x tau,
  impl_call proxf (etot f) -> (forall x, o_grad proxf x = Ok (Some (df x))) -> impl_prox proxg g -> 0 < e -> 0 < beta -> 0 < tau ->
  (exists z i, backtracking x tau proxf proxg e beta (S niterback) = Ok (z, tau * beta ^ i) /\ (i <= niterback)%nat /\
     trial df g e (tau * beta ^ i) x z /\ test_ok f df (tau * beta ^ i) x z /\
     (forall j, (j < i)%nat -> exists w, trial df g e (tau * beta ^ j) x w /\ ~ test_ok f df (tau * beta ^ j) x w)) \/
  ((forall j, (j <= niterback)%nat -> exists w, trial df g e (tau * beta ^ j) x w /\ ~ test_ok f df (tau * beta ^ j) x w) /\
   exists z, backtracking x tau proxf proxg e beta (S niterback) = Ok (z, tau * beta ^ (S niterback)) /\
     trial df g e (tau * beta ^ niterback) x z).
Proof.
  intros E proxf proxg f df g e beta niterback x tau Hc Hg Hp He Hb Ht.
  destruct (bt_gen proxf proxg f df g e beta Hc Hg Hp He Hb (S niterback) x tau None Ht) as [[z [i [H1 [H2 [H3 [H4 H5]]]]]]|[H1 [z [H2 [H3 H4]]]]].
  - left. exists z, i. split; [exact H1|]. split; [lia|]. auto.
  - right. split; [intros j Hj; apply H1; lia|]. exists z. auto.
Qed.
(*! C44_terminates_early : if some trial step tau beta^i (i < niterback) is at most 1/L the line search accepts, at the
   latest at the first such i: the accepted step is tau itself or exceeds beta/L; it never exceeds tau when beta <= 1 *)
Lemma C44_terminates_early_l : forall (E : IPS) (proxf proxg : Op E) f df L g e beta niterback x tau,
  smooth_op proxf f df L -> impl_prox proxg g -> 0 < e -> 0 < beta <= 1 -> 0 < tau ->
  (exists i, (i < niterback)%nat /\ tau * beta ^ i <= / L) ->
  exists z t, backtracking x tau proxf proxg e beta niterback = Ok (z, t) /\
     trial df g e t x z /\ test_ok f df t x z /\ t <= tau /\ (t = tau \/ beta / L < t).
Proof.
  intros E proxf proxg f df L g e beta niterback x tau [Hc [Hg [Hcv [HL Hsm]]]] Hp He Hb Ht Hi.
  destruct (bt_early proxf proxg f df g e beta Hc Hg Hp He (proj1 Hb) L niterback x tau) as [z [i [H1 [H2 [H3 [H4 H5]]]]]]; auto.
  { intros a b. apply descent_lemma; auto. }
  exists z, (tau * beta ^ i). split; auto. split; auto. split; auto.
  assert (Hpw : 0 < beta ^ i <= 1). { split; [apply pow_lt; lra|]. rewrite <- (pow1 i). apply pow_incr. lra. }
  split; [nra|]. destruct i as [|i]; [left; simpl; ring|]. right. destruct H5 as [?|H5]; [lia|].
  replace (S i - 1)%nat with i in H5 by lia. simpl. unfold Rdiv. nra.
Qed.
(*! C44_exhaustion_refuted : when the trials are exhausted the returned (point, step) pair is inconsistent: f = 2x^2,
   g = 0, x = 1, tau = 1, beta = 1/2, niterback = 1 returns the point -3 computed with step 1 together with step 1/2, for
   which the proximal step is -1; and the point fails the test *)
Lemma C44_exhaustion_refuted_l :
  let f := fun x : R_IPS => 4 / 2 * (x * x) in let df := fun x : R_IPS => 4 * x in let g := etot (E:=R_IPS) (fun _ => 0) in
  smooth_op (quad1 4) f df 4 /\ impl_prox zero1 g /\
  backtracking (E:=R_IPS) 1 1 (quad1 4) zero1 1 (1/2) 1 = Ok (-3, 1/2) /\
  ~ trial (E:=R_IPS) df g 1 (1/2) 1 (-3) /\ ~ test_ok (E:=R_IPS) f df (1/2) 1 (-3) /\ ~ test_ok (E:=R_IPS) f df 1 1 (-3).
Proof.
  split; [apply quad1_smooth; lra|]. split; [apply zero1_prox|]. split; [|split; [|split]].
  - unfold backtracking. cbn -[Rleb].
    match goal with |- context [Rleb ?a ?b] => destruct (Rleb_spec a b) as [[H _]|[_ ->]] end.
    + exfalso. unfold norm2 in H. cbn in H. lra.
    + f_equal. f_equal; field.
  - intro H. apply zero1_prox_inv in H; [|lra]. cbn in H. lra.
  - unfold test_ok, norm2. cbn. lra.
  - unfold test_ok, norm2. cbn. lra.
Qed.
(*! C44_no_trials_refuted : niterback = 0 with backtracking raises UnboundLocalError (for any operators and any data) *)
Lemma C44_no_trials_refuted_l : forall (E : IPS) (proxf proxg : Op E) x0 eps beta niter,
  ProximalGradient proxf proxg x0 [eps] None false beta 1 (S niter) 0 None None = Err UnboundLocalError.
Proof. reflexivity. Qed.

(*! C68_acceleration : ProximalGradient raises NotImplementedError exactly for acceleration strings other than None,
   'None', 'vandenberghe' and 'fista', whatever the other (well-formed) arguments *)
Lemma C68_acceleration_l : forall (E : IPS) (proxf proxg : Op E) x0 epsg tau bt beta eta niter niterback s tol,
  (List.length epsg = 1%nat -> niter <> 0%nat) ->
  s <> "None"%string -> s <> "vandenberghe"%string -> s <> "fista"%string ->
  ProximalGradient proxf proxg x0 epsg tau bt beta eta niter niterback (Some s) tol = Err NotImplementedError.
Proof.
  intros E proxf proxg x0 epsg tau bt beta eta niter niterback s tol Hl H1 H2 H3. unfold ProximalGradient.
  destruct (String.eqb_spec s "None"); [contradiction|]. destruct (String.eqb_spec s "vandenberghe"); [contradiction|].
  destruct (String.eqb_spec s "fista"); [contradiction|].
  assert (exists l, pg_epsg epsg niter = Ok l) as [l ->].
  { destruct epsg as [|a [|b l]]; simpl; eauto. simpl in Hl. destruct niter; [exfalso; apply Hl; auto|eauto]. }
  simpl. destruct (String.eqb_spec s "None"); [contradiction|]. destruct (String.eqb_spec s "vandenberghe"); [contradiction|].
  destruct (String.eqb_spec s "fista"); [contradiction|]. reflexivity.
Qed.

(*!ex C41_example : the hypotheses of C41-C44 hold for f = x^2 (gradient 2x, L = 2), g = Euclidean(1), tau = 1/2, and x0 = 0 is
   the minimiser; a step size 4 with beta = 1/2 and 4 trials satisfies the backtracking hypothesis *)
Lemma C41_example_l : forall fuel,
  let g := etot (E:=R_IPS) (fun x : R_IPS => 1 * norm x) in
  smooth_op (quad1 2) (fun x : R_IPS => 2 / 2 * (x * x)) (fun x : R_IPS => 2 * x) 2 /\
  impl_prox (obj (E:=R_IPS) (S fuel) (euclid_body 1)) g /\ convex g /\
  (forall x, edom g x -> get_val (obj (E:=R_IPS) (S fuel) (euclid_body 1)) x = Ok (1 * norm x)) /\
  is_min (eadd (etot (E:=R_IPS) (fun x : R_IPS => 2 / 2 * (x * x))) (escal 1 g)) 0 /\
  (exists i, (i < 4)%nat /\ 4 * (1/2) ^ i <= / 2) /\ eps_arg [1; 2; 3] 3 (fun j => INR j + 1).
Proof.
  intros fuel g. destruct (euclidean_prox R_IPS fuel 1 ltac:(lra)) as [H1 H2].
  assert (Hg : convex g). { intros x y t _ _ Ht. split; [exact I|]. cbn [eval g etot]. rewrite !Rmult_1_l.
    eapply Rle_trans; [apply norm_triangle|]. rewrite !norm_scal, !Rabs_right by lra. lra. }
  split; [apply quad1_smooth; lra|]. split; [exact H1|]. split; [exact Hg|]. split; [reflexivity|]. split; [|split].
  - split; [split; exact I|]. intros y _. cbn [eval eadd etot escal g]. change (0 : R) with (vzero : R_IPS) at 3.
    rewrite norm_zero. pose proof (norm_nonneg (y : R_IPS)). pose proof (Rle_0_sqr y). unfold Rsqr in *. lra.
  - exists 3%nat. split; [lia|]. simpl. lra.
  - right. split; [simpl; lia|]. intros j Hj. destruct j as [|[|[|j]]]; try lia; cbn [nth_error]; f_equal; simpl; ring.
Qed.

(*! C45_proximal_point : for arbitrary operators, whenever ProximalPoint returns: one callback per executed iteration, the
   last one with the returned vector, and it stopped at the first iteration whose relative objective change is below tol,
   otherwise after exactly niter (tol=None: always exactly niter) *)
Lemma C45_proximal_point_l : forall (E : IPS) (prox : Op E) x0 tau niter tol x tr,
  ProximalPoint prox x0 tau niter tol = Ok (x, tr) ->
  trace_ok tol (fun _ y v => get_val prox y = Ok v) niter x0 x tr.
Proof.
  intros E prox x0 tau niter tol x tr H. unfold ProximalPoint in H.
  destruct (for_loop _ _ _ _) as [[s k]|] eqn:El; [|discriminate]. simpl in H. injection H as <- <-.
  refine (proj1 (trace_run _ pp_x pp_tr pp_pf _ tol niter (PP x0 None []) s k _ eq_refl eq_refl El)).
  intros i st st' b _ Hb. unfold pp_body in Hb. destruct (o_prox prox (pp_x st) tau) as [p|] eqn:Ep; [|discriminate]. cbn [bind] in Hb.
  destruct tol as [t|].
  - destruct (get_val prox p) as [v|] eqn:Ev; [|discriminate]. cbn [bind] in Hb.
    destruct (rel_stop true t v (pp_pf st)) as [b'|] eqn:Er; [|discriminate]. cbn [bind] in Hb. injection Hb as <- <-.
    split; auto. exists v, true. auto.
  - injection Hb as <- <-. auto.
Qed.
(*! C45_proximal_gradient : the same for ProximalGradient with any step, backtracking, eta, epsg, acceleration, the
   objective of the i-th callback being f + epsg[i] g *)
Lemma C45_proximal_gradient_l : forall (E : IPS) (proxf proxg : Op E) x0 epsg tau bt beta eta niter niterback accel tol x tr,
  ProximalGradient proxf proxg x0 epsg tau bt beta eta niter niterback accel tol = Ok (x, tr) ->
  trace_ok tol (fun i y v => exists fv gv e, get_val proxf y = Ok fv /\ get_val proxg y = Ok gv /\
     (epsg = [e] \/ (List.length epsg <> 1%nat /\ nth_error epsg i = Some e)) /\ v = fv + e * gv) niter x0 x tr.
Proof.
  intros E proxf proxg x0 epsg tau bt beta eta niter niterback accel tol x tr H. unfold ProximalGradient in H.
  destruct (pg_epsg epsg niter) as [l|] eqn:El; [|discriminate]. cbn [bind] in H.
  destruct (accel_known accel); [|discriminate].
  set (bt' := match tau with Some _ => bt | None => true end) in *. set (tau' := match tau with Some t => t | None => 1 end) in *.
  destruct (for_loop _ _ _ _) as [[s k]|] eqn:Ef; [|discriminate]. cbn [bind fst] in H. injection H as <- <-.
  refine (proj1 (trace_run _ pg_x pg_tr pg_pfg _ tol niter (PG x0 x0 1 tau' None []) s k _ eq_refl eq_refl Ef)).
  intros i st st' b Hi Hb. unfold pg_body in Hb. unfold getitem in Hb. destruct (nth_error l i) as [e|] eqn:Ee; [|discriminate]. cbn [bind] in Hb.
  destruct (pg_prox_step _ _ _ _ _ _ _ _ _ _) as [[z t]|]; [|discriminate]. cbn [bind fst snd] in Hb.
  assert (Hle : epsg = [e] \/ (List.length epsg <> 1%nat /\ nth_error epsg i = Some e)).
  { destruct epsg as [|a [|b' l']]; simpl in El.
    - injection El as <-. right. auto.
    - left. destruct niter; [discriminate|]. injection El as <-. change (a :: repeat a niter) with (repeat a (S niter)) in Ee.
      apply nth_error_In in Ee. apply repeat_spec in Ee. congruence.
    - injection El as <-. right. split; [simpl; lia|auto]. }
  destruct tol as [tl|].
  - destruct (get_val proxf z) as [fv|] eqn:E1; [|discriminate]. cbn [bind] in Hb.
    destruct (get_val proxg z) as [gv|] eqn:E2; [|discriminate]. cbn [bind] in Hb.
    destruct (rel_stop false tl (fv + e * gv) (pg_pfg st)) as [b'|] eqn:Er; [|discriminate]. cbn [bind] in Hb. injection Hb as <- <-.
    split; auto. exists (fv + e * gv), false. split; [|split]; auto. exists fv, gv, e. auto.
  - injection Hb as <- <-. auto.
Qed.

(*!ex C40_example : Euclidean(1) on the real line meets the hypotheses of the proximal point theorems, starting at 3, and
   its first iterates with tau = 1 are 2, 1, 0 *)
Lemma C40_example_l : forall fuel,
  let f := etot (E:=R_IPS) (fun x : R_IPS => 1 * norm x) in let o := obj (E:=R_IPS) (S fuel) (euclid_body 1) in
  impl_prox o f /\ convex f /\ o_prox o 3 1 = Ok (2 : R_IPS) /\ o_prox o 2 1 = Ok (1 : R_IPS) /\ o_prox o 1 1 = Ok (0 : R_IPS).
Proof.
  intros fuel f o. destruct (C41_example_l fuel) as [_ [H1 [H2 _]]]. split; [exact H1|]. split; [exact H2|].
  assert (H : forall x : R, 1 <= x -> o_prox o x 1 = Ok (x - 1 : R_IPS)).
  { intros x Hx. unfold o. simpl. rewrite check_tau_pos by lra.
    assert (Hn : norm (x : R_IPS) = x). { unfold norm, norm2; simpl. apply sqrt_square. lra. }
    rewrite Hn, Rmax_left, pydiv_ok by lra. simpl. f_equal. field. lra. }
  rewrite !H by lra. repeat split; f_equal; ring.
Qed.
