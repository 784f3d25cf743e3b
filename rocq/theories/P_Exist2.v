(** * Operator expressions stand for closed functions; the solvers on them, without assuming a solution *)
From Coq Require Import String Psatz Classical.
From Verif Require Import Base Space Spec Cplx ConvexFacts Smooth VSum M_ProxOp SpecOps P_ProxOp M_Norms P_Norms M_L1 M_L2 P_L1 P_L2 P_L21 M_Loop LoopFacts LoopFacts2 SeqFacts M_PG M_Split M_PD M_Multi SplitMath P_PG P_PG2 P_PG3 P_Split P_Split2 P_Split3 P_PD P_PD2 P_Multi P_Multi2 P_Multi3 S_Seq Compact Fejer P_Iter P_Iter2 P_Iter3 HahnBanach P_Qual M_Expr P_Expr P_Expr2 ExistMath P_Exist.
From Verif Require Export S_Exist2.
Open Scope result_scope.
Open Scope R_scope.

Lemma conj_closed {E : IPS} (f : efun E) : (exists y, edom f y) -> closed (conj f).
Proof.
  intros Hne l c H. destruct (conj_ok f Hne) as [_ Hc].
  assert (B : forall y, edom f y -> << l, y >> - eval f y <= c).
  { intros y Hy. apply Rnot_lt_le. intro Hlt. destruct (inner_cont y l ((<< l, y >> - eval f y - c) / 2) ltac:(lra)) as (d & Hd & Hx). destruct (H d Hd) as (x & X1 & X2 & X3). specialize (Hx x X1).
    pose proof (conj_fenchel f (conj f) y x (conj_ok f Hne) Hy X2) as X4. rewrite (inner_sym x y) in X4. rewrite (inner_sym l y) in Hlt, Hx. lra. }
  assert (D : edom (conj f) l) by (exists c; exact B). split; [exact D|]. apply (proj2 (Hc l) D). intros r (y & Hy & ->). apply B. exact Hy.
Qed.

Lemma euclid_closed {E : IPS} s : 0 < s -> closed (etot (fun x : E => s * norm x)).
Proof.
  intros Hs l c H. split; [exact I|]. cbn [eval etot]. apply Rnot_lt_le. intro Hlt. destruct (H ((s * norm l - c) / (2 * s))) as (x & X1 & _ & X3); [apply Rdiv_lt_0_compat; lra|]. cbn [eval etot] in X3.
  pose proof (norm_triangle (l [-] x) x) as T. replace (l [-] x [+] x) with l in T by vring. rewrite norm_sub_sym in T. apply (Rmult_lt_compat_l s) in X1; [|exact Hs]. replace (s * ((s * norm l - c) / (2 * s))) with ((s * norm l - c) / 2) in X1 by (field; lra).
  apply (Rmult_le_compat_l s) in T; [|lra]. lra.
Qed.
Lemma huber_closed {E : IPS} alpha : 0 < alpha -> closed (etot (fun x : E => if Rle_dec (norm x) alpha then norm2 x / (2 * alpha) else norm x - alpha / 2)).
Proof.
  intro Ha. assert (K : forall t, 0 <= t -> forall u, 0 <= u -> t <= u -> (if Rle_dec t alpha then t * t / (2 * alpha) else t - alpha / 2) <= (if Rle_dec u alpha then u * u / (2 * alpha) else u - alpha / 2)).
  { intros t Ht u Hu Htu. destruct (Rle_dec t alpha), (Rle_dec u alpha); try lra.
    - apply Rmult_le_compat_r; [left; apply Rinv_0_lt_compat; lra|]. apply Rmult_le_compat; lra.
    - apply Rle_trans with (alpha * alpha / (2 * alpha)); [apply Rmult_le_compat_r; [left; apply Rinv_0_lt_compat; lra|apply Rmult_le_compat; lra]|]. replace (alpha * alpha / (2 * alpha)) with (alpha / 2) by (field; lra). lra. }
  assert (K2 : forall t, 0 <= t -> forall d, 0 <= d -> (if Rle_dec (t + d) alpha then (t + d) * (t + d) / (2 * alpha) else (t + d) - alpha / 2) <= (if Rle_dec t alpha then t * t / (2 * alpha) else t - alpha / 2) + d).
  { intros t Ht d Hd. set (h := fun t => if Rle_dec t alpha then t * t / (2 * alpha) else t - alpha / 2). change (h (t + d) <= h t + d).
    assert (Q : forall u, alpha * alpha / (2 * alpha) = alpha / 2 /\ 2 * alpha * (u * u / (2 * alpha)) = u * u) by (intro u; split; field; lra).
    unfold h. destruct (Rle_dec (t + d) alpha), (Rle_dec t alpha); try lra; apply (Rmult_le_reg_l (2 * alpha)); try lra.
    - rewrite (proj2 (Q (t + d))), (Rmult_plus_distr_l (2 * alpha) (t * t / (2 * alpha)) d), (proj2 (Q t)). pose proof (Rmult_le_pos d (2 * alpha - 2 * t - d) Hd ltac:(lra)). lra.
    - rewrite (Rmult_plus_distr_l (2 * alpha) (t * t / (2 * alpha)) d), (proj2 (Q t)). pose proof (Rle_0_sqr (alpha - t)) as Z. unfold Rsqr in Z. lra. }
  intros l c H. split; [exact I|]. cbn [eval etot]. apply Rnot_lt_le. intro Hlt.
  destruct (H (((if Rle_dec (norm l) alpha then norm2 l / (2 * alpha) else norm l - alpha / 2) - c) / 2)) as (x & X1 & _ & X3); [lra|]. cbn [eval etot] in X3.
  pose proof (norm_triangle (l [-] x) x) as T. replace (l [-] x [+] x) with l in T by vring. rewrite norm_sub_sym in T.
  rewrite <- (norm_sq l) in Hlt, X1. rewrite <- (norm_sq x) in X3.
  pose proof (K (norm l) (norm_nonneg l) (norm x + norm (x [-] l)) ltac:(pose proof (norm_nonneg x); pose proof (norm_nonneg (x [-] l)); lra) ltac:(lra)) as A1.
  pose proof (K2 (norm x) (norm_nonneg x) (norm (x [-] l)) (norm_nonneg _)) as A2. lra.
Qed.
Lemma hb_vec n : hb (Vec n). Proof. apply hb_pow, hb_R. Qed.
Lemma pow_bound {E F : IPS} (Q : linop E F) alpha : 0 < alpha -> (forall y, Q (ladj Q y) = alpha [*] y) -> forall v, norm (Q v) <= sqrt alpha * norm v.
Proof.
  intros Ha HQ v. unfold norm. rewrite <- sqrt_mult_alt by lra. apply sqrt_le_1_alt.
  pose proof (norm2_nonneg (v [-] / alpha [*] ladj Q (Q v))) as H. replace (norm2 (v [-] / alpha [*] ladj Q (Q v))) with (norm2 v - 2 * / alpha * << v, ladj Q (Q v) >> + / alpha * / alpha * << ladj Q (Q v), ladj Q (Q v) >>) in H by (unfold norm2; iexp; ring).
  rewrite <- !ladj_spec in H. rewrite HQ in H. replace (<< alpha [*] Q v, Q v >>) with (alpha * norm2 (Q v)) in H by (unfold norm2; iexp; ring). fold (norm2 (Q v)) in H.
  replace (norm2 v - 2 * / alpha * norm2 (Q v) + / alpha * / alpha * (alpha * norm2 (Q v))) with (norm2 v - / alpha * norm2 (Q v)) in H by (field; lra).
  apply (Rmult_le_compat_l alpha) in H; [|lra]. replace (alpha * (norm2 v - / alpha * norm2 (Q v))) with (alpha * norm2 v - norm2 (Q v)) in H by (field; lra). lra.
Qed.

Lemma expr_closed : forall (E : IPS) (e : expr E), admissible e -> closed_others e -> closed (denote e).
Proof.
  intros E e. induction e; intros Ha Hc; cbn [admissible closed_others denote] in *.
  - apply closed_total; [apply hb_vec|]. apply wl1_convex. exact Ha.
  - destruct Ha as (_ & Hs & _). apply (closed_sub _ (l2_dfun (l2_d l) (l2_q l) r (l2_alpha l))). intro x. split; [exact I|]. intros y _. cbn [eval etot].
    pose proof (l2_expand (l2_d l) (l2_q l) r (l2_alpha l) x (y [-] x)) as H. replace (x [+] (y [-] x)) with y in H by vring. rewrite H. pose proof (l2_quad_nonneg (l2_d l) (y [-] x)) as H1.
    pose proof (Rmult_le_pos (r / 2) _ ltac:(lra) H1). lra.
  - destruct Ha as [HA _]. apply (closed_sub _ (fun x => match o with Some A => A x | None => vzero end [+] match o0 with Some b => b | None => vzero end)). intro x. split; [exact I|]. intros y _. cbn [eval etot].
    assert (Q1 : match o0 with Some b => << b, y >> | None => 0 end = match o0 with Some b => << b, x >> | None => 0 end + << match o0 with Some b => b | None => vzero end, y [-] x >>) by (destruct o0; [iexp; ring|rewrite inner_zero_l; ring]).
    rewrite Q1, inner_add_l. destruct o as [A|]; [|rewrite inner_zero_l; lra]. destruct (HA A eq_refl) as [S P]. pose proof (P (y [-] x)) as P1. rewrite lapp_sub in P1.
    pose proof (S x y) as S1. revert P1 S1. inner_lin_all. rewrite (inner_sym (A x) y), (inner_sym (A x) x). intros P1 S1. lra.
  - apply euclid_closed. exact Ha.
  - apply huber_closed. exact Ha.
  - apply closed_total; [apply hb_pow, hb_vec|]. apply group_norm_convex. lra.
  - destruct (expr_good 0 E (XBall E c r) Ha) as (o & _ & _ & Hi & _). apply closed_proj. intro x. destruct (Hi x 1 Rlt_0_1) as (p & _ & Hp). exists p. exact Hp.
  - destruct (expr_good 0 _ (XBox n n0) Ha) as (o & _ & _ & Hi & _). apply closed_proj. intro x. destruct (Hi x 1 Rlt_0_1) as (p & _ & Hp). exists p. exact Hp.
  - destruct (expr_good 0 _ (XHalfSpace E c r) Ha) as (o & _ & _ & Hi & _). apply closed_proj. intro x. destruct (Hi x 1 Rlt_0_1) as (p & _ & Hp). exists p. exact Hp.
  - destruct (expr_good 0 _ (XAffine E F b c l c0) Ha) as (o & _ & _ & Hi & _). apply closed_proj. intro x. destruct (Hi x 1 Rlt_0_1) as (p & _ & Hp). exists p. exact Hp.
  - exact Hc.
  - apply closed_lin. auto.
  - apply (closed_ext (elin (denote e) (vopp c))); [reflexivity| |apply closed_lin; auto]. intros y _. cbn [eval elin]. rewrite inner_opp_l. ring.
  - destruct Ha as [Hs Ha]. apply closed_scal; auto.
  - destruct Ha as [Hs Ha]. apply (closed_pre (denote e) _ (Rabs r)); [auto|]. intros x y. replace (r [*] x [+] c [-] (r [*] y [+] c)) with (r [*] (x [-] y)) by vring. rewrite norm_scal. apply Rle_refl.
  - destruct (expr_good 0 _ e Ha) as (o & _ & _ & Hi & _). apply conj_closed. exact (prox_ne _ _ Hi).
  - destruct Ha as [Ha HQ]. assert (K : exists C, forall v, norm (l v) <= C * norm v).
    { destruct b; [exists (sqrt r); apply pow_bound; tauto|exists (sqrt 1); apply pow_bound; [lra|]]. intro y. rewrite (proj1 HQ). vring. }
    destruct K as [C HC]. apply (closed_pre (denote e) _ C); [auto|]. intros x y. replace (l x [+] c [-] (l y [+] c)) with (l x [-] l y) by vring. apply lip_lin. exact HC.
Qed.
Lemma expr_curved : forall (E : IPS) (e : expr E) s, admissible e -> curved e s -> strongly_convex s (denote e).
Proof.
  intros E e. induction e; intros s Ha Hc; cbn [admissible curved denote] in *; try contradiction.
  - destruct Ha as (_ & Hs & _). intros x y t _ _ Ht. split; [exact I|]. cbn [eval etot edom]. set (z := (1 - t) [*] x [+] t [*] y).
    pose proof (l2_expand (l2_d l) (l2_q l) r (l2_alpha l) z (t [*] (x [-] y))) as Hx. pose proof (l2_expand (l2_d l) (l2_q l) r (l2_alpha l) z ((t - 1) [*] (x [-] y))) as Hy.
    replace (z [+] t [*] (x [-] y)) with x in Hx by (unfold z; vring). replace (z [+] (t - 1) [*] (x [-] y)) with y in Hy by (unfold z; vring). rewrite Hx, Hy, !inner_scal_r.
    replace (norm2 z) with ((1 - t) * norm2 x + t * norm2 y - t * (1 - t) * norm2 (x [-] y)) by (unfold z, norm2; iexp; ring).
    set (N := match l2_d l with WithOp A _ _ => norm2 (A (x [-] y)) | _ => norm2 (x [-] y) end).
    assert (Hh : forall a, match l2_d l with WithOp A _ _ => norm2 (A (a [*] (x [-] y))) | _ => norm2 (a [*] (x [-] y)) end = a * a * N) by (intro a; unfold N; destruct (l2_d l); rewrite ?lapp_scal, norm2_scal; reflexivity).
    rewrite !Hh. assert (HN : s * norm2 (x [-] y) <= r * N). { unfold N. destruct (l2_d l); [apply Hc| |]; apply Rmult_le_compat_r; try apply norm2_nonneg; exact Hc. }
    assert (0 <= t * (1 - t) * (r * N - s * norm2 (x [-] y))) by (apply Rmult_le_pos; [apply Rmult_le_pos; lra|lra]). nra.
  - destruct Ha as [HA _]. intros x y t _ _ Ht. split; [exact I|]. cbn [eval etot edom].
    assert (L : match o0 with Some b => << b, (1 - t) [*] x [+] t [*] y >> | None => 0 end = (1 - t) * match o0 with Some b => << b, x >> | None => 0 end + t * match o0 with Some b => << b, y >> | None => 0 end) by (destruct o0; [rewrite inner_add_r, !inner_scal_r|]; ring).
    rewrite L. replace (norm2 ((1 - t) [*] x [+] t [*] y)) with ((1 - t) * norm2 x + t * norm2 y - t * (1 - t) * norm2 (x [-] y)) by (unfold norm2; iexp; ring).
    assert (T : 0 <= t * (1 - t)) by (apply Rmult_le_pos; lra). pose proof (norm2_nonneg (x [-] y)) as Nn. destruct o as [A|].
    + destruct (HA A eq_refl) as [S P]. rewrite lapp_add, !lapp_scal.
      assert (Q : << (1 - t) [*] x [+] t [*] y, (1 - t) [*] A x [+] t [*] A y >> = (1 - t) * << x, A x >> + t * << y, A y >> - t * (1 - t) * << x [-] y, A (x [-] y) >>).
      { rewrite lapp_sub. pose proof (S x y) as S1. rewrite (inner_sym (A x) y) in S1. iexp. inner_lin_all. rewrite S1. ring. }
      rewrite Q. specialize (Hc (x [-] y)). assert (0 <= t * (1 - t) * (<< x [-] y, A (x [-] y) >> - s * norm2 (x [-] y))) by (apply Rmult_le_pos; lra). lra.
    + assert (0 <= t * (1 - t) * (- s * norm2 (x [-] y))) by (apply Rmult_le_pos; [exact T|apply Rmult_le_pos; lra]). lra.
  - exact Hc.
  - intros x y t Hx Hy Ht. destruct (IHe s Ha Hc x y t Hx Hy Ht) as [H1 H2]. split; [exact H1|]. cbn [eval edom elin] in *. rewrite inner_add_r, !inner_scal_r. lra.
  - intros x y t Hx Hy Ht. destruct (IHe s Ha Hc x y t Hx Hy Ht) as [H1 H2]. split; [exact H1|]. cbn [eval edom elin] in *. rewrite inner_add_r, !inner_scal_r. lra.
  - destruct Ha as [Hs Ha]. destruct Hc as (k & -> & Hc). intros x y t Hx Hy Ht. destruct (IHe k Ha Hc x y t Hx Hy Ht) as [H1 H2]. split; [exact H1|]. cbn [eval edom escal] in *. apply (Rmult_le_compat_l r) in H2; [|lra]. lra.
  - destruct Ha as [Hs Ha]. destruct Hc as (k & -> & Hc). intros x y t Hx Hy Ht. destruct (IHe k Ha Hc (r [*] x [+] c) (r [*] y [+] c) t Hx Hy Ht) as [H1 H2]. cbn [eval edom epre] in *.
    replace (r [*] ((1 - t) [*] x [+] t [*] y) [+] c) with ((1 - t) [*] (r [*] x [+] c) [+] t [*] (r [*] y [+] c)) by vring. split; [exact H1|].
    replace (norm2 ((1 - t) [*] (r [*] x [+] c) [+] t [*] (r [*] y [+] c))) with ((1 - t) * norm2 (r [*] x [+] c) + t * norm2 (r [*] y [+] c) - t * (1 - t) * (r ^ 2 * norm2 (x [-] y))) in H2 by (unfold norm2; iexp; ring).
    replace (norm2 ((1 - t) [*] x [+] t [*] y)) with ((1 - t) * norm2 x + t * norm2 y - t * (1 - t) * norm2 (x [-] y)) by (unfold norm2; iexp; ring). lra.
  - destruct Ha as [Ha HQ]. destruct Hc as [-> Hc]. destruct HQ as [_ HQ]. intros x y t Hx Hy Ht. destruct (IHe s Ha Hc (l x [+] c) (l y [+] c) t Hx Hy Ht) as [H1 H2]. cbn [eval edom epre] in *.
    rewrite lapp_add, !lapp_scal. replace ((1 - t) [*] l x [+] t [*] l y [+] c) with ((1 - t) [*] (l x [+] c) [+] t [*] (l y [+] c)) by vring. split; [exact H1|].
    replace (norm2 ((1 - t) [*] (l x [+] c) [+] t [*] (l y [+] c))) with ((1 - t) * norm2 (l x [+] c) + t * norm2 (l y [+] c) - t * (1 - t) * norm2 (l x [-] l y)) in H2 by (unfold norm2; iexp; ring).
    replace (norm2 ((1 - t) [*] x [+] t [*] y)) with ((1 - t) * norm2 x + t * norm2 y - t * (1 - t) * norm2 (x [-] y)) by (unfold norm2; iexp; ring).
    assert (K : norm2 (l x [-] l y) = norm2 (x [-] y)). { rewrite <- lapp_sub. unfold norm2. rewrite ladj_spec, HQ. reflexivity. } rewrite K in H2. lra.
Qed.

(*! C85_expressions : every admissible operator expression stands for a convex closed function that is finite somewhere and above an affine
   function; curved expressions are strongly convex with the given modulus *)
Lemma C85_expressions_l : forall (E : IPS) (e : expr E), admissible e -> closed_others e ->
  convex (denote e) /\ closed (denote e) /\ (exists x, edom (denote e) x) /\ minorised (denote e) /\ forall s, curved e s -> strongly_convex s (denote e).
Proof.
  intros E e Ha Hc. destruct (expr_good 0 E e Ha) as (o & _ & Cx & Hi & _). split; [exact Cx|]. split; [apply expr_closed; assumption|]. split; [exact (prox_ne _ _ Hi)|]. split; [eapply minor_impl; eassumption|].
  intros s Hs. apply expr_curved; assumption.
Qed.

(*! C85_expr_solvers : any admissible expressions, Slater's condition and bounded level sets (no minimiser assumed), finite dimension: DouglasRachfordSplitting
   and ADMM on f + g; LinearizedADMM and PrimalDual on f + g(A .); PPXA and ConsensusADMM on f_1 + ... + f_m: the returned vectors converge to
   a minimiser *)
Lemma C85_expr_solvers_l :
  (forall fuel (E : IPS) (e1 e2 : expr E) x0 tau eta (gfirst : bool), bw E -> hb E -> complete E -> described E -> admissible e1 -> admissible e2 -> closed_others e1 -> closed_others e2 -> 0 < tau -> 0 < eta < 2 ->
    qualified2 (denote e1) (denote e2) -> level_bounded (eadd (denote e1) (denote e2)) ->
    exists o1 o2, build fuel e1 = Ok o1 /\ build fuel e2 = Ok o2 /\
    (exists xs ys l, (forall n, exists tr, DouglasRachford o1 o2 x0 tau eta (S n) gfirst = Ok (xs n, ys n, tr)) /\ is_min (eadd (denote e1) (denote e2)) l /\ vcv xs l) /\
    (exists xs zs l, (forall n, exists tr, ADMM o1 o2 (Some x0) tau n None gfirst = Ok (xs n, zs n, tr)) /\ is_min (eadd (denote e1) (denote e2)) l /\ vcv xs l /\ vcv zs l)) /\
  (forall fuel (E F : IPS) (e1 : expr E) (e2 : expr F) (A : linop E F) C x0 tau mu kappa gfirst, bw E -> bw F -> hb F -> complete E -> described E -> admissible e1 -> admissible e2 -> closed_others e1 -> closed_others e2 ->
    (forall v, norm (A v) <= C * norm v) -> 0 < tau -> 0 < mu -> 0 <= kappa <= 1 -> qualified (denote e1) (denote e2) A -> level_bounded (eadd (denote e1) (epre (denote e2) (lapp A))) ->
    exists o1 o2, build fuel e1 = Ok o1 /\ build fuel e2 = Ok o2 /\
    ((forall a, mu * norm2 (lapp A a) <= kappa * tau * norm2 a) -> exists xs zs l, (forall n, exists tr, LinearizedADMM o1 o2 A (Some x0) tau mu n None = Ok (xs n, zs n, tr)) /\
       is_min (eadd (denote e1) (epre (denote e2) (lapp A))) l /\ vcv xs l /\ vcv zs (lapp A l)) /\
    ((forall a, tau * mu * norm2 (lapp A a) <= kappa * norm2 a) -> exists xs ys l yl, (forall n, exists tr, PrimalDual o1 o2 A None x0 (Scalar tau) (Scalar mu) None None 1 n gfirst = Ok (xs n, ys n, tr)) /\
       is_min (eadd (denote e1) (epre (denote e2) (lapp A))) l /\ vcv xs l /\ vcv ys yl)) /\
  (forall fuel (E : IPS) m (e : nat -> expr E) x0 tau eta, bw E -> hb E -> complete E -> described E -> (0 < m)%nat -> (forall i, (i < m)%nat -> admissible (e i) /\ closed_others (e i)) -> 0 < tau -> 0 < eta < 2 ->
    qualified_sum m (fun i => denote (e i)) -> level_bounded (esum m (fun i => denote (e i))) ->
    exists os, List.length os = m /\ (forall i o, nth_error os i = Some o -> build fuel (e i) = Ok o) /\
    (exists xs xl, (forall niter amax t, exists k, PPXA os (Common x0) tau eta None niter amax (Some t) = Ok (xs k, map xs (seq 1 k)) /\ stops_when (fun j => amax (xs j [-] xs (j - 1)%nat) < t) niter k) /\
       is_min (esum m (fun i => denote (e i))) xl /\ vcv xs xl) /\
    (exists xs xl, (forall niter amax t, exists k, ConsensusADMM os x0 tau niter amax (Some t) = Ok (xs k, map xs (seq 1 k)) /\ stops_when (fun j => amax (xs j [-] xs (j - 1)%nat) < t) niter k) /\
       is_min (esum m (fun i => denote (e i))) xl /\ vcv xs xl)).
Proof.
  split; [|split].
  - intros fuel E e1 e2 x0 tau eta gfirst HB HH HE HU A1 A2 O1 O2 Ht He Hq Hl. apply (C82_splitting_l fuel E e1 e2 x0 tau eta gfirst); auto.
    destruct (expr_good 0 E e1 A1) as (o1 & _ & C1 & I1 & _). destruct (expr_good 0 E e2 A2) as (o2 & _ & C2 & I2 & _). apply (min_of_qual o1 o2); auto; apply expr_closed; assumption.
  - intros fuel E F e1 e2 A C x0 tau mu kappa gfirst BE BF HF HE HU A1 A2 O1 O2 HA Ht Hmu Hk Hq Hl. apply (C82_composite_l fuel E F e1 e2 A x0 tau mu kappa gfirst); auto.
    destruct (C85_expressions_l E e1 A1 O1) as (C1 & L1 & _ & M1 & _). destruct (C85_expressions_l F e2 A2 O2) as (C2 & L2 & _ & M2 & _).
    apply (exist_pre (denote e1) (denote e2) A C); auto. exact (qual_dom _ _ A Hq).
  - intros fuel E m e x0 tau eta HB HH HE HU Hm Ha Ht He Hq Hl. apply (C82_ppxa_l fuel E m e x0 tau eta); auto; [intros i Hi; apply (Ha i Hi)|].
    destruct (esum_closed m (fun i => denote (e i))) as [C M].
    + intros i Hi. destruct (Ha i Hi) as [A1 O1]. destruct (C85_expressions_l E (e i) A1 O1) as (_ & L1 & _ & M1 & _). split; assumption.
    + apply convex_min; auto; [apply convex_esum; intros i Hi; destruct (Ha i Hi) as [A1 O1]; apply (C85_expressions_l E (e i) A1 O1)|]. destruct Hq as (x & j & Hx). exists x. intros i Hi. apply (Hx i Hi).
Qed.
