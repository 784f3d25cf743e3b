(** * Contraction of a primal-dual step for strongly convex functions *)
From Coq Require Import Psatz.
From Verif Require Import Base Space Spec ConvexFacts Smooth M_ProxOp SpecOps S_Exist S_Inexact S_Rates InexactMath InexactMath2.
Open Scope R_scope.

Lemma strong_convex {E : IPS} (f : efun E) s : 0 <= s -> strongly_convex s f -> convex f.
Proof.
  intros Hs H x y t Hx Hy Ht. destruct (H x y t Hx Hy Ht) as [H1 H2]. split; [exact H1|]. cbn [eval edom] in H2.
  assert (H3 : norm2 ((1 - t) [*] x [+] t [*] y) <= (1 - t) * norm2 x + t * norm2 y).
  { assert (G : (1 - t) * norm2 x + t * norm2 y - norm2 ((1 - t) [*] x [+] t [*] y) = t * (1 - t) * norm2 (x [-] y)) by (unfold norm2; iexp; ring). assert (0 <= t * (1 - t) * norm2 (x [-] y)) by (apply Rmult_le_pos; [apply Rmult_le_pos; lra|apply norm2_nonneg]). lra. }
  assert (H4 : s / 2 * norm2 ((1 - t) [*] x [+] t [*] y) <= s / 2 * ((1 - t) * norm2 x + t * norm2 y)) by (apply Rmult_le_compat_l; lra). lra.
Qed.
Lemma strong_subgrad {E : IPS} (f : efun E) s x u : 0 <= s -> strongly_convex s f -> is_subgrad f x u -> forall y, edom f y -> eval f x + << u, y [-] x >> + s / 2 * norm2 (y [-] x) <= eval f y.
Proof.
  intros Hs Hf [Hx Hu] y Hy. set (d := norm2 (y [-] x)). assert (Hd : 0 <= d) by apply norm2_nonneg.
  (* for every 0 < t <= 1: f(y) - f(x) - <u,y-x> >= s/2 (1-t) d *)
  assert (G : forall t, 0 < t <= 1 -> s / 2 * (1 - t) * d <= eval f y - eval f x - << u, y [-] x >>).
  { intros t Ht. destruct (Hf x y t Hx Hy ltac:(lra)) as [H1 H2]. cbn [eval edom] in H1, H2. pose proof (Hu _ H1) as H3.
    replace ((1 - t) [*] x [+] t [*] y [-] x) with (t [*] (y [-] x)) in H3 by vring. rewrite inner_scal_r in H3.
    assert (K : norm2 ((1 - t) [*] x [+] t [*] y) = t * norm2 y + (1 - t) * norm2 x - t * (1 - t) * d) by (unfold d, norm2; iexp; ring).
    rewrite K in H2. apply (Rmult_le_reg_l t); [lra|]. lra. }
  apply Rnot_lt_le. intro Hlt. set (v := eval f y - eval f x - << u, y [-] x >>) in *. assert (H0 : v < s / 2 * d) by (unfold v; lra).
  assert (Hp : 0 < s / 2 * d). { assert (0 <= v) by (pose proof (G 1 ltac:(lra)) as G1; rewrite (Rminus_diag_eq 1 1 eq_refl), Rmult_0_r, Rmult_0_l in G1; exact G1). lra. }
  set (t := Rmin 1 ((s / 2 * d - v) / (2 * (s / 2 * d)))). assert (Ht : 0 < t <= 1) by (unfold t; split; [apply Rmin_glb_lt; [lra|apply Rdiv_lt_0_compat; lra]|apply Rmin_l]).
  specialize (G t Ht). assert (Ht2 : t <= (s / 2 * d - v) / (2 * (s / 2 * d))) by apply Rmin_r.
  assert (t * (s / 2 * d) <= (s / 2 * d - v) / 2). { apply Rle_trans with ((s / 2 * d - v) / (2 * (s / 2 * d)) * (s / 2 * d)); [apply Rmult_le_compat_r; lra|right; generalize dependent (s / 2 * d); intros; field; lra]. }
  lra.
Qed.
Lemma strong_subgrad_mono {E : IPS} (f : efun E) s x y u v : 0 <= s -> strongly_convex s f -> is_subgrad f x u -> is_subgrad f y v -> s * norm2 (x [-] y) <= << u [-] v, x [-] y >>.
Proof.
  intros Hs Hf Hu Hv. pose proof (strong_subgrad f s x u Hs Hf Hu y (proj1 Hv)) as H1. pose proof (strong_subgrad f s y v Hs Hf Hv x (proj1 Hu)) as H2. rewrite (norm2_sub_sym y x) in H1.
  replace (y [-] x) with ((-1) [*] (x [-] y)) in H1 by vring. rewrite inner_scal_r in H1. rewrite inner_sub_l. lra.
Qed.

Section PD.
Context {E F : IPS} (A : linop E F) (tau mu kappa : R).
Hypothesis (Ht : 0 < tau) (Hm : 0 < mu) (Hk : 0 <= kappa < 1) (HA : forall a, tau * mu * norm2 (lapp A a) <= kappa * norm2 a).
Variables (f : efun E) (gs : efun F) (z : E) (sf sg : R).
Hypothesis (Sf : strongly_convex sf f) (Sg : strongly_convex sg gs) (Hsf : 0 <= sf) (Hsg : 0 <= sg).
Notation pr := (pr A tau mu kappa Ht Hm Hk HA).
Definition pd_gain : R := Rmin (sf * tau) (sg * mu) / (1 + sqrt kappa).
Lemma pd_gain_nonneg : 0 <= pd_gain.
Proof. pose proof (sqrtk kappa Hk). apply Rmult_le_pos; [apply Rmin_glb; apply Rmult_le_pos; lra|apply Rlt_le, Rinv_0_lt_compat; lra]. Qed.
Lemma pd_contract x y x' y' u v u' v' :
  is_prox f tau (x [-] tau [*] (ladj A y [+] z)) x' -> is_prox gs mu (y [+] mu [*] lapp A (x' [+] 1 [*] (x' [-] x))) y' ->
  is_prox f tau (u [-] tau [*] (ladj A v [+] z)) u' -> is_prox gs mu (v [+] mu [*] lapp A (u' [+] 1 [*] (u' [-] u))) v' ->
  norm (pr (x' [-] u') (y' [-] v')) <= / (1 + pd_gain) * norm (pr (x [-] u) (y [-] v)).
Proof.
  pose proof (strong_convex f sf Hsf Sf) as Cf. pose proof (strong_convex gs sg Hsg Sg) as Cg. pose proof pd_gain_nonneg as Hg.
  intros Px Py Pu Pv. apply prox_subgrad in Px; auto. apply prox_subgrad in Py; auto. apply prox_subgrad in Pu; auto. apply prox_subgrad in Pv; auto.
  pose proof (strong_subgrad_mono _ _ _ _ _ _ Hsf Sf Px Pu) as H1. pose proof (strong_subgrad_mono _ _ _ _ _ _ Hsg Sg Py Pv) as H2.
  assert (H : norm2 (pr (x' [-] u') (y' [-] v')) + (sf * norm2 (x' [-] u') + sg * norm2 (y' [-] v')) <= << pr (x' [-] u') (y' [-] v'), pr (x [-] u) (y [-] v) >>).
  { change (pd_in A tau mu (x' [-] u', y' [-] v') (x' [-] u', y' [-] v') + (sf * norm2 (x' [-] u') + sg * norm2 (y' [-] v')) <= pd_in A tau mu (x' [-] u', y' [-] v') (x [-] u, y [-] v)). set (SS := sf * norm2 (x' [-] u')) in *. set (SG := sg * norm2 (y' [-] v')) in *. unfold pd_in. cbn [fst snd].
    rewrite !lapp_add, !lapp_scal, !lapp_sub in H2. rewrite !lapp_sub.
    revert H1 H2. inner_lin_all. rewrite !ladj_spec'.
    intros H1 H2. inner_comm_goal.
    match type of H1 with _ <= ?a => match type of H2 with _ <= ?b => match goal with |- ?c + _ <= ?d => assert (G : d - c = a + b) end end end; [|lra].
    rewrite (inner_sym x' u'), (inner_sym x x'), (inner_sym x u'), (inner_sym u x'), (inner_sym u u'),  (inner_sym y' v'), (inner_sym y y'), (inner_sym y v'), (inner_sym v y'), (inner_sym v v'). iexp.
    field_simplify_eq; [|lra]. repeat rewrite (inner_sym _ (lapp A _)). ring. }
  assert (HG : pd_gain * norm2 (pr (x' [-] u') (y' [-] v')) <= sf * norm2 (x' [-] u') + sg * norm2 (y' [-] v')).
  { pose proof (sqrtk kappa Hk) as K. pose proof (pd_in_hi A tau mu kappa Ht Hm Hk HA (x' [-] u', y' [-] v')) as Hh. cbn [fst snd] in Hh. change (norm2 (pr (x' [-] u') (y' [-] v'))) with (pd_in A tau mu (x' [-] u', y' [-] v') (x' [-] u', y' [-] v')).
    apply Rle_trans with (pd_gain * ((1 + sqrt kappa) * (/ tau * norm2 (x' [-] u') + / mu * norm2 (y' [-] v')))); [apply Rmult_le_compat_l; assumption|].
    unfold pd_gain. set (k := Rmin (sf * tau) (sg * mu)). replace (k / (1 + sqrt kappa) * ((1 + sqrt kappa) * (/ tau * norm2 (x' [-] u') + / mu * norm2 (y' [-] v')))) with (k * / tau * norm2 (x' [-] u') + k * / mu * norm2 (y' [-] v')) by (field; lra).
    assert (k * / tau <= sf). { apply Rle_trans with (sf * tau * / tau); [apply Rmult_le_compat_r; [apply Rlt_le, Rinv_0_lt_compat; exact Ht|apply Rmin_l]|right; field; lra]. }
    assert (k * / mu <= sg). { apply Rle_trans with (sg * mu * / mu); [apply Rmult_le_compat_r; [apply Rlt_le, Rinv_0_lt_compat; exact Hm|apply Rmin_r]|right; field; lra]. }
    apply Rplus_le_compat; apply Rmult_le_compat_r; auto using norm2_nonneg. }
  pose proof (CS (pr (x' [-] u') (y' [-] v')) (pr (x [-] u) (y [-] v))) as HC. set (P := pr (x' [-] u') (y' [-] v')) in *. set (Q := pr (x [-] u) (y [-] v)) in *. rewrite <- (norm_sq P) in H, HG. pose proof (norm_nonneg P) as N1. pose proof (norm_nonneg Q) as N2.
  apply (Rmult_le_reg_l (1 + pd_gain)); [lra|]. rewrite <- Rmult_assoc, Rinv_r, Rmult_1_l by lra.
  destruct (Req_dec (norm P) 0) as [Hz|Hz]; [rewrite Hz; lra|]. apply (Rmult_le_reg_l (norm P)); [lra|]. lra.
Qed.
Hypothesis (Eg : forall y, exists p, is_prox gs mu y p).
Lemma pd_rate xs ys xs' ys' : pd_seq A tau mu f gs z 0 0 xs ys -> pd_seq A tau mu f gs z 0 0 xs' ys' ->
  forall n, wnorm tau mu (xs' n [-] xs n) (ys' n [-] ys n) <= sqrt ((1 + sqrt kappa) / (1 - sqrt kappa)) * ((/ (1 + pd_gain)) ^ n * wnorm tau mu (xs' 0%nat [-] xs 0%nat) (ys' 0%nat [-] ys 0%nat)).
Proof.
  intros Hx Hy n. pose proof (sqrtk kappa Hk) as K. set (c := sqrt (1 + sqrt kappa)). pose proof pd_gain_nonneg as Hg0. assert (Hq : 0 < / (1 + pd_gain)) by (apply Rinv_0_lt_compat; lra).
  assert (Ex : forall xs ys, pd_seq A tau mu f gs z 0 0 xs ys -> forall k, is_prox f tau (xs k [-] tau [*] (ladj A (ys k) [+] z)) (xs (S k)) /\ is_prox gs mu (ys k [+] mu [*] lapp A (xs (S k) [+] 1 [*] (xs (S k) [-] xs k))) (ys (S k))).
  { clear. intros xs ys H k. destruct (H k) as [(p & Hp & He) (r & Hr & Hr0)].
    assert (Z : forall (G : IPS) (a b : G), norm (a [-] b) <= 0 -> a = b). { intros G a b Hn. apply norm2_sub_eq0. rewrite <- norm_sq. pose proof (norm_nonneg (a [-] b)). replace (norm (a [-] b)) with 0 by lra. ring. }
    apply Z in He. apply Z in Hr0. rewrite He in *. rewrite Hr0. auto. }
  assert (Hacc : norm (pr (xs' n [-] xs n) (ys' n [-] ys n)) <= (/ (1 + pd_gain)) ^ n * norm (pr (xs' 0%nat [-] xs 0%nat) (ys' 0%nat [-] ys 0%nat)) + 0 * geom (/ (1 + pd_gain)) n).
  { apply (accumulate (fun n => norm (pr (xs' n [-] xs n) (ys' n [-] ys n))) (/ (1 + pd_gain)) 0); [lra|]. intro k. destruct (Ex _ _ Hx k) as [H1 H2]. destruct (Ex _ _ Hy k) as [H3 H4]. rewrite Rplus_0_r. exact (pd_contract _ _ _ _ _ _ _ _ H3 H4 H1 H2). }
  rewrite Rmult_0_l, Rplus_0_r in Hacc. pose proof (pr_lo A tau mu kappa Ht Hm Hk HA (xs' n [-] xs n) (ys' n [-] ys n)) as Hlo. pose proof (pr_hi A tau mu kappa Ht Hm Hk HA (xs' 0%nat [-] xs 0%nat) (ys' 0%nat [-] ys 0%nat)) as Hhi. fold c in Hhi.
  assert (Hs : 0 < sqrt (1 - sqrt kappa)) by (apply sqrt_lt_R0; lra). rewrite sqrt_div_alt by lra. fold c.
  apply (Rmult_le_reg_l (sqrt (1 - sqrt kappa))); [exact Hs|].
  match goal with |- _ <= ?s * (c / ?s * ?w) => replace (s * (c / s * w)) with (c * w) by (field; lra) end.
  pose proof (Rmult_le_compat_l _ _ _ (pow_le _ n (Rlt_le _ _ Hq)) Hhi). lra.
Qed.
End PD.
