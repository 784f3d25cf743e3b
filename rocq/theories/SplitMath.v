(** * Mathematics of two-operator splitting: Douglas-Rachford, ADMM, HQS *)
From Coq Require Import Psatz.
From Verif Require Import Base Space Spec ConvexFacts Smooth.
Open Scope R_scope.

(** x with multiplier u is a solution of min f + g: u is a subgradient of f and -u of g at x. *)
Definition kkt {E : IPS} (f g : efun E) (x u : E) : Prop := is_subgrad f x u /\ is_subgrad g x (vopp u).

Section M.
Context {E : IPS}.
Implicit Types x y z u p : E.

Lemma kkt_min (f g : efun E) x u : kkt f g x u -> is_min (eadd f g) x.
Proof.
  intros [Hf Hg]. apply subgrad_zero_min. replace (vzero : E) with (u [+] vopp u) by vring. apply subgrad_add; auto.
Qed.
Lemma kkt_swap (f g : efun E) x u : kkt f g x u -> kkt g f x (vopp u).
Proof. intros [Hf Hg]. split; auto. replace (vopp (vopp u)) with u by vring. auto. Qed.

(** prox in inequality form *)
Lemma prox_vi (f : efun E) tau x p z : convex f -> 0 < tau -> is_prox f tau x p -> edom f z ->
  tau * (eval f p - eval f z) <= << x [-] p, p [-] z >>.
Proof.
  intros Hc Ht Hp Hz. apply prox_subgrad in Hp; auto. destruct Hp as [_ H]. specialize (H z Hz).
  rewrite inner_scal_l in H. apply (Rmult_le_compat_l tau) in H; [|lra].
  rewrite Rmult_plus_distr_l, <- Rmult_assoc, Rinv_r, Rmult_1_l in H by lra.
  replace (<< x [-] p, p [-] z >>) with (- << x [-] p, z [-] p >>) by iring. lra.
Qed.

(** ** Douglas-Rachford *)
Lemma dr_gap (f g : efun E) tau eta y x p z : convex f -> convex g -> 0 < tau -> 0 < eta ->
  is_prox g tau y x -> is_prox f tau (2 [*] x [-] y) p -> edom f z -> edom g z ->
  2 * tau * eta * (eval f p + eval g x - (eval f z + eval g z)) + eta * (2 - eta) * norm2 (p [-] x)
    + norm2 (y [+] eta [*] (p [-] x) [-] z) <= norm2 (y [-] z).
Proof.
  intros Hf Hg Ht He Hx Hp Hzf Hzg.
  pose proof (prox_vi g tau y x z Hg Ht Hx Hzg) as H1.
  pose proof (prox_vi f tau _ p z Hf Ht Hp Hzf) as H2.
  assert (Hid : norm2 (y [-] z) - norm2 (y [+] eta [*] (p [-] x) [-] z) - eta * (2 - eta) * norm2 (p [-] x)
     = 2 * eta * (<< y [-] x, x [-] z >> + << 2 [*] x [-] y [-] p, p [-] z >>)) by iring.
  assert (2 * eta * (tau * (eval g x - eval g z) + tau * (eval f p - eval f z)) <=
     2 * eta * (<< y [-] x, x [-] z >> + << 2 [*] x [-] y [-] p, p [-] z >>)) by (apply Rmult_le_compat_l; lra).
  lra.
Qed.

Lemma dr_firm (f g : efun E) tau eta y x p y' x' p' : convex f -> convex g -> 0 < tau -> 0 < eta ->
  is_prox g tau y x -> is_prox f tau (2 [*] x [-] y) p ->
  is_prox g tau y' x' -> is_prox f tau (2 [*] x' [-] y') p' ->
  norm2 ((y [+] eta [*] (p [-] x)) [-] (y' [+] eta [*] (p' [-] x'))) + eta * (2 - eta) * norm2 ((p [-] x) [-] (p' [-] x'))
    <= norm2 (y [-] y').
Proof.
  intros Hf Hg Ht He Hx Hp Hx' Hp'.
  pose proof (prox_firm g tau y y' x x' Hg Ht Hx Hx') as H1.
  pose proof (prox_firm f tau _ _ p p' Hf Ht Hp Hp') as H2.
  assert (Hid : norm2 (y [-] y') - norm2 ((y [+] eta [*] (p [-] x)) [-] (y' [+] eta [*] (p' [-] x'))) - eta * (2 - eta) * norm2 ((p [-] x) [-] (p' [-] x'))
     = 2 * eta * ((<< x [-] x', y [-] y' >> - norm2 (x [-] x')) + (<< p [-] p', (2 [*] x [-] y) [-] (2 [*] x' [-] y') >> - norm2 (p [-] p')))) by iring.
  assert (0 <= 2 * eta * ((<< x [-] x', y [-] y' >> - norm2 (x [-] x')) + (<< p [-] p', (2 [*] x [-] y) [-] (2 [*] x' [-] y') >> - norm2 (p [-] p')))).
  { apply Rmult_le_pos; lra. }
  lra.
Qed.

(** Fixed points of the Douglas-Rachford map are x + tau u with -u in the
    subdifferential of f... *)
Lemma dr_fix_kkt (f g : efun E) tau y x : convex f -> convex g -> 0 < tau ->
  is_prox g tau y x -> is_prox f tau (2 [*] x [-] y) x -> kkt f g x (/ tau [*] (x [-] y)).
Proof.
  intros Hf Hg Ht Hx Hp. apply prox_subgrad in Hx; auto. apply prox_subgrad in Hp; auto. split.
  - replace (x [-] y) with (2 [*] x [-] y [-] x) by vring. exact Hp.
  - replace (vopp (/ tau [*] (x [-] y))) with (/ tau [*] (y [-] x)) by vring. exact Hx.
Qed.
Lemma kkt_dr_fix (f g : efun E) tau x u : 0 < tau -> kkt f g x u ->
  let y := x [-] tau [*] u in is_prox g tau y x /\ is_prox f tau (2 [*] x [-] y) x.
Proof.
  intros Ht [Hf Hg] y. split; apply subgrad_prox; auto.
  - replace (/ tau [*] (y [-] x)) with (vopp u) by (unfold y; vfield; lra). auto.
  - replace (/ tau [*] (2 [*] x [-] y [-] x)) with u by (unfold y; vfield; lra). auto.
Qed.

(** The documented recursion; first operator g, second f. *)
Definition dr_doc (f g : efun E) (tau eta : R) (xs ps ys : nat -> E) (n : nat) : Prop :=
  forall j, (j < n)%nat -> is_prox g tau (ys j) (xs j) /\ is_prox f tau (2 [*] xs j [-] ys j) (ps j) /\
    ys (S j) = ys j [+] eta [*] (ps j [-] xs j).

Section DR.
Variables (f g : efun E) (tau eta : R) (xs ps ys : nat -> E) (n : nat).
Hypotheses (Hf : convex f) (Hg : convex g) (Ht : 0 < tau) (He : 0 < eta) (Hd : dr_doc f g tau eta xs ps ys n).

Lemma dr_fejer y x : is_prox g tau y x -> is_prox f tau (2 [*] x [-] y) x -> forall j, (j < n)%nat ->
  norm2 (ys (S j) [-] y) + eta * (2 - eta) * norm2 (ps j [-] xs j) <= norm2 (ys j [-] y).
Proof.
  intros Hx Hp j Hj. destruct (Hd j Hj) as [H1 [H2 H3]].
  pose proof (dr_firm f g tau eta _ _ _ _ _ _ Hf Hg Ht He H1 H2 Hx Hp) as H.
  rewrite <- H3 in H. replace (y [+] eta [*] (x [-] x)) with y in H by vring.
  replace (ps j [-] xs j [-] (x [-] x)) with (ps j [-] xs j) in H by vring. exact H.
Qed.

Lemma dr_sum y x : is_prox g tau y x -> is_prox f tau (2 [*] x [-] y) x -> forall j, (j <= n)%nat ->
  norm2 (ys j [-] y) + eta * (2 - eta) * Rsum (map (fun i => norm2 (ps i [-] xs i)) (seq 0 j)) <= norm2 (ys 0%nat [-] y).
Proof.
  intros Hx Hp j. induction j as [|j IH]; intro Hj; [simpl; lra|]. specialize (IH ltac:(lia)).
  rewrite seq_S, map_app, Rsum_app. simpl Rsum. pose proof (dr_fejer y x Hx Hp j Hj). lra.
Qed.

Lemma dr_res_mono j : eta <= 2 -> (S j < n)%nat -> norm2 (ps (S j) [-] xs (S j)) <= norm2 (ps j [-] xs j).
Proof.
  intros H2 Hj. destruct (Hd j ltac:(lia)) as [A1 [A2 A3]]. destruct (Hd (S j) Hj) as [B1 [B2 B3]].
  pose proof (dr_firm f g tau eta _ _ _ _ _ _ Hf Hg Ht He B1 B2 A1 A2) as H. rewrite <- B3, <- A3 in H.
  replace (ys (S (S j)) [-] ys (S j)) with (eta [*] (ps (S j) [-] xs (S j))) in H by (rewrite B3; vring).
  replace (ys (S j) [-] ys j) with (eta [*] (ps j [-] xs j)) in H by (rewrite A3; vring).
  rewrite !norm2_scal in H. pose proof (norm2_nonneg (ps (S j) [-] xs (S j) [-] (ps j [-] xs j))).
  assert (0 <= eta * (2 - eta) * norm2 (ps (S j) [-] xs (S j) [-] (ps j [-] xs j))) by (apply Rmult_le_pos; auto; nra).
  assert (0 < eta * eta) by nra. nra.
Qed.

Lemma dr_gap_sum z : eta <= 2 -> edom f z -> edom g z -> forall j, (j <= n)%nat ->
  2 * tau * eta * Rsum (map (fun i => eval f (ps i) + eval g (xs i) - (eval f z + eval g z)) (seq 0 j)) + norm2 (ys j [-] z) <= norm2 (ys 0%nat [-] z).
Proof.
  intros H2 Hzf Hzg j. induction j as [|j IH]; intro Hj; [simpl; lra|]. specialize (IH ltac:(lia)).
  rewrite seq_S, map_app, Rsum_app. simpl Rsum. destruct (Hd j Hj) as [A1 [A2 A3]].
  pose proof (dr_gap f g tau eta _ _ _ z Hf Hg Ht He A1 A2 Hzf Hzg) as H. rewrite <- A3 in H.
  pose proof (norm2_nonneg (ps j [-] xs j)). assert (0 <= eta * (2 - eta) * norm2 (ps j [-] xs j)) by (apply Rmult_le_pos; auto; nra).
  lra.
Qed.
End DR.

(** ** ADMM *)
(** One step from (z, u); (zs, us/tau) optimal: us/tau in the subdifferential of g, -us/tau in that of f at zs. *)
Lemma admm_step (f g : efun E) tau z u x z' zs us : convex f -> convex g -> 0 < tau ->
  is_prox f tau (z [-] u) x -> is_prox g tau (x [+] u) z' ->
  is_prox f tau (zs [-] us) zs -> is_prox g tau (zs [+] us) zs ->
  let u' := u [+] x [-] z' in
  norm2 (z' [-] zs) + norm2 (u' [-] us) + norm2 ((z' [-] z) [+] (x [-] z')) <= norm2 (z [-] zs) + norm2 (u [-] us).
Proof.
  intros Hf Hg Ht Hx Hz Hxs Hzs u'.
  pose proof (prox_firm f tau _ _ _ _ Hf Ht Hx Hxs) as H1.
  pose proof (prox_firm g tau _ _ _ _ Hg Ht Hz Hzs) as H2.
  assert (Hid : norm2 (z [-] zs) + norm2 (u [-] us) - (norm2 (z' [-] zs) + norm2 (u' [-] us) + norm2 ((z' [-] z) [+] (x [-] z')))
    = 2 * ((<< x [-] zs, (z [-] u) [-] (zs [-] us) >> - norm2 (x [-] zs)) + (<< z' [-] zs, (x [+] u) [-] (zs [+] us) >> - norm2 (z' [-] zs)))).
  { unfold u'. iring. }
  lra.
Qed.
(** ... and the cross term is non-negative once u/tau is a subgradient of g at z. *)
Lemma admm_cross (g : efun E) tau z u x z' w : convex g -> 0 < tau -> is_prox g tau (w) z -> u = w [-] z -> is_prox g tau (x [+] u) z' ->
  norm2 (z' [-] z) + norm2 (x [-] z') <= norm2 ((z' [-] z) [+] (x [-] z')).
Proof.
  intros Hg Ht Hz -> Hz'. pose proof (prox_firm g tau _ _ _ _ Hg Ht Hz' Hz) as H.
  assert (Hid : norm2 ((z' [-] z) [+] (x [-] z')) - (norm2 (z' [-] z) + norm2 (x [-] z')) =
    2 * (<< z' [-] z, x [+] (w [-] z) [-] w >> - norm2 (z' [-] z))) by iring.
  lra.
Qed.

(** ** HQS *)
Lemma hqs_step (f g : efun E) tau x z x' w v : convex f -> convex g -> 0 < tau ->
  is_prox g tau x z -> is_prox f tau z x' -> edom f w -> edom g v ->
  2 * tau * ((eval f x' + eval g z + / (2 * tau) * norm2 (x' [-] z)) - (eval f w + eval g v + / (2 * tau) * norm2 (w [-] v)))
    + norm2 (x' [-] w) <= norm2 (x [-] w).
Proof.
  intros Hf Hg Ht Hz Hx Hw Hv.
  pose proof (prox_vi g tau x z v Hg Ht Hz Hv) as H1. pose proof (prox_vi f tau z x' w Hf Ht Hx Hw) as H2.
  assert (Hid : norm2 (x [-] w) - norm2 (x' [-] w) - norm2 (x' [-] z) + norm2 (w [-] v) =
     2 * (<< x [-] z, z [-] v >> + << z [-] x', x' [-] w >>) + norm2 (x [-] z [+] v [-] w)) by iring.
  pose proof (norm2_nonneg (x [-] z [+] v [-] w)) as H3.
  replace (2 * tau * (eval f x' + eval g z + / (2 * tau) * norm2 (x' [-] z) - (eval f w + eval g v + / (2 * tau) * norm2 (w [-] v))))
    with (2 * (tau * (eval f x' - eval f w) + tau * (eval g z - eval g v)) + norm2 (x' [-] z) - norm2 (w [-] v)) by (field; lra).
  lra.
Qed.
End M.
