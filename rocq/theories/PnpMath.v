(** * Fixed-point iterations with a firmly non-expansive map that need not be a proximal map *)
From Coq Require Import Psatz.
From Verif Require Import Base Space Spec ConvexFacts Smooth VSum M_ProxOp SpecOps SplitMath P_PG P_PG2 P_PG3 P_Multi3 Compact Fejer IterMath S_Exist S_Inexact InexactMath S_Count CountMath S_Pnp.
Open Scope R_scope.

Lemma geo_unshift (a : nat -> R) q : 0 < q -> (exists C, forall n, a (S n) <= C * q ^ n) -> exists C, forall n, a n <= C * q ^ n.
Proof.
  intros Hq [C HC]. exists (Rmax (C / q) (a 0%nat)). intro n. destruct n as [|n].
  - rewrite pow_O, Rmult_1_r. apply Rmax_r.
  - eapply Rle_trans; [apply HC|]. replace (C * q ^ n) with (C / q * q ^ S n) by (cbn [pow]; field; lra). apply Rmult_le_compat_r; [apply pow_le; lra|apply Rmax_l].
Qed.

Section P.
Context {E : IPS} (HB : bw E).
Implicit Types (T A B D : E -> E) (xs : nat -> E).

Definition averaged (c : R) T : Prop := 0 < c /\ forall x y, norm2 (T x [-] T y) + c * norm2 ((x [-] T x) [-] (y [-] T y)) <= norm2 (x [-] y).

Lemma averaged_nonexp c T : averaged c T -> nonexp T.
Proof. intros [Hc H] x y. apply norm_le_of2. specialize (H x y). assert (0 <= c * norm2 (x [-] T x [-] (y [-] T y))) by (apply Rmult_le_pos; [lra|apply norm2_nonneg]). lra. Qed.

Lemma fix_limit T xs phi l : nonexp T -> Un_cv (fun k => norm2 (xs k [-] T (xs k))) 0 -> strict_inc phi -> vcv (fun k => xs (phi k)) l -> T l = l.
Proof.
  intros HT Hr Hphi Hl. assert (H1 : vcv (fun k => T (xs (phi k))) (T l)) by (apply (vcv_nonexp T _ _ HT Hl)).
  assert (H2 : vcv (fun k => T (xs (phi k))) l).
  { apply (vcv_close (fun k => xs (phi k))); [exact Hl|]. apply (Un_cv_sub _ _ phi Hphi) in Hr. eapply Un_cv_ext; [|exact Hr]. intro k. cbv beta. apply norm2_sub_sym. }
  eapply vcv_unique; eauto.
Qed.

Lemma km_cv c T xs : averaged c T -> (exists s, T s = s) -> (forall k, xs (S k) = T (xs k)) -> exists l, T l = l /\ vcv xs l.
Proof.
  intros HA [s Hs] Hx. pose proof (averaged_nonexp c T HA) as HN. destruct HA as [Hc HA].
  assert (Hr : Un_cv (fun k => norm2 (xs k [-] T (xs k))) 0).
  { apply (drop_vanish (fun k => norm2 (xs k [-] s)) _ c); [exact Hc|intro; apply norm2_nonneg|intro; apply norm2_nonneg|]. intro k. specialize (HA (xs k) s). rewrite Hs in HA. rewrite Hx.
    replace (xs k [-] T (xs k) [-] (s [-] s)) with (xs k [-] T (xs k)) in HA by vring. exact HA. }
  apply (fejer_cv xs (fun s => T s = s) HB); [eauto| |].
  - intros r k Fr. rewrite Hx. rewrite <- Fr at 1. specialize (HA (xs k) r). assert (0 <= c * norm2 (xs k [-] T (xs k) [-] (r [-] T r))) by (apply Rmult_le_pos; [lra|apply norm2_nonneg]). lra.
  - intros l phi Hphi Hl. apply (fix_limit T xs phi); auto.
Qed.

(** Banach's theorem *)
Lemma contract_cv q T xs : 0 <= q < 1 -> lipschitz q T -> (forall k, xs (S k) = T (xs k)) -> exists l, T l = l /\ (forall y, T y = y -> y = l) /\ forall k, norm (xs k [-] l) <= q ^ k * norm (xs 0%nat [-] l).
Proof.
  intros Hq HT Hx. assert (HN : nonexp T). { intros x y. pose proof (HT x y). pose proof (norm_nonneg (x [-] y)). nra. }
  set (d := norm (xs 1%nat [-] xs 0%nat)). assert (Hd : 0 <= d) by apply norm_nonneg.
  assert (Hst : forall k, norm (xs (S k) [-] xs k) <= q ^ k * d).
  { induction k as [|k IH]; [cbn [pow]; unfold d; lra|]. rewrite (Hx (S k)), (Hx k) at 1. pose proof (HT (xs (S k)) (xs k)) as H. rewrite <- (Hx k) in *. cbn [pow]. assert (q * norm (xs (S k) [-] xs k) <= q * (q ^ k * d)) by (apply Rmult_le_compat_l; lra). lra. }
  assert (Hb : forall k, norm (xs k [-] xs 0%nat) <= d * geom q k).
  { induction k as [|k IH]; [cbn [geom]; replace (xs 0%nat [-] xs 0%nat) with (vzero : E) by vring; rewrite norm_zero; lra|].
    cbn [geom]. pose proof (HT (xs k) (xs 0%nat)) as H. rewrite <- !Hx in H. pose proof (tri3 (xs (S k)) (xs 1%nat) (xs 0%nat)) as H2. fold d in H2.
    assert (q * norm (xs k [-] xs 0%nat) <= q * (d * geom q k)) by (apply Rmult_le_compat_l; lra). lra. }
  destruct (HB xs (d * / (1 - q) + norm (xs 0%nat))) as (l & phi & Hphi & Hl).
  { intro k. replace (xs k) with ((xs k [-] xs 0%nat) [+] xs 0%nat) by vring. pose proof (norm_triangle (xs k [-] xs 0%nat) (xs 0%nat)). pose proof (Hb k).
    assert (d * geom q k <= d * / (1 - q)) by (apply Rmult_le_compat_l; [exact Hd|apply geom_le; lra]). lra. }
  assert (Fl : T l = l).
  { apply (fix_limit T xs phi l HN); auto. apply vanish_cv; [intro; apply norm2_nonneg|]. intros eps He.
    assert (Hq0 : Un_cv (fun k => q ^ k) 0).
    { intros e0 He0. destruct (pow_lt_1_zero q ltac:(rewrite Rabs_right; lra) e0 He0) as [N HNN]. exists N. intros n Hn. unfold R_dist. rewrite Rminus_0_r. apply HNN. exact Hn. }
    assert (Hse : 0 < sqrt eps) by (apply sqrt_lt_R0; exact He).
    destruct (Hq0 (sqrt eps / (d + 1)) ltac:(apply Rdiv_lt_0_compat; lra)) as [N HNN]. exists N. intros n Hn. specialize (HNN n Hn). unfold R_dist in HNN. rewrite Rminus_0_r, Rabs_right in HNN by (apply Rle_ge, pow_le; lra).
    rewrite norm2_sub_sym, <- Hx, <- norm_sq. pose proof (Hst n) as H. pose proof (norm_nonneg (xs (S n) [-] xs n)) as H0. pose proof (pow_le q n ltac:(lra)) as Hp.
    assert (q ^ n * (d + 1) < sqrt eps). { apply (Rmult_lt_compat_r (d + 1)) in HNN; [|lra]. replace (sqrt eps / (d + 1) * (d + 1)) with (sqrt eps) in HNN by (field; lra). exact HNN. }
    assert (norm (xs (S n) [-] xs n) < sqrt eps) by nra. rewrite <- (sqrt_sqrt eps) by lra. nra. }
  exists l. split; [exact Fl|]. split.
  - intros y Fy. pose proof (HT y l) as H. rewrite Fy, Fl in H. pose proof (norm_nonneg (y [-] l)). assert (norm (y [-] l) = 0) by nra. apply norm_eq0 in H1. replace y with ((y [-] l) [+] l) by vring. rewrite H1. vring.
  - induction k as [|k IH]; [cbn [pow]; lra|]. rewrite Hx. rewrite <- Fl at 1. pose proof (HT (xs k) l). cbn [pow]. assert (q * norm (xs k [-] l) <= q * (q ^ k * norm (xs 0%nat [-] l))) by (apply Rmult_le_compat_l; lra). lra.
Qed.

Lemma geo_vcv q xs l : 0 <= q < 1 -> (exists C, forall k, norm (xs k [-] l) <= C * q ^ k) -> vcv xs l.
Proof.
  intros Hq [C HC] eps He. assert (HC0 : 0 <= C). { pose proof (HC 0%nat) as H. rewrite pow_O, Rmult_1_r in H. pose proof (norm_nonneg (xs 0%nat [-] l)). lra. }
  destruct (pow_lt_1_zero q ltac:(rewrite Rabs_right; lra) (eps / (C + 1)) ltac:(apply Rdiv_lt_0_compat; lra)) as [N HN]. exists N. intros k Hk. specialize (HN k Hk).
  rewrite Rabs_right in HN by (apply Rle_ge, pow_le; lra). pose proof (HC k). pose proof (pow_le q k ltac:(lra)).
  assert (q ^ k * (C + 1) < eps). { apply (Rmult_lt_compat_r (C + 1)) in HN; [|lra]. replace (eps / (C + 1) * (C + 1)) with eps in HN by (field; lra). exact HN. } nra.
Qed.

(** ** the maps *)
Definition DRmap (eta : R) A B (w : E) : E := w [+] eta [*] (B (2 [*] A w [-] w) [-] A w).
Lemma firm_nonexp A : firm A -> nonexp A.
Proof.
  intros HA x y. apply norm_le_of2. specialize (HA x y). pose proof (norm2_nonneg ((A x [-] A y) [-] (x [-] y))) as H.
  replace (norm2 (A x [-] A y [-] (x [-] y))) with (norm2 (A x [-] A y) - 2 * << A x [-] A y, x [-] y >> + norm2 (x [-] y)) in H by iring. lra.
Qed.
Lemma DRmap_averaged eta A B : firm A -> firm B -> 0 < eta < 2 -> averaged ((2 - eta) / eta) (DRmap eta A B).
Proof.
  intros HA HB' He. split; [apply Rdiv_lt_0_compat; lra|]. intros x y. unfold DRmap. set (qx := 2 [*] A x [-] x). set (qy := 2 [*] A y [-] y).
  pose proof (HA x y) as H1. pose proof (HB' qx qy) as H2. set (v := x [-] y) in *. set (a := A x [-] A y) in *. set (b := B qx [-] B qy) in *.
  replace (qx [-] qy) with (2 [*] a [-] v) in H2 by (unfold qx, qy, a, v; vring).
  replace (x [+] eta [*] (B qx [-] A x) [-] (y [+] eta [*] (B qy [-] A y))) with (v [+] eta [*] (b [-] a)) by (unfold v, a, b; vring).
  replace (x [-] (x [+] eta [*] (B qx [-] A x)) [-] (y [-] (y [+] eta [*] (B qy [-] A y)))) with (eta [*] (a [-] b)) by (unfold a, b; vring).
  clearbody v a b. clear - H1 H2 He.
  assert (Id : norm2 (v [+] eta [*] (b [-] a)) + (2 - eta) / eta * norm2 (eta [*] (a [-] b)) = norm2 v + 2 * eta * ((norm2 b - << b, 2 [*] a [-] v >>) + (norm2 a - << a, v >>))) by (iexp; field; lra).
  rewrite Id. assert (0 <= 2 * eta * (- ((norm2 b - << b, 2 [*] a [-] v >>) + (norm2 a - << a, v >>)))) by (apply Rmult_le_pos; lra). lra.
Qed.
Lemma comp_averaged A B : firm A -> firm B -> averaged (1 / 2) (fun x => B (A x)).
Proof.
  intros HA HB'. split; [lra|]. intros x y. pose proof (HA x y) as H1. pose proof (HB' (A x) (A y)) as H2.
  set (v := x [-] y) in *. set (a := A x [-] A y) in *. set (b := B (A x) [-] B (A y)) in *. replace (x [-] B (A x) [-] (y [-] B (A y))) with (v [-] b) by (unfold v, b; vring). clearbody v a b. clear - H1 H2.
  pose proof (norm2_nonneg ((v [-] a) [-] (a [-] b))) as H3.
  assert (Id : norm2 v - norm2 b - 1 / 2 * norm2 (v [-] b) = 2 * (<< a, v >> - norm2 a) + 2 * (<< b, a >> - norm2 b) + 1 / 2 * norm2 (v [-] a [-] (a [-] b))) by (iexp; field).
  lra.
Qed.

(** the strongly convex case *)
Lemma prox_firm_strong (f : efun E) s t x y p r : strongly_convex s f -> 0 <= s -> 0 < t -> is_prox f t x p -> is_prox f t y r ->
  (1 + t * s) * norm2 (p [-] r) <= << p [-] r, x [-] y >>.
Proof.
  intros Hf Hs Ht Hp Hr. assert (Hts : 0 <= t * s) by (apply Rmult_le_pos; lra). set (k := / (1 + t * s)). assert (Hk : 0 < k) by (apply Rinv_0_lt_compat; lra).
  set (h := mkEfun (edom f) (fun x => eval f x - s / 2 * norm2 x)).
  assert (G : forall x p, is_prox f t x p -> is_prox h (t * k) (k [*] x) p).
  { intros w q [Hd Hm]. split; [exact Hd|]. intros z Hz. specialize (Hm z Hz). cbn [h eval edom] in *.
    assert (Id : forall z, / (2 * (t * k)) * norm2 (z [-] k [*] w) = / (2 * t) * norm2 (z [-] w) + s / 2 * norm2 z + (/ (2 * t) * k - / (2 * t)) * norm2 w).
    { intro v. unfold k. iexp. field. split; lra. }
    rewrite !Id. lra. }
  pose proof (prox_firm h (t * k) _ _ p r Hf (Rmult_lt_0_compat _ _ Ht Hk) (G _ _ Hp) (G _ _ Hr)) as H.
  replace (k [*] x [-] k [*] y) with (k [*] (x [-] y)) in H by vring. rewrite inner_scal_r in H. apply (Rmult_le_compat_l (1 + t * s)) in H; [|lra].
  replace ((1 + t * s) * (k * << p [-] r, x [-] y >>)) with (<< p [-] r, x [-] y >>) in H by (unfold k; field; lra). exact H.
Qed.
Definition sfirm (k : R) A : Prop := forall x y, norm2 (A x [-] A y) <= k * << A x [-] A y, x [-] y >>.
Lemma sfirm_lip k A : 0 <= k -> sfirm k A -> lipschitz k A.
Proof.
  intros Hk HA x y. specialize (HA x y). apply sq_le_lip; [exact Hk|]. pose proof (norm2_nonneg (A x [-] A y [-] k [*] (x [-] y))) as H.
  replace (norm2 (A x [-] A y [-] k [*] (x [-] y))) with (norm2 (A x [-] A y) - 2 * (k * << A x [-] A y, x [-] y >>) + k * k * norm2 (x [-] y)) in H by iring. lra.
Qed.
Lemma sfirm_refl k A : 0 <= k <= 1 -> sfirm k A -> forall x y, norm ((2 [*] A x [-] x) [-] (2 [*] A y [-] y)) <= norm (x [-] y).
Proof.
  intros Hk HA x y. apply norm_le_of2. pose proof (HA x y) as H. pose proof (norm2_nonneg (A x [-] A y)).
  assert (H2 : 0 <= << A x [-] A y, x [-] y >>). { destruct (Req_dec k 0) as [->|Hn]; [rewrite Rmult_0_l in H; assert (N0 : norm2 (A x [-] A y) = 0) by lra; rewrite <- norm_sq in N0; apply Rmult_integral in N0; assert (N1 : norm (A x [-] A y) = 0) by tauto; apply norm_eq0 in N1; rewrite N1, inner_zero_l; lra|].
    apply (Rmult_le_reg_l k); [lra|]. lra. }
  replace (norm2 (2 [*] A x [-] x [-] (2 [*] A y [-] y))) with (norm2 (x [-] y) + 4 * (norm2 (A x [-] A y) - << A x [-] A y, x [-] y >>)) by iring. nra.
Qed.
(** first the almost-identity D, then the strong contraction P *)
Lemma DR_DP_lip k e D P : 0 <= k <= 1 -> 0 <= e -> sfirm k P -> residual_lip e D -> lipschitz (k + e) (DRmap 1 D P).
Proof.
  intros Hk He HP HD x y. unfold DRmap. set (qx := 2 [*] D x [-] x). set (qy := 2 [*] D y [-] y). pose proof (HP qx qy) as H1. pose proof (HD x y) as H2. cbv beta in H2.
  set (v := x [-] y) in *. set (d := x [-] D x [-] (y [-] D y)) in *. set (p := P qx [-] P qy) in *.
  replace (qx [-] qy) with (v [-] 2 [*] d) in H1 by (unfold qx, qy, d, v; vring).
  replace (x [+] 1 [*] (P qx [-] D x) [-] (y [+] 1 [*] (P qy [-] D y))) with (p [+] d) by (unfold p, d; vring). clearbody v d p. clear - H1 H2 Hk He.
  assert (H3 : norm (p [-] (k / 2) [*] (v [-] 2 [*] d)) <= k / 2 * norm (v [-] 2 [*] d)).
  { apply sq_le_lip; [lra|]. replace (norm2 (p [-] (k / 2) [*] (v [-] 2 [*] d))) with (norm2 p - k * << p, v [-] 2 [*] d >> + k / 2 * (k / 2) * norm2 (v [-] 2 [*] d)) by (iexp; field). lra. }
  pose proof (norm_triangle v ((-2) [*] d)) as H4. replace (v [+] (-2) [*] d) with (v [-] 2 [*] d) in H4 by vring. rewrite norm_scal, Rabs_left in H4 by lra.
  pose proof (norm_triangle (p [-] (k / 2) [*] (v [-] 2 [*] d)) ((k / 2) [*] v [+] (1 - k) [*] d)) as H5.
  replace (p [-] (k / 2) [*] (v [-] 2 [*] d) [+] ((k / 2) [*] v [+] (1 - k) [*] d)) with (p [+] d) in H5 by (vext w; field).
  pose proof (norm_triangle ((k / 2) [*] v) ((1 - k) [*] d)) as H6. rewrite !norm_scal, (Rabs_right (k / 2)), (Rabs_right (1 - k)) in H6 by lra.
  pose proof (norm_nonneg v). pose proof (norm_nonneg d).
  assert (k / 2 * norm (v [-] 2 [*] d) <= k / 2 * (norm v + 2 * norm d)) by (apply Rmult_le_compat_l; lra). lra.
Qed.
(** first the strong contraction P, then the almost-identity D *)
Lemma DR_PD_lip k e D P : 0 <= k <= 1 -> 0 <= e -> sfirm k P -> residual_lip e D -> lipschitz (k + e) (DRmap 1 P D).
Proof.
  intros Hk He HP HD x y. unfold DRmap. pose proof (sfirm_lip k P (proj1 Hk) HP x y) as H1. pose proof (sfirm_refl k P Hk HP x y) as H2. set (qx := 2 [*] P x [-] x) in *. set (qy := 2 [*] P y [-] y) in *. pose proof (HD qx qy) as H3. cbv beta in H3.
  set (d := qx [-] D qx [-] (qy [-] D qy)) in *.
  replace (x [+] 1 [*] (D qx [-] P x) [-] (y [+] 1 [*] (D qy [-] P y))) with ((P x [-] P y) [-] d) by (unfold d, qx, qy; vring).
  pose proof (norm_triangle (P x [-] P y) ((-1) [*] d)) as H4. rewrite norm_scal, Rabs_left in H4 by lra. replace (P x [-] P y [+] (-1) [*] d) with (P x [-] P y [-] d) in H4 by vring.
  assert (e * norm (qx [-] qy) <= e * norm (x [-] y)) by (apply Rmult_le_compat_l; lra). lra.
Qed.
End P.
