(** * Contraction factors of proximal, reflected and gradient steps; error accumulation *)
From Coq Require Import Psatz.
From Verif Require Import Base Space Spec ConvexFacts Smooth M_ProxOp SpecOps S_Exist P_Multi3 S_Inexact.
Open Scope R_scope.

Lemma geom_one n : geom 1 n = INR n.
Proof. induction n as [|n IH]; [reflexivity|]. rewrite S_INR. cbn [geom]. rewrite IH. ring. Qed.
Lemma geom_nonneg q n : 0 <= q -> 0 <= geom q n.
Proof. intro Hq. induction n as [|n IH]; cbn [geom]; [lra|]. assert (0 <= q * geom q n) by (apply Rmult_le_pos; auto). lra. Qed.
Lemma geom_sum q n : (1 - q) * geom q n = 1 - q ^ n.
Proof. induction n as [|n IH]; cbn [geom pow]; [ring|]. replace ((1 - q) * (1 + q * geom q n)) with (1 - q + q * ((1 - q) * geom q n)) by ring. rewrite IH. ring. Qed.
Lemma geom_le q n : 0 <= q < 1 -> geom q n <= / (1 - q).
Proof.
  intro Hq. apply (Rmult_le_reg_l (1 - q)); [lra|]. rewrite geom_sum, Rinv_r by lra. pose proof (pow_le q n (proj1 Hq)). lra.
Qed.
Lemma accumulate (d : nat -> R) q c : 0 <= q -> (forall k, d (S k) <= q * d k + c) -> forall n, d n <= q ^ n * d 0%nat + c * geom q n.
Proof.
  intros Hq H. induction n as [|n IH]; cbn [pow geom]; [lra|]. specialize (H n). pose proof (Rmult_le_compat_l q _ _ Hq IH) as H1. lra.
Qed.

Section M.
Context {E : IPS}.

Lemma tri3 (a b c : E) : norm (a [-] c) <= norm (a [-] b) + norm (b [-] c).
Proof. replace (a [-] c) with ((a [-] b) [+] (b [-] c)) by vring. apply norm_triangle. Qed.

(** two approximations of a Lipschitz relation *)
Lemma approx_pair (q e1 e2 dxy : R) (p r u v : E) : norm (p [-] u) <= e1 -> norm (r [-] v) <= e2 -> norm (u [-] v) <= dxy -> norm (p [-] r) <= dxy + (e1 + e2).
Proof.
  intros H1 H2 H3. pose proof (tri3 p u r). pose proof (tri3 u v r). rewrite (norm_sub_sym v r) in *. lra.
Qed.

Lemma prox_lip_convex (f : efun E) t : convex f -> 0 < t -> prox_lip 1 f t.
Proof. intros Hf Ht x y p r Hp Hr. rewrite Rmult_1_l. eapply prox_nonexp; eauto. Qed.
Lemma refl_lip_convex (f : efun E) t : convex f -> 0 < t -> refl_lip 1 f t.
Proof.
  intros Hf Ht x y p r Hp Hr. rewrite Rmult_1_l. apply norm_le_iff. pose proof (prox_firm f t x y p r Hf Ht Hp Hr) as H.
  replace (norm2 (2 [*] p [-] x [-] (2 [*] r [-] y))) with (norm2 (x [-] y) + 4 * (norm2 (p [-] r) - << p [-] r, x [-] y >>)) by iring. lra.
Qed.
Lemma prox_lip_strong (f : efun E) s t : strongly_convex s f -> 0 <= s -> 0 < t -> prox_lip (/ (1 + t * s)) f t.
Proof.
  intros Hf Hs Ht x y p r Hp Hr. assert (Hts : 0 <= t * s) by (apply Rmult_le_pos; lra). set (k := / (1 + t * s)). assert (Hk : 0 < k) by (apply Rinv_0_lt_compat; lra).
  set (h := mkEfun (edom f) (fun x => eval f x - s / 2 * norm2 x)).
  assert (G : forall x p, is_prox f t x p -> is_prox h (t * k) (k [*] x) p).
  { intros w q [Hd Hm]. split; [exact Hd|]. intros z Hz. specialize (Hm z Hz). cbn [h eval edom] in *.
    assert (Id : forall z, / (2 * (t * k)) * norm2 (z [-] k [*] w) = / (2 * t) * norm2 (z [-] w) + s / 2 * norm2 z + (/ (2 * t) * k - / (2 * t)) * norm2 w).
    { intro v. unfold k. iexp. field. split; lra. }
    rewrite !Id. lra. }
  pose proof (prox_nonexp h (t * k) _ _ p r Hf (Rmult_lt_0_compat _ _ Ht Hk) (G _ _ Hp) (G _ _ Hr)) as H.
  replace (k [*] x [-] k [*] y) with (k [*] (x [-] y)) in H by vring. rewrite norm_scal, Rabs_right in H by lra. exact H.
Qed.

(** smooth and strongly convex: the interpolation inequality *)
Lemma strong_smooth_ineq (f : E -> R) df s L x y : 0 <= s < L -> strongly_convex s (etot f) -> L_smooth f df L ->
  norm2 ((df y [-] df x) [-] s [*] (y [-] x)) <= (L - s) * << (df y [-] df x) [-] s [*] (y [-] x), y [-] x >>.
Proof.
  intros HsL Hst Hsm. set (h := fun x => f x - s / 2 * norm2 x). set (dh := fun x => df x [-] s [*] x).
  assert (Cf : convex (etot f)).
  { intros a b t Ha Hb Ht. split; [exact I|]. destruct (Hst a b t I I Ht) as [_ H]. cbn [etot eval] in *.
    assert (Id : s / 2 * norm2 ((1 - t) [*] a [+] t [*] b) = (1 - t) * (s / 2 * norm2 a) + t * (s / 2 * norm2 b) - s / 2 * (t * (1 - t)) * norm2 (a [-] b)) by (iexp; field).
    pose proof (norm2_nonneg (a [-] b)). assert (0 <= s / 2 * (t * (1 - t)) * norm2 (a [-] b)) by (repeat apply Rmult_le_pos; lra). lra. }
  assert (Hgrad : forall z, is_grad h z (dh z)).
  { intros z eps He. destruct (proj1 Hsm z (eps / 2) ltac:(lra)) as (d & Hd & H). exists (Rmin d (eps / (s + 1))).
    assert (Hq : 0 < eps / (s + 1)) by (apply Rdiv_lt_0_compat; lra).
    split; [apply Rmin_glb_lt; assumption|]. intros v Hv. specialize (H v (Rle_trans _ _ _ Hv (Rmin_l _ _))). pose proof (Rle_trans _ _ _ Hv (Rmin_r _ _)) as Hv2. unfold h, dh.
    replace (f (z [+] v) - s / 2 * norm2 (z [+] v) - (f z - s / 2 * norm2 z) - << df z [-] s [*] z, v >>) with ((f (z [+] v) - f z - << df z, v >>) + - (s / 2 * norm2 v)) by (iexp; field).
    eapply Rle_trans; [apply Rabs_triang|]. rewrite Rabs_Ropp, (Rabs_right (s / 2 * norm2 v)) by (apply Rle_ge, Rmult_le_pos; [lra|apply norm2_nonneg]).
    rewrite <- norm_sq. pose proof (norm_nonneg v) as Hn. assert (s / 2 * (norm v * norm v) <= eps / 2 * norm v).
    { replace (s / 2 * (norm v * norm v)) with (s / 2 * norm v * norm v) by ring. apply Rmult_le_compat_r; [exact Hn|].
      apply Rle_trans with (s / 2 * (eps / (s + 1))); [apply Rmult_le_compat_l; lra|]. apply (Rmult_le_reg_r (2 * (s + 1))); [lra|]. replace (s / 2 * (eps / (s + 1)) * (2 * (s + 1))) with (s * eps) by (field; lra). nra. }
    lra. }
  assert (HS : smooth_convex h dh (L - s)).
  { split; intros a b.
    - apply (convex_grad_ineq h a b (dh a)); [exact Hst|apply Hgrad].
    - pose proof (proj2 (L_smooth_convex f df L Cf Hsm) a b) as H. unfold h, dh.
      replace (<< df a [-] s [*] a, b [-] a >>) with (<< df a, b [-] a >> - s * << a, b [-] a >>) by (inner_lin_all; ring).
      replace (s / 2 * norm2 b) with (s / 2 * norm2 a + s * << a, b [-] a >> + s / 2 * norm2 (b [-] a)) by (iexp; field). lra. }
  pose proof (cocoercive h dh (L - s) x y ltac:(lra) HS) as H. unfold dh in H.
  replace (df y [-] s [*] y [-] (df x [-] s [*] x)) with (df y [-] df x [-] s [*] (y [-] x)) in H by vring. exact H.
Qed.

Lemma sq_le_lip (a b : E) q : 0 <= q -> norm2 a <= q * q * norm2 b -> norm a <= q * norm b.
Proof.
  intros Hq H. apply norm_le_of_sq; [apply Rmult_le_pos; [exact Hq|apply norm_nonneg]|]. replace (q * norm b * (q * norm b)) with (q * q * (norm b * norm b)) by ring. rewrite norm_sq. exact H.
Qed.

Lemma strong_mono (f : E -> R) df s L x y : 0 <= s < L -> strongly_convex s (etot f) -> L_smooth f df L -> s * norm2 (y [-] x) <= << df y [-] df x, y [-] x >>.
Proof.
  intros HsL Hst Hsm. pose proof (strong_smooth_ineq f df s L x y HsL Hst Hsm) as H. pose proof (norm2_nonneg (df y [-] df x [-] s [*] (y [-] x))) as H0.
  assert (H1 : 0 <= << df y [-] df x [-] s [*] (y [-] x), y [-] x >>) by (apply (Rmult_le_reg_l (L - s)); lra).
  rewrite inner_sub_l, inner_scal_l in H1. unfold norm2 at 1. lra.
Qed.

(** the gradient step *)
Lemma step_lip_strong (f : E -> R) df s L t : 0 <= s < L -> strongly_convex s (etot f) -> L_smooth f df L -> 0 < t ->
  lipschitz (Rmax (Rabs (1 - t * s)) (Rabs (1 - t * L))) (fun x => x [-] t [*] df x).
Proof.
  intros HsL Hst Hsm Ht y x. set (q := Rmax (Rabs (1 - t * s)) (Rabs (1 - t * L))).
  assert (Hq : 0 <= q) by (apply Rle_trans with (1 := Rabs_pos (1 - t * s)); apply Rmax_l).
  assert (Hsq : forall a, Rabs a <= q -> a * a <= q * q). { intros a Ha. replace (a * a) with (Rabs a * Rabs a) by (rewrite <- Rabs_mult; apply Rabs_right; nra). apply Rmult_le_compat; auto using Rabs_pos. }
  pose proof (Hsq _ (Rmax_l _ _ : Rabs (1 - t * s) <= q)) as Q1. pose proof (Hsq _ (Rmax_r _ _ : Rabs (1 - t * L) <= q)) as Q2.
  apply sq_le_lip; [exact Hq|]. pose proof (strong_smooth_ineq f df s L x y HsL Hst Hsm) as H.
  set (a := y [-] x) in *. set (w := df y [-] df x [-] s [*] a) in *.
  replace (y [-] t [*] df y [-] (x [-] t [*] df x)) with ((1 - t * s) [*] a [-] t [*] w) by (unfold w, a; vring).
  assert (Hid : norm2 ((1 - t * s) [*] a [-] t [*] w) = (1 - t * s) * (1 - t * s) * norm2 a - 2 * t * (1 - t * s) * << w, a >> + t * t * norm2 w) by iring. rewrite Hid.
  pose proof (norm2_nonneg a) as Ha. pose proof (norm2_nonneg w) as Hw. set (I := << w, a >>) in *.
  assert (HI0 : 0 <= I) by (apply (Rmult_le_reg_l (L - s)); lra).
  assert (HI1 : I <= (L - s) * norm2 a).
  { pose proof (CS_sq w a) as HC. fold I in HC. destruct (Rle_lt_dec I 0) as [Hz|Hz]; [apply Rle_trans with 0; [exact Hz|apply Rmult_le_pos; lra]|].
    apply (Rmult_le_reg_l I); [exact Hz|]. apply Rle_trans with (1 := HC). replace (I * ((L - s) * norm2 a)) with ((L - s) * I * norm2 a) by ring. apply Rmult_le_compat_r; lra. }
  assert (H1 : t * t * norm2 w <= t * t * ((L - s) * I)) by (apply Rmult_le_compat_l; nra).
  destruct (Rle_lt_dec (t * (L + s)) 2) as [Hc|Hc].
  - assert (H2 : 0 <= t * (2 - t * (L + s)) * I) by (apply Rmult_le_pos; [apply Rmult_le_pos; lra|exact HI0]).
    pose proof (Rmult_le_compat_r _ _ _ Ha Q1). lra.
  - assert (H2 : t * (t * (L + s) - 2) * I <= t * (t * (L + s) - 2) * ((L - s) * norm2 a)) by (apply Rmult_le_compat_l; [apply Rmult_le_pos; lra|exact HI1]).
    pose proof (Rmult_le_compat_r _ _ _ Ha Q2). lra.
Qed.

(** the reflection *)
Lemma refl_lip_strong (f : E -> R) df s L t : 0 <= s < L -> strongly_convex s (etot f) -> L_smooth f df L -> 0 < t ->
  refl_lip (Rmax ((1 - t * s) / (1 + t * s)) ((t * L - 1) / (1 + t * L))) (etot f) t.
Proof.
  intros HsL Hst Hsm Ht. set (al := t * s). set (be := t * L).
  assert (Hal : 0 <= al) by (apply Rmult_le_pos; lra). assert (Hbe : al < be) by (apply Rmult_lt_compat_l; lra).
  set (q := Rmax ((1 - al) / (1 + al)) ((be - 1) / (1 + be))).
  assert (Q1 : (1 - al) / (1 + al) <= q) by apply Rmax_l. assert (Q2 : (be - 1) / (1 + be) <= q) by apply Rmax_r.
  assert (Hq0 : 0 <= q).
  { destruct (Rle_lt_dec al 1) as [H|H]; [apply Rle_trans with (2 := Q1)|apply Rle_trans with (2 := Q2)]; apply Rmult_le_pos; try lra; apply Rlt_le, Rinv_0_lt_compat; lra. }
  assert (Hq1 : q <= 1). { apply Rmax_lub; [apply (Rmult_le_reg_r (1 + al))|apply (Rmult_le_reg_r (1 + be))]; try lra; unfold Rdiv; rewrite Rmult_assoc, Rinv_l; lra. }
  assert (Cf : convex (etot f)).
  { intros a b u Ha Hb Hu. split; [exact I|]. destruct (Hst a b u I I Hu) as [_ H]. cbn [etot eval] in *.
    assert (Id : s / 2 * norm2 ((1 - u) [*] a [+] u [*] b) = (1 - u) * (s / 2 * norm2 a) + u * (s / 2 * norm2 b) - s / 2 * (u * (1 - u)) * norm2 (a [-] b)) by (iexp; field).
    pose proof (norm2_nonneg (a [-] b)). assert (0 <= s / 2 * (u * (1 - u)) * norm2 (a [-] b)) by (repeat apply Rmult_le_pos; lra). lra. }
  intros x y p r Hp Hr.
  assert (G : forall x p, is_prox (etot f) t x p -> x [-] p = t [*] df p).
  { intros w v Hw. assert (HF : is_grad (fun z => f z + / (2 * t) * norm2 (z [-] w)) v (df v [+] / t [*] (v [-] w))).
    { intros eps He. destruct (proj1 Hsm v (eps / 2) ltac:(lra)) as (d & Hd & H). exists (Rmin d (eps * t)). assert (0 < eps * t) by (apply Rmult_lt_0_compat; lra).
      split; [apply Rmin_glb_lt; assumption|]. intros u Hu. specialize (H u (Rle_trans _ _ _ Hu (Rmin_l _ _))). pose proof (Rle_trans _ _ _ Hu (Rmin_r _ _)) as Hu2.
      replace (f (v [+] u) + / (2 * t) * norm2 (v [+] u [-] w) - (f v + / (2 * t) * norm2 (v [-] w)) - << df v [+] / t [*] (v [-] w), u >>) with ((f (v [+] u) - f v - << df v, u >>) + / (2 * t) * norm2 u) by (iexp; field; lra).
      assert (Hi : 0 < / (2 * t)) by (apply Rinv_0_lt_compat; lra).
      eapply Rle_trans; [apply Rabs_triang|]. rewrite (Rabs_right (/ (2 * t) * norm2 u)) by (apply Rle_ge, Rmult_le_pos; [lra|apply norm2_nonneg]).
      rewrite <- norm_sq. pose proof (norm_nonneg u) as Hn. assert (/ (2 * t) * (norm u * norm u) <= eps / 2 * norm u).
      { rewrite <- Rmult_assoc. apply Rmult_le_compat_r; [exact Hn|]. apply Rle_trans with (/ (2 * t) * (eps * t)); [apply Rmult_le_compat_l; lra|]. right. field. lra. }
      lra. }
    assert (Hz : df v [+] / t [*] (v [-] w) = vzero).
    { destruct (Req_dec (norm2 (df v [+] / t [*] (v [-] w))) 0) as [H0|H0]; [apply norm2_eq0; exact H0|]. exfalso.
      set (g := df v [+] / t [*] (v [-] w)) in *. pose proof (norm2_nonneg g) as Hg. assert (Hgp : 0 < norm g) by (unfold norm; apply sqrt_lt_R0; lra).
      destruct (HF (norm g / 2) ltac:(lra)) as (d & Hd & H). set (c := d / norm g). assert (Hc : 0 < c) by (apply Rdiv_lt_0_compat; lra).
      assert (Hn : norm ((- c) [*] g) = d). { rewrite norm_scal, Rabs_Ropp, Rabs_right by lra. unfold c. field. lra. }
      specialize (H ((- c) [*] g)). rewrite Hn in H. specialize (H (Rle_refl _)). destruct Hw as [_ Hm]. specialize (Hm (v [+] (- c) [*] g) I). cbn [etot eval] in Hm.
      rewrite inner_scal_r in H. change (<< g, g >>) with (norm2 g) in H. rewrite <- (norm_sq g) in H. replace (- c * (norm g * norm g)) with (- (d * norm g)) in H by (unfold c; field; lra).
      pose proof (Rle_trans _ _ _ (Rle_abs _) H) as H'. pose proof (Rmult_lt_0_compat _ _ Hd Hgp). lra. }
    assert (H2 : t [*] (df v [+] / t [*] (v [-] w)) = vzero) by (rewrite Hz; vring).
    apply vsub_eq. replace (w [-] v [-] t [*] df v) with ((-1) [*] (t [*] (df v [+] / t [*] (v [-] w)))) by (vfield; lra). rewrite H2. vring. }
  pose proof (G _ _ Hp) as Gp. pose proof (G _ _ Hr) as Gr. set (b := p [-] r). set (c := t [*] (df p [-] df r)).
  assert (Exy : x [-] y = b [+] c). { unfold b, c. replace (x [-] y) with ((x [-] p) [-] (y [-] r) [+] (p [-] r)) by vring. rewrite Gp, Gr. vring. }
  assert (Err : 2 [*] p [-] x [-] (2 [*] r [-] y) = b [-] c). { replace (2 [*] p [-] x [-] (2 [*] r [-] y)) with (2 [*] b [-] (x [-] y)) by (unfold b; vring). rewrite Exy. vring. }
  rewrite Err, Exy. apply sq_le_lip; [exact Hq0|].
  pose proof (strong_smooth_ineq f df s L r p HsL Hst Hsm) as Hi. fold b in Hi.
  assert (Hi2 : norm2 c + al * be * norm2 b <= (al + be) * << b, c >>).
  { unfold c, al, be. apply (Rmult_le_compat_l (t * t)) in Hi; [|nra].
    assert (I1 : t * t * norm2 (df p [-] df r [-] s [*] b) = norm2 (t [*] (df p [-] df r)) - 2 * (t * s) * << b, t [*] (df p [-] df r) >> + t * s * (t * s) * norm2 b) by iring.
    assert (I2 : t * t * ((L - s) * << df p [-] df r [-] s [*] b, b >>) = (t * L - t * s) * << b, t [*] (df p [-] df r) >> - (t * L - t * s) * (t * s) * norm2 b) by (iexp; ring). lra. }
  assert (HcU : norm2 c <= be * be * norm2 b).
  { pose proof (proj2 Hsm p r) as Hl. fold b in Hl. unfold c, be. rewrite norm2_scal. rewrite <- !norm_sq.
    assert (norm (df p [-] df r) * norm (df p [-] df r) <= L * norm b * (L * norm b)) by (apply Rmult_le_compat; auto using norm_nonneg).
    replace (t * L * (t * L) * (norm b * norm b)) with (t * t * (L * norm b * (L * norm b))) by ring. apply Rmult_le_compat_l; nra. }
  assert (HcL : al * al * norm2 b <= norm2 c).
  { pose proof (strong_mono f df s L r p HsL Hst Hsm) as Hm. fold b in Hm. assert (Hk : al * norm2 b <= << b, c >>).
    { unfold al, c. rewrite inner_scal_r, inner_sym. replace (t * s * norm2 b) with (t * (s * norm2 b)) by ring. apply Rmult_le_compat_l; lra. }
    pose proof (CS b c) as HC. pose proof (norm_nonneg b) as Hb. pose proof (norm_nonneg c) as Hcn. rewrite <- norm_sq in Hk. rewrite <- !norm_sq.
    destruct (Rle_lt_dec (norm b) 0) as [Hz|Hz]; [assert (norm b = 0) as -> by lra; nra|].
    assert (Hle : al * norm b <= norm c) by (apply (Rmult_le_reg_r (norm b)); lra).
    replace (al * al * (norm b * norm b)) with (al * norm b * (al * norm b)) by ring. apply Rmult_le_compat; auto; apply Rmult_le_pos; lra. }
  pose proof (norm2_nonneg b) as HB. set (B := norm2 b) in *. set (C := norm2 c) in *. set (K := << b, c >>) in *.
  assert (Eb : norm2 (b [-] c) = B + C - 2 * K) by (unfold B, C, K; iring). assert (Ea : norm2 (b [+] c) = B + C + 2 * K) by (unfold B, C, K; iring). rewrite Eb, Ea.
  assert (Hends : forall g, 0 <= g -> (1 - g) / (1 + g) <= q -> - ((1 - g) / (1 + g)) <= q -> (1 - q * q) * (1 + g * g) <= 2 * (1 + q * q) * g).
  { intros g Hg U V. set (v := (1 - g) / (1 + g)) in *. assert (Ev : v * (1 + g) = 1 - g) by (unfold v; field; lra).
    assert (Hvq : v * v <= q * q) by (destruct (Rle_lt_dec 0 v); nra).
    assert (Hx : v * v * ((1 + g) * (1 + g)) = (1 - g) * (1 - g)) by (replace (v * v * ((1 + g) * (1 + g))) with (v * (1 + g) * (v * (1 + g))) by ring; rewrite Ev; ring).
    assert (v * v * ((1 + g) * (1 + g)) <= q * q * ((1 + g) * (1 + g))) by (apply Rmult_le_compat_r; nra). lra. }
  assert (HA : (1 - q * q) * (1 + al * al) <= 2 * (1 + q * q) * al).
  { apply Hends; [exact Hal|exact Q1|]. apply Rle_trans with (2 := Q2). apply (Rmult_le_reg_r ((1 + al) * (1 + be))); [nra|].
    replace (- ((1 - al) / (1 + al)) * ((1 + al) * (1 + be))) with ((al - 1) * (1 + be)) by (field; lra). replace ((be - 1) / (1 + be) * ((1 + al) * (1 + be))) with ((be - 1) * (1 + al)) by (field; lra). lra. }
  assert (HBe : (1 - q * q) * (1 + be * be) <= 2 * (1 + q * q) * be).
  { apply Hends; [lra| |].
    - apply Rle_trans with (2 := Q1). apply (Rmult_le_reg_r ((1 + al) * (1 + be))); [nra|].
      replace ((1 - be) / (1 + be) * ((1 + al) * (1 + be))) with ((1 - be) * (1 + al)) by (field; lra). replace ((1 - al) / (1 + al) * ((1 + al) * (1 + be))) with ((1 - al) * (1 + be)) by (field; lra). lra.
    - replace (- ((1 - be) / (1 + be))) with ((be - 1) / (1 + be)) by (field; lra). exact Q2. }
  (* (1 - q^2)(B + C) <= 2 (1 + q^2) K *)
  assert (Hfin : (1 - q * q) * (B + C) * (al + be) <= 2 * (1 + q * q) * (C + al * be * B)).
  { set (m := 1 - q * q) in *. set (M := 2 * (1 + q * q)) in *.
    destruct (Rle_lt_dec (m * (al + be)) M) as [Hs|Hs].
    - assert (0 <= (M - m * (al + be)) * (C - al * al * B)) by (apply Rmult_le_pos; lra).
      pose proof (Rmult_le_compat_r (B * (al + be)) _ _ ltac:(apply Rmult_le_pos; lra) HA) as H1. lra.
    - assert (0 <= (m * (al + be) - M) * (be * be * B - C)) by (apply Rmult_le_pos; lra).
      pose proof (Rmult_le_compat_r (B * (al + be)) _ _ ltac:(apply Rmult_le_pos; lra) HBe) as H1. lra. }
  assert (Hfin2 : (1 - q * q) * (B + C) <= 2 * (1 + q * q) * K).
  { apply (Rmult_le_reg_r (al + be)); [lra|]. apply Rle_trans with (1 := Hfin). replace (2 * (1 + q * q) * K * (al + be)) with (2 * (1 + q * q) * ((al + be) * K)) by ring. apply Rmult_le_compat_l; nra. }
  lra.
Qed.
End M.

(** ** sequences that follow a solver's recursion up to errors, compared with one another *)
Section Seq.
Context {E : IPS}.
Definition pp_seq (e : R) (f : efun E) (t : R) (xs : nat -> E) : Prop := forall j, exists p, is_prox f t (xs j) p /\ norm (xs (S j) [-] p) <= e.
Definition pg_seq (c : R) (df : E -> E) (g : efun E) (t tau eta : R) (xs : nat -> E) : Prop :=
  forall j, exists p, is_prox g t (xs j [-] tau [*] df (xs j)) p /\ norm (xs (S j) [-] (xs j [+] eta [*] (p [-] xs j))) <= c.
Definition dr_seq (e1 e2 : R) (f1 f2 : efun E) (tau eta : R) (xs ys : nat -> E) : Prop :=
  forall j, exists r, (exists p, is_prox f1 tau (ys j) p /\ norm (xs j [-] p) <= e1) /\ (exists p, is_prox f2 tau (2 [*] xs j [-] ys j) p /\ norm (r [-] p) <= e2) /\
    ys (S j) = ys j [+] eta [*] (r [-] xs j).
Definition hqs_seq (e1 e2 : R) (f1 f2 : efun E) (tau : R) (ps qs : nat -> E) : Prop :=
  forall j, (exists p, is_prox f1 tau (qs j) p /\ norm (ps (S j) [-] p) <= e1) /\ (exists p, is_prox f2 tau (ps (S j)) p /\ norm (qs (S j) [-] p) <= e2).

Lemma pp_cmp e e' f t q (xs ys : nat -> E) : prox_lip q f t -> 0 <= q -> pp_seq e f t xs -> pp_seq e' f t ys ->
  forall n, norm (ys n [-] xs n) <= q ^ n * norm (ys 0%nat [-] xs 0%nat) + (e + e') * geom q n.
Proof.
  intros Hl Hq Hx Hy. apply (accumulate (fun n => norm (ys n [-] xs n)) q (e + e') Hq). intro k. destruct (Hx k) as (p & Hp & Hep). destruct (Hy k) as (r & Hr & Her).
  rewrite (Rplus_comm e e'). eapply approx_pair; eauto. 
Qed.
Lemma pg_cmp c c' df g t tau eta qf qg (xs ys : nat -> E) : lipschitz qf (fun x => x [-] tau [*] df x) -> prox_lip qg g t -> 0 <= qf -> 0 <= qg -> 0 <= eta ->
  pg_seq c df g t tau eta xs -> pg_seq c' df g t tau eta ys -> let q := Rabs (1 - eta) + eta * (qg * qf) in
  forall n, norm (ys n [-] xs n) <= q ^ n * norm (ys 0%nat [-] xs 0%nat) + (c + c') * geom q n.
Proof.
  intros Hf Hg Hqf Hqg He Hx Hy q. assert (Hqq : 0 <= qg * qf) by (apply Rmult_le_pos; auto).
  assert (Hq : 0 <= q) by (unfold q; pose proof (Rabs_pos (1 - eta)); assert (0 <= eta * (qg * qf)) by (apply Rmult_le_pos; auto); lra).
  apply (accumulate (fun n => norm (ys n [-] xs n)) q (c + c') Hq). intro k. destruct (Hx k) as (p & Hp & Hep). destruct (Hy k) as (r & Hr & Her).
  rewrite (Rplus_comm c c'). eapply (approx_pair q); eauto. replace (ys k [+] eta [*] (r [-] ys k) [-] (xs k [+] eta [*] (p [-] xs k))) with ((1 - eta) [*] (ys k [-] xs k) [+] eta [*] (r [-] p)) by vring.
  eapply Rle_trans; [apply norm_triangle|]. rewrite !norm_scal, (Rabs_right eta) by lra. pose proof (Hg _ _ _ _ Hr Hp) as H1. pose proof (Hf (ys k) (xs k)) as H2. cbv beta in H2.
  assert (norm (r [-] p) <= qg * qf * norm (ys k [-] xs k)). { eapply Rle_trans; [exact H1|]. rewrite Rmult_assoc. apply Rmult_le_compat_l; auto. }
  unfold q. rewrite Rmult_plus_distr_r. apply Rplus_le_compat_l. rewrite Rmult_assoc. apply Rmult_le_compat_l; auto.
Qed.
Lemma dr_exact f1 f2 tau eta d1 d2 (y y' p p' r r' : E) : refl_lip d1 f1 tau -> refl_lip d2 f2 tau -> 0 <= d1 -> 0 <= d2 -> 0 <= eta ->
  is_prox f1 tau y p -> is_prox f1 tau y' p' -> is_prox f2 tau (2 [*] p [-] y) r -> is_prox f2 tau (2 [*] p' [-] y') r' ->
  norm (y' [+] eta [*] (r' [-] p') [-] (y [+] eta [*] (r [-] p))) <= (Rabs (1 - eta / 2) + eta / 2 * (d1 * d2)) * norm (y' [-] y).
Proof.
  intros H1 H2 Hd1 Hd2 He Hp Hp' Hr Hr'.
  replace (y' [+] eta [*] (r' [-] p') [-] (y [+] eta [*] (r [-] p))) with ((1 - eta / 2) [*] (y' [-] y) [+] (eta / 2) [*] ((2 [*] r' [-] (2 [*] p' [-] y')) [-] (2 [*] r [-] (2 [*] p [-] y)))) by (vext w; field).
  eapply Rle_trans; [apply norm_triangle|]. rewrite !norm_scal, (Rabs_right (eta / 2)) by lra. pose proof (H2 _ _ _ _ Hr' Hr) as G2. pose proof (H1 _ _ _ _ Hp' Hp) as G1.
  assert (norm (2 [*] r' [-] (2 [*] p' [-] y') [-] (2 [*] r [-] (2 [*] p [-] y))) <= d1 * d2 * norm (y' [-] y)). { eapply Rle_trans; [exact G2|]. rewrite (Rmult_comm d1), Rmult_assoc. apply Rmult_le_compat_l; auto. }
  rewrite Rmult_plus_distr_r. apply Rplus_le_compat_l. rewrite Rmult_assoc. apply Rmult_le_compat_l; [lra|auto].
Qed.
Lemma dr_cmp e1 e2 e1' e2' f1 f2 tau eta d1 d2 (xs ys xs' ys' : nat -> E) : prox_lip 1 f1 tau -> prox_lip 1 f2 tau -> refl_lip d1 f1 tau -> refl_lip d2 f2 tau -> 0 <= d1 -> 0 <= d2 -> 0 <= eta ->
  (forall x, exists p, is_prox f2 tau x p) -> dr_seq e1 e2 f1 f2 tau eta xs ys -> dr_seq e1' e2' f1 f2 tau eta xs' ys' -> let q := Rabs (1 - eta / 2) + eta / 2 * (d1 * d2) in
  forall n, norm (ys' n [-] ys n) <= q ^ n * norm (ys' 0%nat [-] ys 0%nat) + eta * (3 * (e1 + e1') + (e2 + e2')) * geom q n /\
    norm (xs' n [-] xs n) <= norm (ys' n [-] ys n) + (e1 + e1').
Proof.
  intros P1 P2 H1 H2 Hd1 Hd2 He Hex Hx Hy q. assert (Hq : 0 <= q). { unfold q. pose proof (Rabs_pos (1 - eta / 2)). assert (0 <= eta / 2 * (d1 * d2)) by (repeat apply Rmult_le_pos; lra). lra. }
  assert (G : forall e1 e2 (xs ys : nat -> E), dr_seq e1 e2 f1 f2 tau eta xs ys -> forall k, exists p r, is_prox f1 tau (ys k) p /\ is_prox f2 tau (2 [*] p [-] ys k) r /\ norm (xs k [-] p) <= e1 /\ norm (ys (S k) [-] (ys k [+] eta [*] (r [-] p))) <= eta * (3 * e1 + e2)).
  { clear - P2 He Hex. intros e1 e2 xs ys Hx k. destruct (Hx k) as (w & (p & Hp & Hep) & (r & Hr & Her) & Hw). destruct (Hex (2 [*] p [-] ys k)) as [r0 Hr0]. exists p, r0. split; [exact Hp|]. split; [exact Hr0|]. split; [exact Hep|].
    rewrite Hw. replace (ys k [+] eta [*] (w [-] xs k) [-] (ys k [+] eta [*] (r0 [-] p))) with (eta [*] ((w [-] r0) [-] (xs k [-] p))) by vring. rewrite norm_scal, Rabs_right by lra. apply Rmult_le_compat_l; [exact He|].
    pose proof (P2 _ _ _ _ Hr Hr0) as H. replace (2 [*] xs k [-] ys k [-] (2 [*] p [-] ys k)) with (2 [*] (xs k [-] p)) in H by vring. rewrite norm_scal, (Rabs_right 2) in H by lra.
    pose proof (tri3 w r r0). replace (w [-] r0 [-] (xs k [-] p)) with ((w [-] r0) [+] (-1) [*] (xs k [-] p)) by vring. eapply Rle_trans; [apply norm_triangle|]. rewrite norm_scal, (Rabs_left (-1)) by lra. lra. }
  intro n. split.
  - revert n. apply (accumulate (fun n => norm (ys' n [-] ys n)) q (eta * (3 * (e1 + e1') + (e2 + e2'))) Hq). intro k.
    destruct (G _ _ _ _ Hx k) as (p & r & Hp & Hr & _ & Hn). destruct (G _ _ _ _ Hy k) as (p' & r' & Hp' & Hr' & _ & Hn').
    pose proof (dr_exact f1 f2 tau eta d1 d2 _ _ _ _ _ _ H1 H2 Hd1 Hd2 He Hp Hp' Hr Hr') as Hd. fold q in Hd. pose proof (approx_pair q _ _ _ _ _ _ _ Hn' Hn Hd). lra.
  - destruct (G _ _ _ _ Hx n) as (p & r & Hp & Hr & Hn & _). destruct (G _ _ _ _ Hy n) as (p' & r' & Hp' & Hr' & Hn' & _). pose proof (P1 _ _ _ _ Hp' Hp) as Hd. pose proof (approx_pair q _ _ _ _ _ _ _ Hn' Hn Hd). lra.
Qed.
Lemma hqs_cmp e1 e2 e1' e2' f1 f2 tau q1 q2 (ps qs ps' qs' : nat -> E) : prox_lip q1 f1 tau -> prox_lip q2 f2 tau -> 0 <= q1 -> 0 <= q2 ->
  hqs_seq e1 e2 f1 f2 tau ps qs -> hqs_seq e1' e2' f1 f2 tau ps' qs' -> let q := q1 * q2 in
  forall n, norm (qs' n [-] qs n) <= q ^ n * norm (qs' 0%nat [-] qs 0%nat) + (e2 + e2' + q2 * (e1 + e1')) * geom q n /\
    norm (ps' (S n) [-] ps (S n)) <= q1 * norm (qs' n [-] qs n) + (e1 + e1').
Proof.
  intros H1 H2 Hq1 Hq2 Hx Hy q. assert (Hq : 0 <= q) by (apply Rmult_le_pos; auto).
  assert (Hp : forall n, norm (ps' (S n) [-] ps (S n)) <= q1 * norm (qs' n [-] qs n) + (e1 + e1')).
  { intro n. destruct (Hx n) as [(p & Hp & Hep) _]. destruct (Hy n) as [(p' & Hp' & Hep') _]. rewrite (Rplus_comm e1). eapply (approx_pair q); eauto. }
  intro n. split; [|apply Hp]. revert n. apply (accumulate (fun n => norm (qs' n [-] qs n)) q _ Hq). intro k.
  destruct (Hx k) as [_ (p & Hp2 & Hep)]. destruct (Hy k) as [_ (p' & Hp' & Hep')]. pose proof (approx_pair q _ _ _ _ _ _ _ Hep' Hep (H2 _ _ _ _ Hp' Hp2)) as H. specialize (Hp k).
  apply Rle_trans with (1 := H). pose proof (Rmult_le_compat_l q2 _ _ Hq2 Hp) as H3. unfold q. lra.
Qed.
End Seq.
