(** * Facts about differentiable functions on an inner product space *)
From Verif Require Import Base Space Spec.

Lemma mvt_le f f' a b : a <= b -> (forall c, a <= c <= b -> derivable_pt_lim f c (f' c)) ->
  (forall c, a < c < b -> 0 <= f' c) -> f a <= f b.
Proof.
  intros Hab Hd Hp. destruct (Req_dec a b) as [->|Hne]; [lra|].
  destruct (MVT_cor2 f f' a b ltac:(lra) Hd) as [c [H1 H2]]. specialize (Hp c H2). nra.
Qed.
Lemma mvt_ge f f' a b : a <= b -> (forall c, a <= c <= b -> derivable_pt_lim f c (f' c)) ->
  (forall c, a < c < b -> f' c <= 0) -> f b <= f a.
Proof.
  intros Hab Hd Hp. destruct (Req_dec a b) as [->|Hne]; [lra|].
  destruct (MVT_cor2 f f' a b ltac:(lra) Hd) as [c [H1 H2]]. specialize (Hp c H2). nra.
Qed.

Section S.
Context {E : IPS}.
Implicit Types (x y d g : E).

Lemma line_deriv (f : E -> R) x d g t : is_grad f (x [+] t [*] d) g ->
  derivable_pt_lim (fun s => f (x [+] s [*] d)) t (<< g, d >>).
Proof.
  intros H eps Heps. pose proof (norm_nonneg d) as Hd.
  assert (Hq : 0 < eps / (2 * (norm d + 1))) by (apply Rdiv_lt_0_compat; lra).
  destruct (H _ Hq) as [delta [Hdl Hb]].
  assert (Hp : 0 < delta / (norm d + 1)) by (apply Rdiv_lt_0_compat; lra).
  exists (mkposreal _ Hp). simpl. intros h Hh Hlt.
  specialize (Hb (h [*] d)). rewrite norm_scal in Hb.
  assert (Hle : Rabs h * norm d <= delta).
  { apply Rle_trans with (delta / (norm d + 1) * (norm d + 1)); [|right; field; lra].
    apply Rmult_le_compat; try lra. apply Rabs_pos. }
  specialize (Hb Hle).
  replace (x [+] t [*] d [+] h [*] d) with (x [+] (t + h) [*] d) in Hb by vring.
  rewrite inner_scal_r in Hb.
  replace ((f (x [+] (t + h) [*] d) - f (x [+] t [*] d)) / h - << g, d >>)
    with ((f (x [+] (t + h) [*] d) - f (x [+] t [*] d) - h * << g, d >>) / h) by (field; auto).
  unfold Rdiv at 1. rewrite Rabs_mult, Rabs_inv.
  assert (Hh0 : 0 < Rabs h) by (apply Rabs_pos_lt; auto).
  apply Rle_lt_trans with (eps / (2 * (norm d + 1)) * (Rabs h * norm d) * / Rabs h).
  - apply Rmult_le_compat_r; auto. left; apply Rinv_0_lt_compat; auto.
  - replace (eps / (2 * (norm d + 1)) * (Rabs h * norm d) * / Rabs h) with (eps * (norm d / (2 * (norm d + 1)))) by (field; split; lra).
    rewrite <- (Rmult_1_r eps) at 2. apply Rmult_lt_compat_l; auto.
    apply (Rmult_lt_reg_r (2 * (norm d + 1))); [lra|]. unfold Rdiv. rewrite Rmult_assoc, Rinv_l by lra. lra.
Qed.

(** Gradients are unique. *)
Lemma grad_unique (f : E -> R) x g1 g2 : is_grad f x g1 -> is_grad f x g2 -> g1 = g2.
Proof.
  intros H1 H2. apply vsub_eq. apply norm2_eq0.
  set (d := g1 [-] g2).
  assert (Ha : << g1, d >> = << g2, d >>).
  { eapply uniqueness_limite; apply (line_deriv f x d _ 0).
    - replace (x [+] 0 [*] d) with x by vring. auto.
    - replace (x [+] 0 [*] d) with x by vring. auto. }
  unfold norm2. unfold d at 1. rewrite inner_sub_l. lra.
Qed.

(** First-order condition of convexity. *)
Lemma convex_grad_ineq (f : E -> R) x y g : convex (etot f) -> is_grad f x g ->
  f x + << g, y [-] x >> <= f y.
Proof.
  intros Hc Hg. set (d := y [-] x).
  assert (Hl : derivable_pt_lim (fun s => f (x [+] s [*] d)) 0 (<< g, d >>)).
  { apply line_deriv. replace (x [+] 0 [*] d) with x by vring. auto. }
  destruct (Rle_dec (f x + << g, d >>) (f y)) as [|Hn]; auto. exfalso.
  assert (He : 0 < f x + << g, d >> - f y) by lra.
  destruct (Hl _ He) as [delta Hd]. pose proof (cond_pos delta) as Hdp.
  set (h := Rmin (delta / 2) 1).
  assert (Hh : 0 < h <= 1) by (unfold h, Rmin; destruct (Rle_dec (delta / 2) 1); lra).
  assert (Hh2 : h < delta) by (unfold h, Rmin; destruct (Rle_dec (delta / 2) 1); lra).
  specialize (Hd h ltac:(lra)). rewrite Rabs_right in Hd by lra. specialize (Hd Hh2).
  rewrite Rplus_0_l in Hd. replace (x [+] 0 [*] d) with x in Hd by vring.
  destruct (Hc x y h I I ltac:(lra)) as [_ Hv]. cbn [eval etot] in Hv.
  replace ((1 - h) [*] x [+] h [*] y) with (x [+] h [*] d) in Hv by (unfold d; vring).
  assert (Hq : (f (x [+] h [*] d) - f x) / h <= f y - f x).
  { apply (Rmult_le_reg_r h); [lra|]. unfold Rdiv. rewrite Rmult_assoc, Rinv_l by lra. lra. }
  unfold Rabs in Hd. destruct (Rcase_abs _) in Hd; lra.
Qed.

(** The descent lemma. *)
Lemma descent_lemma (f : E -> R) (df : E -> E) L x y : L_smooth f df L ->
  f y <= f x + << df x, y [-] x >> + L / 2 * norm2 (y [-] x).
Proof.
  intros [Hg HL]. set (d := y [-] x).
  set (psi := fun t => f (x [+] t [*] d) - (t * << df x, d >> + L / 2 * norm2 d * (t * t))).
  set (psi' := fun t => << df (x [+] t [*] d), d >> - (1 * << df x, d >> + L / 2 * norm2 d * (1 * t + t * 1))).
  assert (H : psi 1 <= psi 0).
  { apply (mvt_ge psi psi'); [lra| |].
    - intros c _. unfold psi, psi'. apply derivable_pt_lim_minus; [apply line_deriv; auto|].
      apply derivable_pt_lim_plus.
      + replace (1 * << df x, d >>) with (1 * << df x, d >> + c * 0) by ring.
        apply (derivable_pt_lim_mult id (fun _ => << df x, d >>)); [apply derivable_pt_lim_id|apply derivable_pt_lim_const].
      + apply (derivable_pt_lim_scal (fun t => t * t)).
        apply (derivable_pt_lim_mult id id); apply derivable_pt_lim_id.
    - intros c Hc. unfold psi'.
      assert (Hi : << df (x [+] c [*] d), d >> - << df x, d >> <= L * c * norm2 d); [|lra].
      rewrite <- inner_sub_l. eapply Rle_trans; [apply CS|].
      specialize (HL (x [+] c [*] d) x). replace (x [+] c [*] d [-] x) with (c [*] d) in HL by vring.
      rewrite norm_scal, Rabs_right in HL by lra.
      apply Rle_trans with (L * (c * norm d) * norm d).
      + apply Rmult_le_compat_r; auto. apply norm_nonneg.
      + rewrite <- norm_sq. right; ring. }
  unfold psi in H. replace (x [+] 1 [*] d) with y in H by (unfold d; vring).
  replace (x [+] 0 [*] d) with x in H by vring. lra.
Qed.

Lemma L_smooth_convex (f : E -> R) (df : E -> E) L : convex (etot f) -> L_smooth f df L -> smooth_convex f df L.
Proof.
  intros Hc Hs. split; intros x y.
  - apply convex_grad_ineq; auto. apply Hs.
  - apply descent_lemma; auto.
Qed.

(** At a minimum the gradient vanishes, and conversely for convex f. *)
Lemma grad_zero_min (f : E -> R) x : convex (etot f) -> is_grad f x vzero -> is_min (etot f) x.
Proof.
  intros Hc Hg. split; [exact I|]. intros y _. simpl.
  pose proof (convex_grad_ineq f x y vzero Hc Hg) as H. rewrite inner_zero_l in H. lra.
Qed.

(** A convex function plus a differentiable one: optimality condition. *)
Lemma min_sum_subgrad (f : E -> R) (g : efun E) x d : convex (etot f) -> is_grad f x d ->
  is_subgrad g x (vopp d) -> is_min (eadd (etot f) g) x.
Proof.
  intros Hc Hg [Hx Hs]. split; [split; [exact I|auto]|]. intros y [_ Hy]. cbn [eval eadd etot].
  pose proof (convex_grad_ineq f x y d Hc Hg) as H. specialize (Hs y Hy). rewrite inner_opp_l in Hs. lra.
Qed.

Lemma small_t a b : 0 <= b -> (forall t, 0 < t <= 1 -> - (t * b) <= a) -> 0 <= a.
Proof.
  intros Hb H. destruct (Rle_dec 0 a) as [|Hn]; auto. exfalso.
  set (t := Rmin 1 (- a / (2 * (b + 1)))).
  assert (Hq : 0 < - a / (2 * (b + 1))) by (apply Rdiv_lt_0_compat; lra).
  assert (Ht : 0 < t <= 1) by (unfold t, Rmin; destruct (Rle_dec 1 _); lra).
  specialize (H t Ht).
  assert (Ht2 : t * (2 * (b + 1)) <= - a).
  { apply Rle_trans with (- a / (2 * (b + 1)) * (2 * (b + 1))); [|right; field; lra].
    apply Rmult_le_compat_r; [lra|]. apply Rmin_r. }
  nra.
Qed.

Lemma min_sum_subgrad_inv (f : E -> R) (df : E -> E) L (g : efun E) x : 0 <= L -> smooth_convex f df L -> convex g ->
  is_min (eadd (etot f) g) x -> is_subgrad g x (vopp (df x)).
Proof.
  intros HL [_ Hs] Hc [[_ Hx] Hm]. split; auto. intros y Hy. rewrite inner_opp_l.
  set (d := y [-] x).
  cut (0 <= << df x, d >> + (eval g y - eval g x)); [lra|].
  apply small_t with (L / 2 * norm2 d); [apply Rmult_le_pos; [lra|apply norm2_nonneg]|].
  intros t Ht. destruct (Hc x y t Hx Hy ltac:(lra)) as [Hd Hv].
  replace ((1 - t) [*] x [+] t [*] y) with (x [+] t [*] d) in * by (unfold d; vring).
  specialize (Hm (x [+] t [*] d) (conj I Hd)). cbn [eval eadd etot] in Hm.
  specialize (Hs x (x [+] t [*] d)). replace (x [+] t [*] d [-] x) with (t [*] d) in Hs by vring.
  rewrite inner_scal_r, norm2_scal in Hs.
  apply (Rmult_le_reg_l t); [lra|]. nra.
Qed.

Lemma eq_scal_subgrad (g : efun E) s x u : 0 < s -> (is_subgrad (escal s g) x u <-> is_subgrad g x (/ s [*] u)).
Proof.
  intro Hs. split; intros [Hx H]; (split; [exact Hx|]); intros y Hy; specialize (H y Hy); cbn [eval escal] in *;
    rewrite ?inner_scal_l in *.
  - apply (Rmult_le_reg_l s); auto. rewrite Rmult_plus_distr_l, <- Rmult_assoc, Rinv_r by lra. lra.
  - apply (Rmult_le_compat_l s) in H; [|lra]. rewrite Rmult_plus_distr_l, <- Rmult_assoc, Rinv_r in H by lra. lra.
Qed.
End S.
