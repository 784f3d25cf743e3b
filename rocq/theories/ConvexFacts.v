(** * Facts about the specification layer (no model code here) *)
From Verif Require Import Base Space Spec.
From Coq Require Import Psatz.

Section Facts.
Context {E : IPS}.
Implicit Types f g : efun E.
Implicit Types x y z p q : E.

(** Sufficient condition: a subgradient certificate (any f). *)
Lemma subgrad_prox f tau x p :
  0 < tau -> is_subgrad f p (/ tau [*] (x [-] p)) -> is_prox f tau x p.
Proof.
  intros Ht [Hd Hs]; split; auto. intros y Hy. specialize (Hs y Hy).
  assert (0 < / tau) by (apply Rinv_0_lt_compat; auto).
  assert (Hh : / (2 * tau) = / tau / 2) by (field; lra). rewrite Hh.
  pose proof (norm2_nonneg (y [-] p)) as Hn.
  replace (norm2 (y [-] x)) with (norm2 (y [-] p) - 2 * << x [-] p, y [-] p >> + norm2 (p [-] x))
    by iring.
  rewrite inner_scal_l in Hs. nra.
Qed.

(** The same with the quadratic growth that gives uniqueness and rates. *)
Lemma subgrad_prox_strong f tau x p :
  0 < tau -> is_subgrad f p (/ tau [*] (x [-] p)) ->
  forall y, edom f y ->
    eval f p + / (2 * tau) * norm2 (p [-] x) + / (2 * tau) * norm2 (y [-] p)
      <= eval f y + / (2 * tau) * norm2 (y [-] x).
Proof.
  intros Ht [Hd Hs] y Hy. specialize (Hs y Hy).
  assert (Hh : / (2 * tau) = / tau / 2) by (field; lra). rewrite Hh.
  replace (norm2 (y [-] x)) with (norm2 (y [-] p) - 2 * << x [-] p, y [-] p >> + norm2 (p [-] x))
    by iring.
  rewrite inner_scal_l in Hs. nra.
Qed.

(** Necessary for convex f. *)
Lemma prox_subgrad f tau x p :
  convex f -> 0 < tau -> is_prox f tau x p -> is_subgrad f p (/ tau [*] (x [-] p)).
Proof.
  intros Hc Ht [Hd Hm]; split; auto. intros y Hy.
  rewrite inner_scal_l.
  set (a := / (2 * tau)) in *.
  assert (Ha : 0 < a) by (apply Rinv_0_lt_compat; lra).
  assert (Hta : / tau = 2 * a) by (unfold a; field; lra). rewrite Hta.
  assert (Hn : 0 <= norm2 (y [-] p)) by apply norm2_nonneg.
  assert (Key : forall t, 0 < t <= 1 ->
    eval f p + 2 * a * << x [-] p, y [-] p >> <= eval f y + a * t * norm2 (y [-] p)).
  { intros t Ht'. destruct (Hc p y t Hd Hy ltac:(lra)) as [Hd' Hv].
    specialize (Hm _ Hd').
    replace (norm2 ((1 - t) [*] p [+] t [*] y [-] x))
      with (norm2 (p [-] x) - 2 * t * << x [-] p, y [-] p >> + t * t * norm2 (y [-] p)) in Hm by iring.
    assert (Hm' : t * (eval f p + 2 * a * << x [-] p, y [-] p >>) <= t * (eval f y + a * t * norm2 (y [-] p))) by nra.
    apply Rmult_le_reg_l with t; lra. }
  destruct (Rle_or_lt (eval f p + 2 * a * << x [-] p, y [-] p >>) (eval f y)) as [|Hlt]; auto.
  exfalso.
  set (d := eval f p + 2 * a * << x [-] p, y [-] p >> - eval f y) in *.
  assert (Hd0 : 0 < d) by (unfold d; lra).
  set (c := a * norm2 (y [-] p)) in *.
  assert (Hc0 : 0 <= c) by (unfold c; nra).
  set (t := Rmin 1 (d / (2 * (c + 1)))).
  assert (Ht1 : 0 < t <= 1).
  { unfold t; split; [apply Rmin_glb_lt; [lra|] | apply Rmin_l].
    apply Rdiv_lt_0_compat; lra. }
  assert (Ht2 : t <= d / (2 * (c + 1))) by apply Rmin_r.
  specialize (Key t Ht1).
  assert (d <= t * c) by (unfold c, d; lra).
  assert (Hbad : t * (c + 1) <= d / 2).
  { apply Rle_trans with (d / (2 * (c + 1)) * (c + 1)).
    - apply Rmult_le_compat_r; lra.
    - apply Req_le; field; lra. }
  nra.
Qed.

Lemma prox_iff_subgrad f tau x p :
  convex f -> 0 < tau -> (is_prox f tau x p <-> is_subgrad f p (/ tau [*] (x [-] p))).
Proof. intros Hc Ht; split; [apply prox_subgrad | apply subgrad_prox]; auto. Qed.

Lemma subgrad_mono f x y u v :
  is_subgrad f x u -> is_subgrad f y v -> 0 <= << u [-] v, x [-] y >>.
Proof.
  intros [Hx Hu] [Hy Hv]. specialize (Hu y Hy). specialize (Hv x Hx).
  replace (<< u [-] v, x [-] y >>) with (- << u, y [-] x >> - << v, x [-] y >>) by iring.
  lra.
Qed.

Lemma subgrad_prox_unique f tau x p q :
  0 < tau -> is_subgrad f p (/ tau [*] (x [-] p)) -> is_prox f tau x q -> p = q.
Proof.
  intros Ht Hp [Hq Hqm].
  pose proof (subgrad_prox_strong f tau x p Ht Hp q Hq) as H1.
  specialize (Hqm p (proj1 Hp)).
  assert (0 < / (2 * tau)) by (apply Rinv_0_lt_compat; lra).
  symmetry. apply norm2_sub_eq0. pose proof (norm2_nonneg (q [-] p)). nra.
Qed.

Lemma prox_unique f tau x p q :
  convex f -> 0 < tau -> is_prox f tau x p -> is_prox f tau x q -> p = q.
Proof. intros Hc Ht Hp Hq. eapply subgrad_prox_unique; eauto. apply prox_subgrad; auto. Qed.

(** Firm non-expansiveness. *)
Lemma prox_firm f tau x y p q :
  convex f -> 0 < tau -> is_prox f tau x p -> is_prox f tau y q ->
  norm2 (p [-] q) <= << p [-] q, x [-] y >>.
Proof.
  intros Hc Ht Hp Hq.
  apply prox_subgrad in Hp; auto. apply prox_subgrad in Hq; auto.
  pose proof (subgrad_mono _ _ _ _ _ Hp Hq) as H.
  replace (<< / tau [*] (x [-] p) [-] / tau [*] (y [-] q), p [-] q >>)
    with (/ tau * (<< p [-] q, x [-] y >> - norm2 (p [-] q))) in H by iring.
  assert (0 < / tau) by (apply Rinv_0_lt_compat; auto).
  assert (0 <= << p [-] q, x [-] y >> - norm2 (p [-] q)); [|lra].
  apply Rmult_le_reg_l with (/ tau); auto. lra.
Qed.

Lemma prox_nonexp f tau x y p q :
  convex f -> 0 < tau -> is_prox f tau x p -> is_prox f tau y q ->
  norm (p [-] q) <= norm (x [-] y).
Proof.
  intros Hc Ht Hp Hq. pose proof (prox_firm f tau x y p q Hc Ht Hp Hq) as H.
  pose proof (CS (p [-] q) (x [-] y)) as HC. rewrite <- norm_sq in H.
  pose proof (norm_nonneg (p [-] q)). pose proof (norm_nonneg (x [-] y)).
  destruct (Req_dec (norm (p [-] q)) 0); nra.
Qed.

(** Fixed points of a prox are minimisers and conversely. *)
Lemma subgrad_zero_min f x : is_subgrad f x vzero <-> is_min f x.
Proof.
  split; intros [Hd H]; split; auto; intros y Hy; specialize (H y Hy);
  rewrite ?inner_zero_l in *; lra.
Qed.

Lemma prox_fix_min f tau x : convex f -> 0 < tau -> is_prox f tau x x -> is_min f x.
Proof.
  intros Hc Ht H. apply prox_subgrad in H; auto. apply subgrad_zero_min.
  replace (/ tau [*] (x [-] x)) with (vzero : E) in H by vring. exact H.
Qed.

Lemma min_prox_fix f tau x : 0 < tau -> is_min f x -> is_prox f tau x x.
Proof.
  intros Ht H. apply subgrad_prox; auto. apply subgrad_zero_min in H.
  replace (/ tau [*] (x [-] x)) with (vzero : E) by vring. exact H.
Qed.

(** Projections are the prox of indicators. *)
Lemma proj_prox (C : E -> Prop) tau x p :
  0 < tau -> (is_prox (indic C) tau x p <-> is_proj C x p).
Proof.
  intros Ht. assert (0 < / (2 * tau)) by (apply Rinv_0_lt_compat; lra).
  unfold is_prox, is_proj, indic; simpl.
  split; intros [Hp Hm]; split; auto; intros y Hy; specialize (Hm y Hy).
  - apply norm_le_iff. nra.
  - apply norm_le_iff in Hm. nra.
Qed.

Lemma indic_convex (C : E -> Prop) : convex_set C -> convex (indic C).
Proof. intros H x y t Hx Hy Ht; simpl in *; split; [apply H; auto | lra]. Qed.

(** Variational inequality characterises the projection on a convex set. *)
Lemma vi_proj (C : E -> Prop) x p :
  C p -> (forall y, C y -> << x [-] p, y [-] p >> <= 0) -> is_proj C x p.
Proof.
  intros Hp Hv. apply (proj_prox C 1); [lra|]. apply subgrad_prox; [lra|].
  split; [exact Hp|]. intros y Hy. simpl in *. specialize (Hv y Hy).
  rewrite inner_scal_l. lra.
Qed.

Lemma proj_vi (C : E -> Prop) x p :
  convex_set C -> is_proj C x p -> forall y, C y -> << x [-] p, y [-] p >> <= 0.
Proof.
  intros HC Hp y Hy. apply (proj_prox C 1) in Hp; [|lra].
  apply prox_subgrad in Hp; [|apply indic_convex; auto | lra].
  destruct Hp as [_ H]. specialize (H y Hy). simpl in H. rewrite inner_scal_l in H. lra.
Qed.

Lemma proj_unique (C : E -> Prop) x p q :
  convex_set C -> is_proj C x p -> is_proj C x q -> p = q.
Proof.
  intros HC Hp Hq. apply (proj_prox C 1) in Hp; [|lra]. apply (proj_prox C 1) in Hq; [|lra].
  apply (prox_unique (indic C) 1 x); auto; [apply indic_convex; auto | lra].
Qed.

Lemma proj_id (C : E -> Prop) x : C x -> is_proj C x x.
Proof. intros H; split; auto. intros y _. rewrite vsub_diag, norm_zero. apply norm_nonneg. Qed.

Lemma proj_of_mem (C : E -> Prop) x p : C x -> is_proj C x p -> p = x.
Proof.
  intros Hx [Hp Hm]. specialize (Hm x Hx). rewrite vsub_diag, norm_zero in Hm.
  pose proof (norm_nonneg (p [-] x)). apply norm2_sub_eq0. rewrite <- norm_sq. nra.
Qed.

Lemma proj_nonexp (C : E -> Prop) x y p q :
  convex_set C -> is_proj C x p -> is_proj C y q -> norm (p [-] q) <= norm (x [-] y).
Proof.
  intros HC Hp Hq. apply (proj_prox C 1) in Hp; [|lra]. apply (proj_prox C 1) in Hq; [|lra].
  apply (prox_nonexp (indic C) 1 x y); auto; [apply indic_convex; auto | lra].
Qed.

(** Sums. *)
Lemma subgrad_add f g x u v :
  is_subgrad f x u -> is_subgrad g x v -> is_subgrad (eadd f g) x (u [+] v).
Proof.
  intros [Hf Hu] [Hg Hv]; split; [split; auto|]. intros y [Hyf Hyg]; simpl.
  specialize (Hu y Hyf). specialize (Hv y Hyg). rewrite inner_add_l. lra.
Qed.
Lemma subgrad_scal s f x u : 0 <= s -> is_subgrad f x u -> is_subgrad (escal s f) x (s [*] u).
Proof.
  intros Hs [Hf Hu]; split; auto. intros y Hy; simpl in *. specialize (Hu y Hy).
  rewrite inner_scal_l. nra.
Qed.
Lemma subgrad_lin f v x u : is_subgrad f x u <-> is_subgrad (elin f v) x (u [+] v).
Proof.
  split; intros [Hf Hu]; split; auto; intros y Hy; specialize (Hu y Hy); simpl in *.
  - rewrite inner_add_l, (inner_sub_r v). lra.
  - rewrite inner_add_l, (inner_sub_r v) in Hu. lra.
Qed.
Lemma convex_add f g : convex f -> convex g -> convex (eadd f g).
Proof.
  intros Hf Hg x y t [Hxf Hxg] [Hyf Hyg] Ht; simpl in *.
  destruct (Hf x y t Hxf Hyf Ht), (Hg x y t Hxg Hyg Ht). split; [split; auto | lra].
Qed.
Lemma convex_scal s f : 0 <= s -> convex f -> convex (escal s f).
Proof.
  intros Hs Hf x y t Hx Hy Ht; simpl in *. destruct (Hf x y t Hx Hy Ht). split; auto.
  nra.
Qed.
Lemma convex_lin f v : convex f -> convex (elin f v).
Proof.
  intros Hf x y t Hx Hy Ht; simpl in *. destruct (Hf x y t Hx Hy Ht). split; auto.
  rewrite inner_add_r, !inner_scal_r. lra.
Qed.

(** Conjugates. *)
Lemma conj_fenchel f fs y z : is_conj f fs -> edom f y -> edom fs z -> << z, y >> - eval f y <= eval fs z.
Proof.
  intros [_ H] Hy Hz. destruct (H z) as [_ Hl]. destruct (Hl Hz) as [Hub _].
  apply Hub. exists y; auto.
Qed.

Lemma subgrad_conj f fs p z :
  is_conj f fs -> is_subgrad f p z -> is_subgrad fs z p /\ eval fs z = << z, p >> - eval f p.
Proof.
  intros Hc [Hp Hs].
  destruct Hc as [Hne Hc]. destruct (Hc z) as [Hdom Hl].
  assert (Hbd : forall y, edom f y -> << z, y >> - eval f y <= << z, p >> - eval f p).
  { intros y Hy. specialize (Hs y Hy). rewrite inner_sub_r in Hs. lra. }
  assert (Hz : edom fs z) by (apply Hdom; eexists; exact Hbd).
  specialize (Hl Hz).
  assert (Hval : eval fs z = << z, p >> - eval f p).
  { destruct Hl as [Hub Hleast]. apply Rle_antisym.
    - apply Hleast. intros r [y [Hy ->]]. apply Hbd; auto.
    - apply Hub. exists p; auto. }
  split; auto. split; auto. intros w Hw.
  pose proof (conj_fenchel f fs p w (conj Hne Hc) Hp Hw) as HF.
  rewrite Hval. rewrite inner_sub_r, (inner_sym p w), (inner_sym p z). lra.
Qed.

Lemma conj_convex f fs : is_conj f fs -> convex fs.
Proof.
  intros Hc x y t Hx Hy Ht. destruct Hc as [Hne Hc].
  pose proof (conj_fenchel f fs) as HF.
  set (w := (1 - t) [*] x [+] t [*] y).
  assert (Hb : forall u, edom f u -> << w, u >> - eval f u <= (1 - t) * eval fs x + t * eval fs y).
  { intros u Hu. pose proof (HF u x (conj Hne Hc) Hu Hx). pose proof (HF u y (conj Hne Hc) Hu Hy).
    unfold w; rewrite inner_add_l, !inner_scal_l. nra. }
  assert (Hw : edom fs w) by (apply Hc; eexists; exact Hb).
  split; auto. destruct (Hc w) as [_ Hl]. destruct (Hl Hw) as [_ Hleast].
  apply Hleast. intros r [u [Hu ->]]. auto.
Qed.

(** Moreau decomposition: (x-p)/tau is the prox of the conjugate. *)
Lemma moreau_decomposition f fs tau x p :
  convex f -> is_conj f fs -> 0 < tau -> is_prox f tau x p ->
  is_prox fs (/ tau) (/ tau [*] x) (/ tau [*] (x [-] p)).
Proof.
  intros Hc Hfs Ht Hp. apply prox_subgrad in Hp; auto.
  destruct (subgrad_conj _ _ _ _ Hfs Hp) as [Hs _].
  apply subgrad_prox; [apply Rinv_0_lt_compat; auto|].
  replace (/ / tau [*] (/ tau [*] x [-] / tau [*] (x [-] p))) with p; auto.
  vfield. lra.
Qed.

End Facts.

(** Precomposition with T x = a x + b, a <> 0. *)
Lemma prox_precomp {E : IPS} (f : efun E) a b tau x p :
  a <> 0 -> 0 < tau ->
  is_prox f (a * a * tau) (a [*] x [+] b) p ->
  is_prox (epre f (fun y => a [*] y [+] b)) tau x (/ a [*] (p [-] b)).
Proof.
  intros Ha Ht [Hd Hm].
  assert (Hp : a [*] (/ a [*] (p [-] b)) [+] b = p) by (vfield; auto).
  split; simpl; rewrite Hp; auto. intros y Hy. specialize (Hm _ Hy).
  assert (Ha2 : 0 < a * a) by nra.
  assert (H1 : / (2 * (a * a * tau)) * norm2 (p [-] (a [*] x [+] b)) = / (2 * tau) * norm2 (/ a [*] (p [-] b) [-] x)).
  { ifield. split; lra. }
  assert (H2 : / (2 * (a * a * tau)) * norm2 (a [*] y [+] b [-] (a [*] x [+] b)) = / (2 * tau) * norm2 (y [-] x)).
  { ifield. split; lra. }
  lra.
Qed.
