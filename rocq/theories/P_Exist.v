(** * The problems solved by the library have solutions: closed convex functions with bounded level sets *)
From Coq Require Import String Psatz Classical.
From Verif Require Import Base Space Spec Cplx ConvexFacts Smooth VSum M_ProxOp SpecOps P_ProxOp M_Norms P_Norms M_Loop LoopFacts LoopFacts2 SeqFacts M_PG M_Split M_PD M_Multi SplitMath P_PG P_PG2 P_PG3 P_Split P_Split2 P_Split3 P_PD P_PD2 P_Multi P_Multi2 P_Multi3 S_Seq Compact Fejer P_Iter P_Iter2 P_Iter3 HahnBanach P_Qual ExistMath.
From Verif Require Export S_Exist.
Open Scope result_scope.
Open Scope R_scope.

(*! C85_arrays : the arrays the library works on have the two properties of the space used below: the real numbers, real and complex
   arrays of n entries, products and stacked arrays (no axiom of choice is used) *)
Lemma C85_arrays_l : (complete R_IPS /\ described R_IPS) /\ (forall n, complete (Vec n) /\ described (Vec n)) /\ (forall n, complete (CArr n) /\ described (CArr n)) /\
  (forall E F, complete E -> complete F -> complete (Prod_IPS E F)) /\ (forall E F, described E -> described F -> described (Prod_IPS E F)) /\
  (forall E m, complete E -> complete (Pow E m)) /\ (forall E m, described E -> described (Pow E m)).
Proof.
  split; [split; [exact complete_R|exact described_R]|]. split; [intro n; split; [apply complete_pow, complete_R|apply described_pow, described_R]|].
  split; [intro n; split; [apply complete_pow, complete_prod; apply complete_R|apply described_pow, described_prod; apply described_R]|].
  split; [exact complete_prod|]. split; [exact described_prod|]. split; [exact complete_pow|exact described_pow].
Qed.

(** ** closed functions *)
Lemma closed_ext {E : IPS} (f g : efun E) : (forall x, edom f x <-> edom g x) -> (forall x, edom f x -> eval f x = eval g x) -> closed f -> closed g.
Proof.
  intros H1 H2 Hf l c H. destruct (Hf l c) as [A B].
  - intros eps He. destruct (H eps He) as (x & X1 & X2 & X3). apply H1 in X2. exists x. split; [exact X1|]. split; [exact X2|]. rewrite (H2 x X2). exact X3.
  - split; [apply H1; exact A|]. rewrite <- (H2 l A). exact B.
Qed.
Lemma closed_near {E : IPS} (f : efun E) l : closed f -> edom f l -> forall eps, 0 < eps -> exists d, 0 < d /\ forall x, norm (x [-] l) < d -> edom f x -> eval f l - eps <= eval f x.
Proof.
  intros Hf Hl eps He. apply NNPP. intro Hn. destruct (Hf l (eval f l - eps)) as [_ H]; [|lra]. intros d Hd. apply NNPP. intro Hx. apply Hn. exists d. split; [exact Hd|].
  intros x H1 H2. apply Rnot_lt_le. intro H3. apply Hx. exists x. split; [exact H1|]. split; [exact H2|lra].
Qed.
Lemma minor_near {E : IPS} (f : efun E) l : minorised f -> exists b, forall x, norm (x [-] l) < 1 -> edom f x -> b <= eval f x.
Proof.
  intros (v & c & H). exists (- norm v * (norm l + 1) - c). intros x Hx Hd. specialize (H x Hd). pose proof (CS_abs v x) as H1. pose proof (Rle_abs (- << v, x >>)) as H2. rewrite Rabs_Ropp in H2.
  pose proof (norm_triangle (x [-] l) l) as H3. replace (x [-] l [+] l) with x in H3 by vring.
  assert (norm v * norm x <= norm v * (norm l + 1)) by (apply Rmult_le_compat_l; [apply norm_nonneg|lra]). lra.
Qed.
Lemma closed_add {E : IPS} (f g : efun E) : closed f -> closed g -> minorised f -> minorised g -> closed (eadd f g).
Proof.
  intros Cf Cg Mf Mg l c H. destruct (minor_near f l Mf) as [bf Hbf]. destruct (minor_near g l Mg) as [bg Hbg].
  assert (Df : edom f l).
  { apply (Cf l (c - bg)). intros eps He. destruct (H (Rmin eps 1) (Rmin_pos _ _ He Rlt_0_1)) as (x & H1 & [H2 H3] & H4). pose proof (Rmin_l eps 1). pose proof (Rmin_r eps 1).
    exists x. split; [lra|]. split; [exact H2|]. specialize (Hbg x ltac:(lra) H3). cbn [eval eadd] in H4. lra. }
  assert (Dg : edom g l).
  { apply (Cg l (c - bf)). intros eps He. destruct (H (Rmin eps 1) (Rmin_pos _ _ He Rlt_0_1)) as (x & H1 & [H2 H3] & H4). pose proof (Rmin_l eps 1). pose proof (Rmin_r eps 1).
    exists x. split; [lra|]. split; [exact H3|]. specialize (Hbf x ltac:(lra) H2). cbn [eval eadd] in H4. lra. }
  split; [split; assumption|]. cbn [eval eadd]. apply Rnot_lt_le. intro Hlt. set (e := (eval f l + eval g l - c) / 3). assert (He : 0 < e) by (unfold e; lra).
  destruct (closed_near f l Cf Df e He) as (d1 & Hd1 & N1). destruct (closed_near g l Cg Dg e He) as (d2 & Hd2 & N2).
  destruct (H (Rmin d1 d2) (Rmin_pos _ _ Hd1 Hd2)) as (x & H1 & [H2 H3] & H4). cbn [eval eadd] in H4.
  specialize (N1 x (Rlt_le_trans _ _ _ H1 (Rmin_l _ _)) H2). specialize (N2 x (Rlt_le_trans _ _ _ H1 (Rmin_r _ _)) H3). unfold e in *. lra.
Qed.
Lemma closed_scal {E : IPS} s (f : efun E) : 0 < s -> closed f -> closed (escal s f).
Proof.
  intros Hs Hf l c H. destruct (Hf l (c / s)) as [H1 H2].
  - intros eps He. destruct (H eps He) as (x & X1 & X2 & X3). exists x. split; [exact X1|]. split; [exact X2|]. cbn [eval escal] in X3. apply (Rmult_le_reg_l s); [exact Hs|]. replace (s * (c / s)) with c by (field; lra). exact X3.
  - split; [exact H1|]. cbn [eval escal]. apply (Rmult_le_compat_l s) in H2; [|lra]. replace (s * (c / s)) with c in H2 by (field; lra). exact H2.
Qed.
Lemma inner_cont {E : IPS} (v l : E) eps : 0 < eps -> exists d, 0 < d /\ forall x, norm (x [-] l) < d -> << v, l >> <= << v, x >> + eps.
Proof.
  intro He. pose proof (norm_nonneg v) as Hv. exists (eps / (norm v + 1)). split; [apply Rdiv_lt_0_compat; lra|]. intros x Hx.
  pose proof (CS_abs v (x [-] l)) as H1. pose proof (Rle_abs (- << v, x [-] l >>)) as H2. rewrite Rabs_Ropp in H2.
  replace (<< v, l >>) with (<< v, x >> - << v, x [-] l >>) by (iexp; ring).
  assert (H3 : norm v * norm (x [-] l) <= norm v * (eps / (norm v + 1))) by (apply Rmult_le_compat_l; lra).
  assert (H4 : (norm v + 1) * (eps / (norm v + 1)) = eps) by (field; lra). assert (0 < eps / (norm v + 1)) by (apply Rdiv_lt_0_compat; lra). lra.
Qed.
Lemma closed_lin {E : IPS} (f : efun E) v : closed f -> closed (elin f v).
Proof. intro Hf. apply (closed_plus f (fun x => << v, x >>) Hf). intros l eps He. apply inner_cont. exact He. Qed.
(** composition with a Lipschitz map *)
Lemma closed_pre {E F : IPS} (g : efun F) (T : E -> F) C : closed g -> (forall x y, norm (T x [-] T y) <= C * norm (x [-] y)) -> closed (epre g T).
Proof.
  intros Hg HT l c H. apply (Hg (T l) c). intros eps He. set (K := Rabs C + 1). assert (HK : 0 < K) by (unfold K; pose proof (Rabs_pos C); lra).
  destruct (H (eps / K)) as (x & X1 & X2 & X3); [apply Rdiv_lt_0_compat; lra|]. exists (T x). split; [|split; [exact X2|exact X3]].
  eapply Rle_lt_trans; [apply HT|]. apply Rle_lt_trans with (K * norm (x [-] l)).
  - apply Rmult_le_compat_r; [apply norm_nonneg|]. unfold K. pose proof (Rle_abs C). lra.
  - replace eps with (K * (eps / K)) by (field; lra). apply Rmult_lt_compat_l; assumption.
Qed.
Lemma lip_lin {E F : IPS} (A : linop E F) C : (forall v, norm (A v) <= C * norm v) -> forall x y, norm (A x [-] A y) <= C * norm (x [-] y).
Proof. intros H x y. replace (A x [-] A y) with (A (x [-] y)) by apply lapp_sub. apply H. Qed.
Lemma closed_sub {E : IPS} (h : E -> R) (d : E -> E) : (forall x, is_subgrad (etot h) x (d x)) -> closed (etot h).
Proof.
  intros H l c Hx. split; [exact I|]. cbn [eval etot]. apply Rnot_lt_le. intro Hlt. destruct (inner_cont (d l) l ((h l - c) / 2) ltac:(lra)) as (e & He & Hd). destruct (Hx e He) as (x & X1 & _ & X3). specialize (Hd x X1).
  destruct (H l) as [_ S]. specialize (S x I). cbn [eval etot] in S, X3. replace (<< d l, x [-] l >>) with (<< d l, x >> - << d l, l >>) in S by (iexp; ring). lra.
Qed.
Lemma subgrad_exists {E : IPS} (g : efun E) x : hb E -> convex g -> interior (edom g) x -> exists v, is_subgrad g x v.
Proof.
  intros HE Cg Hi. destruct (mult_one (indic (fun y => y = x)) g x x HE) as (v & _ & Hv).
  - intros a b t Ha Hb Ht. cbn [edom indic] in *. subst. split; [vring|cbn; lra].
  - exact Cg.
  - reflexivity.
  - exact Hi.
  - assert (Dx : edom g x). { destruct Hi as (d & Hd & H). specialize (H vzero). replace (x [+] vzero) with x in H by vring. apply H. rewrite norm_zero. lra. }
    split; [split; [reflexivity|exact Dx]|]. intros y [Y _]. cbn [edom indic] in Y. subst. apply Rle_refl.
  - exists v. exact Hv.
Qed.
Lemma closed_total {E : IPS} (h : E -> R) : hb E -> convex (etot h) -> closed (etot h).
Proof.
  intros HE Hc l c Hx. split; [exact I|]. destruct (subgrad_exists (etot h) l HE Hc) as [v Hv]; [exists 1; split; [lra|intros; exact I]|].
  apply Rnot_lt_le. intro Hlt. cbn [eval etot] in *. destruct (inner_cont v l ((h l - c) / 2) ltac:(lra)) as (e & He & Hd). destruct (Hx e He) as (x & X1 & _ & X3). specialize (Hd x X1).
  destruct Hv as [_ S]. specialize (S x I). cbn [eval etot] in S, X3. replace (<< v, x [-] l >>) with (<< v, x >> - << v, l >>) in S by (iexp; ring). lra.
Qed.
Lemma closed_indic {E : IPS} (C : E -> Prop) : closed_set C <-> closed (indic C) \/ (forall x, ~ C x).
Proof.
  split.
  - intro H. left. intros l c Hx. split.
    + apply H. intros eps He. destruct (Hx eps He) as (x & X1 & X2 & _). exists x. auto.
    + destruct (Hx 1 ltac:(lra)) as (x & _ & _ & X3). exact X3.
  - intros [H|H] l Hx.
    + apply (H l 0). intros eps He. destruct (Hx eps He) as (x & X1 & X2). exists x. split; [exact X1|]. split; [exact X2|cbn; lra].
    + destruct (Hx 1 ltac:(lra)) as (x & _ & X). destruct (H x X).
Qed.
(** a set with nearest points is closed *)
Lemma closed_proj {E : IPS} (C : E -> Prop) : (forall x, exists p, is_prox (indic C) 1 x p) -> closed (indic C).
Proof.
  intros HP. destruct (proj1 (closed_indic C)) as [H|H]; [|exact H|].
  - intros l Hl. destruct (HP l) as [p [Hp Hm]]. assert (Hz : p = l); [|rewrite <- Hz; exact Hp]. apply vsub_eq, norm_eq0. apply Rle_antisym; [|apply norm_nonneg]. apply Rnot_lt_le. intro Hlt.
    destruct (Hl _ Hlt) as (x & X1 & X2). specialize (Hm x X2). cbn [eval indic] in Hm. rewrite <- !norm_sq in Hm. pose proof (norm_nonneg (x [-] l)).
    assert (norm (x [-] l) * norm (x [-] l) < norm (p [-] l) * norm (p [-] l)) by (apply Rmult_le_0_lt_compat; lra). simpl in Hm. lra.
  - intros l c Hx. destruct (Hx 1 ltac:(lra)) as (x & _ & X & _). destruct (H x X).
Qed.

(** ** affine minorants *)
Lemma minor_sub {E : IPS} (f : efun E) x v : is_subgrad f x v -> minorised f.
Proof. intros [_ H]. exists v, (<< v, x >> - eval f x). intros y Hy. specialize (H y Hy). replace (<< v, y [-] x >>) with (<< v, y >> - << v, x >>) in H by (iexp; ring). lra. Qed.
Lemma minor_prox {E : IPS} (f : efun E) : convex f -> (forall x, exists p, is_prox f 1 x p) -> minorised f.
Proof. intros Hc H. destruct (H vzero) as [p Hp]. exact (minor_sub f p _ (prox_subgrad f 1 vzero p Hc Rlt_0_1 Hp)). Qed.
Lemma minor_impl {E : IPS} (o : Op E) (f : efun E) : convex f -> impl_prox o f -> minorised f.
Proof. intros Hc H. apply minor_prox; [exact Hc|]. intro x. destruct (H x 1 Rlt_0_1) as (p & _ & Hp). exists p. exact Hp. Qed.
Lemma minor_add {E : IPS} (f g : efun E) : minorised f -> minorised g -> minorised (eadd f g).
Proof. intros (v & c & H) (w & d & H'). exists (v [+] w), (c + d). intros x [X1 X2]. specialize (H x X1). specialize (H' x X2). cbn [eval eadd]. replace (<< v [+] w, x >>) with (<< v, x >> + << w, x >>) by (iexp; ring). lra. Qed.
Lemma minor_scal {E : IPS} s (f : efun E) : 0 <= s -> minorised f -> minorised (escal s f).
Proof. intros Hs (v & c & H). exists (s [*] v), (s * c). intros x X. specialize (H x X). cbn [eval escal]. replace (<< s [*] v, x >>) with (s * << v, x >>) by (iexp; ring). apply (Rmult_le_compat_l s) in H; [|exact Hs]. lra. Qed.
Lemma minor_lin {E : IPS} (f : efun E) w : minorised f -> minorised (elin f w).
Proof. intros (v & c & H). exists (v [+] w), c. intros x X. specialize (H x X). cbn [eval elin]. replace (<< v [+] w, x >>) with (<< v, x >> + << w, x >>) by (iexp; ring). lra. Qed.
Lemma minor_pre {E F : IPS} (g : efun F) (A : linop E F) : minorised g -> minorised (epre g (lapp A)).
Proof. intros (v & c & H). exists (ladj A v), c. intros x X. specialize (H _ X). cbn [eval epre]. rewrite (inner_sym (ladj A v) x), <- ladj_spec, inner_sym. exact H. Qed.

Lemma esum_S_dom {E : IPS} m (f : nat -> efun E) x : edom (eadd (esum m f) (f m)) x <-> edom (esum (S m) f) x.
Proof. split; [intros [H1 H2] i Hi; destruct (Nat.eq_dec i m) as [->|]; [exact H2|apply H1; lia]|intro H; split; [intros i Hi; apply H; lia|apply H; lia]]. Qed.
Lemma esum_closed {E : IPS} m (f : nat -> efun E) : (forall i, (i < m)%nat -> closed (f i) /\ minorised (f i)) -> closed (esum m f) /\ minorised (esum m f).
Proof.
  induction m as [|m IH]; intro H.
  - split; [intros l c Hx; destruct (Hx 1 ltac:(lra)) as (x & _ & _ & X); split; [intros i Hi; lia|exact X]|]. exists vzero, 0. intros x _. rewrite inner_zero_l. cbn. lra.
  - destruct IH as [C M]; [intros i Hi; apply H; lia|]. destruct (H m ltac:(lia)) as [C' M']. split.
    + apply (closed_ext (eadd (esum m f) (f m))); [apply esum_S_dom|reflexivity|]. apply closed_add; assumption.
    + destruct (minor_add _ _ M M') as (v & c & Hv). exists v, c. intros x Hx. apply Hv. apply esum_S_dom. exact Hx.
Qed.

(** ** bounded level sets *)
Lemma level_add {E : IPS} (f g : efun E) : level_bounded f -> bounded_below g -> level_bounded (eadd f g).
Proof. intros Hf [b Hb] c. destruct (Hf (c - b)) as [M HM]. exists M. intros x [X1 X2] Hx. cbn [eval eadd] in Hx. specialize (Hb x X2). apply HM; [exact X1|lra]. Qed.
Lemma level_fast {E : IPS} (f g : efun E) : fast_growing f -> minorised g -> level_bounded (eadd f g).
Proof.
  intros Hf (v & d & Hd) c. destruct (Hf (norm v) (c + d)) as [M HM]. exists M. intros x [X1 X2] Hx. cbn [eval eadd] in Hx. specialize (Hd x X2). apply HM; [exact X1|].
  pose proof (CS_abs v x) as H1. pose proof (Rle_abs (- << v, x >>)) as H2. rewrite Rabs_Ropp in H2. lra.
Qed.
Lemma level_bdd {E : IPS} (f : efun E) M : (forall x, edom f x -> norm x <= M) -> level_bounded f /\ fast_growing f.
Proof. intro H. split; [intro c; exists M; auto|intros k c; exists M; auto]. Qed.
Lemma fast_strong {E : IPS} s (f : efun E) : 0 < s -> strongly_convex s f -> minorised f -> fast_growing f.
Proof.
  intros Hs Hf (v & d & Hd) k c. destruct (classic (exists x0, edom f x0)) as [[x0 Hx0]|Hn]; [|exists 0; intros x Hx; destruct Hn; exists x; exact Hx].
  set (K := Rabs k + norm v). assert (HK : 0 <= K) by (unfold K; pose proof (Rabs_pos k); pose proof (norm_nonneg v); lra).
  set (C := Rabs c + Rabs (eval f x0) + 2 * Rabs d + Rabs k * norm x0 + norm v * norm x0 * 2). assert (HC : 0 <= C).
  { unfold C. pose proof (Rabs_pos c). pose proof (Rabs_pos (eval f x0)). pose proof (Rabs_pos d). pose proof (Rmult_le_pos _ _ (Rabs_pos k) (norm_nonneg x0)). pose proof (Rmult_le_pos _ _ (norm_nonneg v) (norm_nonneg x0)). lra. }
  exists (norm x0 + (4 / s) * (K + C) + 1). intros x Hx Hle. destruct (strong_mid s f x0 x Hf Hx0 Hx) as [H1 H2]. specialize (Hd _ H1).
  replace (<< v, / 2 [*] (x0 [+] x) >>) with (<< v, x0 >> + / 2 * << v, x [-] x0 >>) in Hd by (iexp; field).
  pose proof (CS_abs v x0) as A1. pose proof (Rle_abs (- << v, x0 >>)) as A2. rewrite Rabs_Ropp in A2. pose proof (CS_abs v (x [-] x0)) as A3. pose proof (Rle_abs (- << v, x [-] x0 >>)) as A4. rewrite Rabs_Ropp in A4.
  pose proof (norm_triangle (x [-] x0) x0) as A5. replace (x [-] x0 [+] x0) with x in A5 by vring.
  assert (A6 : k * norm x <= Rabs k * (norm (x [-] x0) + norm x0)). { apply Rle_trans with (Rabs k * norm x); [apply Rmult_le_compat_r; [apply norm_nonneg|apply Rle_abs]|apply Rmult_le_compat_l; [apply Rabs_pos|exact A5]]. }
  pose proof (Rle_abs c) as A7. pose proof (Rle_abs (eval f x0)) as A8. pose proof (Rle_abs d) as A9.
  rewrite <- norm_sq, (norm_sub_sym x0 x) in H2. set (t := norm (x [-] x0)) in *. assert (Ht : 0 <= t) by apply norm_nonneg.
  assert (Q : s / 4 * (t * t) <= K * t + C) by (unfold K, C; simpl in H2; nra).
  assert (T : t <= 4 / s * (K + C) + 1); [|lra]. apply Rnot_lt_le. intro Hlt. assert (H4 : 0 <= 4 / s * (K + C)) by (apply Rmult_le_pos; [left; apply Rdiv_lt_0_compat; lra|lra]).
  assert (B1 : s / 4 * (4 / s * (K + C)) = K + C) by (field; lra). assert (B2 : s / 4 * t > K + C). { rewrite <- B1. apply Rmult_lt_compat_l; lra. }
  assert (B3 : (K + C) * t < s / 4 * t * t) by (apply Rmult_lt_compat_r; lra). assert (B4 : C * 1 <= C * t) by (apply Rmult_le_compat_l; lra). nra.
Qed.

(** ** existence *)
Lemma exist_pre {E F : IPS} (f : efun E) (g : efun F) (A : linop E F) C : bw E -> complete E -> described E -> convex f -> convex g -> closed f -> closed g -> minorised f -> minorised g ->
  (forall v, norm (A v) <= C * norm v) -> (exists x, edom f x /\ edom g (A x)) -> level_bounded (eadd f (epre g (lapp A))) -> exists m, is_min (eadd f (epre g (lapp A))) m.
Proof.
  intros HB HE HU Cf Cg Lf Lg Mf Mg HA Hx Hl. apply convex_min; auto.
  - apply convex_add; [exact Cf|apply convex_pre; exact Cg].
  - apply closed_add; auto; [apply (closed_pre g (lapp A) C Lg), lip_lin, HA|apply minor_pre, Mg].
  - apply minor_add; [exact Mf|apply minor_pre, Mg].
Qed.

(*! C85_existence : f, g convex and closed, each above some affine function, A a bounded linear operator, some point where f(x) + g(A x) is
   finite, the sets {f + g(A .) <= c} bounded, finite dimension: f + g(A .) has a minimiser.
   f strongly convex instead: exactly one minimiser, and the value grows quadratically away from it.
   Every function with an exact proximal operator is above an affine function *)
Lemma C85_existence_l :
  (forall (E F : IPS) (f : efun E) (g : efun F) (A : linop E F) C, bw E -> complete E -> described E -> convex f -> convex g -> closed f -> closed g -> minorised f -> minorised g ->
     (forall v, norm (A v) <= C * norm v) -> (exists x, edom f x /\ edom g (A x)) -> level_bounded (eadd f (epre g (lapp A))) -> exists m, is_min (eadd f (epre g (lapp A))) m) /\
  (forall (E F : IPS) s (f : efun E) (g : efun F) (A : linop E F) C, complete E -> 0 < s -> strongly_convex s f -> convex g -> closed f -> closed g -> minorised f -> minorised g ->
     (forall v, norm (A v) <= C * norm v) -> (exists x, edom f x /\ edom g (A x)) ->
     exists m, is_min (eadd f (epre g (lapp A))) m /\ (forall y, edom f y -> edom g (A y) -> eval f m + eval g (A m) + s / 4 * norm2 (y [-] m) <= eval f y + eval g (A y)) /\
       forall y, is_min (eadd f (epre g (lapp A))) y -> y = m) /\
  (forall (E : IPS) (o : Op E) (f : efun E), convex f -> impl_prox o f -> minorised f).
Proof.
  split; [exact @exist_pre|]. split; [|exact @minor_impl].
  intros E F s f g A C HE Hs Sf Cg Lf Lg Mf Mg HA Hx. set (phi := eadd f (epre g (lapp A))).
  destruct (strong_min s phi) as (m & Hm & Hg); auto.
  - intros x y t [X1 X2] [Y1 Y2] Ht. destruct (Sf x y t X1 Y1 Ht) as [H1 H2]. destruct (Cg (A x) (A y) t X2 Y2 Ht) as [H3 H4]. cbn [edom eval phi eadd epre] in *. rewrite lapp_add, !lapp_scal. split; [split; assumption|]. lra.
  - apply closed_add; auto; [apply (closed_pre g (lapp A) C Lg), lip_lin, HA|apply minor_pre, Mg].
  - apply minor_add; [exact Mf|apply minor_pre, Mg].
  - exists m. split; [exact Hm|]. split; [intros y H1 H2; exact (Hg y (conj H1 H2))|]. intros y Hy. specialize (Hg y (proj1 Hy)). pose proof (proj2 Hy m (proj1 Hm)) as H.
    apply vsub_eq, norm2_eq0. apply Rle_antisym; [|apply norm2_nonneg]. apply (Rmult_le_reg_l (s / 4)); [lra|]. lra.
Qed.

(*! C85_bounded : ways to see that the sets {f + g(A .) <= c} are bounded: f has bounded level sets and g is bounded below; f grows faster than
   every multiple of the norm and g is anything with an exact proximal operator; f is finite only on a bounded set; f strongly convex
   (for instance s/2 |. - b|^2); |.| itself *)
Lemma C85_bounded_l :
  (forall (E F : IPS) (f : efun E) (g : efun F) (A : linop E F), level_bounded f -> bounded_below g -> level_bounded (eadd f (epre g (lapp A)))) /\
  (forall (E F : IPS) (f : efun E) (g : efun F) (A : linop E F), fast_growing f -> minorised g -> level_bounded (eadd f (epre g (lapp A)))) /\
  (forall (E : IPS) (f : efun E) M, (forall x, edom f x -> norm x <= M) -> level_bounded f /\ fast_growing f) /\
  (forall (E : IPS) s (f : efun E), 0 < s -> strongly_convex s f -> minorised f -> fast_growing f) /\
  (forall (E : IPS) s (b : E), 0 < s -> strongly_convex s (etot (fun x => s / 2 * norm2 (x [-] b)))) /\
  (forall (E : IPS) s, 0 < s -> level_bounded (etot (fun x : E => s * norm x))).
Proof.
  split; [intros E F f g A Hf [c Hc]; apply level_add; [exact Hf|exists c; intros x Hx; apply Hc; exact Hx]|].
  split; [intros E F f g A Hf Hg; apply level_fast; [exact Hf|apply minor_pre; exact Hg]|].
  split; [intros E f M; apply level_bdd|]. split; [exact @fast_strong|].
  split.
  - intros E s b Hs x y t _ _ Ht. split; [exact I|]. cbn [eval etot]. right. unfold norm2. iexp. field.
  - intros E s Hs c. exists (c / s). intros x _ H. cbn [eval etot] in H. apply (Rmult_le_reg_l s); [exact Hs|]. replace (s * (c / s)) with c by (field; lra). exact H.
Qed.

Lemma min_of_qual {E : IPS} (o1 o2 : Op E) (f g : efun E) : bw E -> complete E -> described E -> impl_prox o1 f -> impl_prox o2 g -> convex f -> convex g -> closed f -> closed g -> qualified2 f g -> level_bounded (eadd f g) -> exists m, is_min (eadd f g) m.
Proof.
  intros HB HE HU I1 I2 C1 C2 L1 L2 Hq Hl. apply convex_min; auto.
  - apply convex_add; assumption.
  - apply closed_add; auto; eapply minor_impl; eassumption.
  - apply minor_add; eapply minor_impl; eassumption.
  - destruct Hq as (x & H). assert (K : forall h : efun E, interior (edom h) x -> edom h x). { intros h (d & Hd & Hh). specialize (Hh vzero). replace (x [+] vzero) with x in Hh by vring. apply Hh. rewrite norm_zero. lra. }
    exists x. destruct H as [[H1 H2]|[H1 H2]]; apply K in H2; split; assumption.
Qed.
Lemma qual_dom {E F : IPS} (f : efun E) (g : efun F) (A : linop E F) : qualified f g A -> exists x, edom f x /\ edom g (A x).
Proof. intros (x & H1 & d & Hd & H). exists x. split; [exact H1|]. specialize (H vzero). replace (lapp A x [+] vzero) with (lapp A x) in H by vring. apply H. rewrite norm_zero. lra. Qed.
Lemma bound_of_step {E F : IPS} (A : linop E F) a k : 0 < a -> 0 <= k -> (forall v, a * norm2 (lapp A v) <= k * norm2 v) -> forall v, norm (A v) <= sqrt (k / a) * norm v.
Proof.
  intros Ha Hk H v. unfold norm. rewrite <- sqrt_mult_alt by (apply Rmult_le_pos; [exact Hk|left; apply Rinv_0_lt_compat; exact Ha]). apply sqrt_le_1_alt.
  apply (Rmult_le_reg_l a); [exact Ha|]. replace (a * (k / a * norm2 v)) with (k * norm2 v) by (field; lra). apply H.
Qed.

(*! C85_splitting : f, g convex and closed, Slater's condition, the sets {f + g <= c} bounded, tau > 0, 0 < eta < 2, any start, either order, finite
   dimension (no minimiser assumed): f + g has a minimiser, the x returned by DouglasRachfordSplitting with niter = 1, 2, ... converges to one,
   and the two vectors returned by ADMM with niter = 0, 1, 2, ... both converge to one *)
Lemma C85_splitting_l : forall (E : IPS) (proxf proxg : Op E) f g x0 tau eta (gfirst : bool), bw E -> hb E -> complete E -> described E ->
  impl_prox proxf f -> impl_prox proxg g -> convex f -> convex g -> closed f -> closed g -> 0 < tau -> 0 < eta < 2 -> qualified2 f g -> level_bounded (eadd f g) ->
  (exists xs ys l, (forall n, exists tr, DouglasRachford proxf proxg x0 tau eta (S n) gfirst = Ok (xs n, ys n, tr)) /\ is_min (eadd f g) l /\ vcv xs l) /\
  (exists xs zs l, (forall n, exists tr, ADMM proxf proxg (Some x0) tau n None gfirst = Ok (xs n, zs n, tr)) /\ is_min (eadd f g) l /\ vcv xs l /\ vcv zs l).
Proof.
  intros E proxf proxg f g x0 tau eta gfirst HB HH HE HU I1 I2 C1 C2 L1 L2 Ht He Hq Hl. pose proof (min_of_qual proxf proxg f g HB HE HU I1 I2 C1 C2 L1 L2 Hq Hl) as Hm. split.
  - destruct (C81_douglas_rachford_l E proxf proxg f g x0 tau eta gfirst HB HH I1 I2 C1 C2 Ht He Hq Hm) as (xs & ys & l & u & H1 & _ & H2 & H3 & _). exists xs, ys, l. auto.
  - exact (C81_admm_l E proxf proxg f g (Some x0) None x0 x0 tau gfirst HB HH I1 I2 C1 C2 Ht ltac:(reflexivity) Hq Hm).
Qed.

(*! C85_primal_dual : f, g convex and closed, gs the conjugate of g, Slater's condition for f + g(A .), the sets {f + <z,.> + g(A .) <= c} bounded,
   theta = 1, constant steps with tau mu |A a|^2 <= kappa |a|^2 for some kappa <= 1, any start, either order, finite dimension (no minimiser
   assumed): the x returned by PrimalDual with niter = 0, 1, 2, ... converges to a minimiser of f + <z,.> + g(A .) *)
Lemma C85_primal_dual_l : forall (E F : IPS) (A : linop E F) proxf proxg f g gs alias x0 tau mu kappa y0 z gfirst, bw E -> bw F -> hb F -> complete E -> described E ->
  impl_prox proxf f -> impl_proxdual proxg gs -> convex f -> convex g -> closed f -> closed g -> is_conj g gs -> (forall u, exists p, is_prox g 1 u p) ->
  0 < tau -> 0 < mu -> 0 <= kappa <= 1 -> (forall a, tau * mu * norm2 (lapp A a) <= kappa * norm2 a) -> alias = None \/ z = None ->
  qualified f g A -> level_bounded (eadd (elin f (zvec z)) (epre g (lapp A))) ->
  exists xs ys xl yl, (forall n, exists tr, PrimalDual proxf proxg A alias x0 (Scalar tau) (Scalar mu) y0 z 1 n gfirst = Ok (xs n, ys n, tr)) /\
    is_min (eadd (elin f (zvec z)) (epre g (lapp A))) xl /\ vcv xs xl /\ vcv ys yl.
Proof.
  intros E F A proxf proxg f g gs alias x0 tau mu kappa y0 z gfirst BE BF HF HE HU If Ig Cf Cg Lf Lg Hcj Hpg Ht Hmu Hk HA Hal Hq Hl.
  eapply C81_primal_dual_l; eauto.
  apply (exist_pre (elin f (zvec z)) g A (sqrt (kappa / (tau * mu)))); auto.
  - apply convex_lin; exact Cf.
  - apply closed_lin; exact Lf.
  - apply minor_lin. eapply minor_impl; eassumption.
  - apply minor_prox; assumption.
  - apply bound_of_step; [apply Rmult_lt_0_compat; assumption|lra|exact HA].
  - exact (qual_dom f g A Hq).
Qed.

(*! C85_linearized_admm : the same for LinearizedADMM, with mu |A a|^2 <= kappa tau |a|^2 for some kappa <= 1 *)
Lemma C85_linearized_admm_l : forall (E F : IPS) (proxf : Op E) (proxg : Op F) f g (A : linop E F) tau mu kappa x0 z0 x z, bw E -> bw F -> hb F -> complete E -> described E ->
  impl_prox proxf f -> impl_prox proxg g -> convex f -> convex g -> closed f -> closed g -> 0 < tau -> 0 < mu -> 0 <= kappa <= 1 ->
  (forall a, mu * norm2 (lapp A a) <= kappa * tau * norm2 a) -> x0z0_initA (lapp A) x0 z0 = Ok (x, z) -> qualified f g A -> level_bounded (eadd f (epre g (lapp A))) ->
  exists xs zs xl, (forall n, exists tr, LinearizedADMM proxf proxg A x0 tau mu n z0 = Ok (xs n, zs n, tr)) /\
    is_min (eadd f (epre g (lapp A))) xl /\ vcv xs xl /\ vcv zs (lapp A xl).
Proof.
  intros E F proxf proxg f g A tau mu kappa x0 z0 x z BE BF HF HE HU If Ig Cf Cg Lf Lg Ht Hmu Hk HA Hi Hq Hl.
  eapply C81_linearized_admm_l; eauto. apply (exist_pre f g A (sqrt (kappa * tau / mu))); auto.
  - eapply minor_impl; eassumption.
  - eapply minor_impl; eassumption.
  - apply bound_of_step; [exact Hmu|apply Rmult_le_pos; lra|exact HA].
  - exact (qual_dom f g A Hq).
Qed.

(*! C85_admml2 : g convex and closed with a point A x interior to its domain, tau > 0, exact inner solves, gfirst=False, either guess, unique least-squares
   solutions (c |a|^2 <= |B a|^2 + |A a|^2 for some c > 0), A bounded, bounded sets {1/2|B . - b|^2 + g(A .) <= c}, finite dimension
   (no minimiser assumed): the x returned by ADMML2 with niter = 0, 1, 2, ... converges to a minimiser xl and the returned z to A xl *)
Lemma C85_admml2_l : forall (E F G : IPS) (B : linop E G) b (A : linop E F) proxg reginv g tau c CA x0 z0 x z, bw E -> bw F -> hb F -> complete E -> described E ->
  impl_prox proxg g -> convex g -> closed g -> exact_reginv B b A reginv -> 0 < tau -> 0 < c -> (forall a, c * norm2 a <= norm2 (lapp B a) + norm2 (lapp A a)) ->
  (forall v, norm (A v) <= CA * norm v) ->
  x0z0_initA (lapp A) x0 z0 = Ok (x, z) -> (exists y, interior (edom g) (lapp A y)) -> level_bounded (eadd (etot (fun y => 1 / 2 * norm2 (lapp B y [-] b))) (epre g (lapp A))) ->
  exists xs zs xl, (forall n, exists tr, ADMML2 proxg A reginv x0 tau n z0 false = Ok (xs n, zs n, tr)) /\
    is_min (eadd (etot (fun y => 1 / 2 * norm2 (lapp B y [-] b))) (epre g (lapp A))) xl /\ vcv xs xl /\ vcv zs (lapp A xl).
Proof.
  intros E F G B b A proxg reginv g tau c CA x0 z0 x z BE BF HF HE HU Ig Cg Lg Hr Ht Hc Hco HA Hi Hq Hl.
  assert (S : forall y, is_subgrad (etot (fun y => 1 / 2 * norm2 (lapp B y [-] b))) y (ladj B (lapp B y [-] b))).
  { intro y. split; [exact I|]. intros w _. cbn [eval etot]. pose proof (norm2_nonneg (B w [-] B y)) as H. rewrite (inner_sym (ladj B _)), <- ladj_spec, lapp_sub.
    replace (norm2 (lapp B w [-] b)) with (norm2 (B w [-] B y) + 2 * << lapp B w [-] lapp B y, lapp B y [-] b >> + norm2 (lapp B y [-] b)) by (unfold norm2; iexp; ring). lra. }
  assert (Cq : convex (etot (fun y => 1 / 2 * norm2 (lapp B y [-] b)))).
  { intros u w t _ _ Ht'. split; [exact I|]. cbn [eval etot]. rewrite lapp_add, !lapp_scal. pose proof (Rmult_le_pos _ _ (Rmult_le_pos t (1 - t) ltac:(lra) ltac:(lra)) (norm2_nonneg (B u [-] B w))) as H.
    replace (norm2 ((1 - t) [*] lapp B u [+] t [*] lapp B w [-] b)) with ((1 - t) * norm2 (lapp B u [-] b) + t * norm2 (lapp B w [-] b) - t * (1 - t) * norm2 (B u [-] B w)) by (unfold norm2; iexp; ring). lra. }
  eapply C81_admml2_l; eauto. apply (exist_pre _ g A CA); auto.
  - exact (closed_sub _ _ S).
  - exact (minor_sub _ vzero _ (S vzero)).
  - eapply minor_impl; eassumption.
  - destruct Hq as [y Hy]. destruct (qual_dom (etot (fun y => 1 / 2 * norm2 (lapp B y [-] b))) g A) as (w & H1 & H2); [exists y; split; [exact I|exact Hy]|]. exists w. auto.
Qed.

(*! C85_ppxa : m >= 1 closed convex functions with a common point interior to all domains except one, the level sets of the sum bounded, tau > 0,
   0 < eta < 2, admissible weights, any start, finite dimension (no minimiser assumed): the iterates of PPXA and of ConsensusADMM converge
   to a minimiser of the sum, whatever niter and tol they are cut at *)
Lemma C85_ppxa_l : forall (E : IPS) (os : list (Op E)) (f : nat -> efun E) x0 x1 tau eta weights, bw E -> hb E -> complete E -> described E ->
  let m := List.length os in
  impl_all os f -> (forall i, (i < m)%nat -> convex (f i) /\ closed (f i)) -> (0 < m)%nat -> 0 < tau -> 0 < eta < 2 ->
  good_weights weights m -> ppxa_start_ok x0 weights m -> qualified_sum m f -> level_bounded (esum m f) ->
  (exists xs xl, (forall niter amax t, exists k, PPXA os x0 tau eta weights niter amax (Some t) = Ok (xs k, map xs (seq 1 k)) /\
       stops_when (fun j => amax (xs j [-] xs (j - 1)%nat) < t) niter k) /\ is_min (esum m f) xl /\ vcv xs xl) /\
  (exists xs xl, (forall niter amax t, exists k, ConsensusADMM os x1 tau niter amax (Some t) = Ok (xs k, map xs (seq 1 k)) /\
       stops_when (fun j => amax (xs j [-] xs (j - 1)%nat) < t) niter k) /\ is_min (esum m f) xl /\ vcv xs xl).
Proof.
  intros E os f x0 x1 tau eta weights HB HH HE HU m Hi Hf Hm Ht He Hw Hs Hq Hl.
  assert (Hcf : forall i, (i < m)%nat -> convex (f i)) by (intros i Hi'; apply Hf; exact Hi').
  assert (Hmin : exists xo, is_min (esum m f) xo).
  { destruct (esum_closed m f) as [C M].
    - intros i Hi'. split; [apply Hf; exact Hi'|]. destruct (nth_error os i) as [o|] eqn:Eo; [|apply nth_error_None in Eo; unfold m in Hi'; lia]. eapply minor_impl; [apply Hcf; exact Hi'|exact (Hi i o Eo)].
    - apply convex_min; auto; [apply convex_esum; exact Hcf|]. destruct Hq as (x & j & Hx). exists x. intros i Hi'. apply (Hx i Hi'). }
  split.
  - exact (C81_ppxa_l E os f x0 tau eta weights HB HH Hi Hcf Hm Ht He Hw Hs Hq Hmin).
  - exact (C81_consensus_admm_l E os f x1 tau HB HH Hi Hcf Hm Ht Hq Hmin).
Qed.

(*! C85_proximal_gradient : f convex with L-Lipschitz gradient, g convex and closed, eps > 0, 0 < eta < 2 - tau L/2, fixed step, no acceleration, the sets
   {f + eps g <= c} bounded, finite dimension (no minimiser assumed): the vectors returned by ProximalGradient with niter = 1, 2, ...
   converge to a minimiser of f + eps g; and f closed with bounded level sets: ProximalPoint converges to a minimiser of f *)
Lemma C85_proximal_gradient_l :
  (forall (E : IPS) (proxf proxg : Op E) f df L g eps x0 tau beta eta niterback accel, bw E -> complete E -> described E ->
    smooth_op proxf f df L -> impl_prox proxg g -> convex g -> closed g -> 0 < eps -> 0 < tau -> 0 < eta < 2 - tau * L / 2 -> unaccelerated accel eta ->
    level_bounded (eadd (etot f) (escal eps g)) ->
    exists xs l, xs 0%nat = x0 /\ (forall n, ProximalGradient proxf proxg x0 [eps] (Some tau) false beta eta (S n) niterback accel None = Ok (xs (S n), map xs (seq 1 (S n)))) /\
      is_min (eadd (etot f) (escal eps g)) l /\ vcv xs l) /\
  (forall (E : IPS) (o : Op E) f x0 tau, bw E -> complete E -> described E -> impl_prox o f -> convex f -> closed f -> 0 < tau -> level_bounded f ->
    exists xs l, (forall n, ProximalPoint o x0 tau n None = Ok (xs n, map xs (seq 1 n))) /\ is_min f l /\ vcv xs l).
Proof.
  split.
  - intros E proxf proxg f df L g eps x0 tau beta eta niterback accel HB HE HU Hop Ig Cg Lg He Ht Heta Hacc Hl. eapply C75_proximal_gradient_l; eauto.
    destruct Hop as (_ & _ & Cf & HL & Hsm).
    assert (S : forall x, is_subgrad (etot f) x (df x)). { intro x. split; [exact I|]. intros y _. exact (proj1 (L_smooth_convex f df L Cf Hsm) x y). }
    apply convex_min; auto.
    + apply convex_add; [exact Cf|apply convex_scal; [lra|exact Cg]].
    + apply closed_add; [exact (closed_sub f df S)|apply closed_scal; assumption|exact (minor_sub _ vzero _ (S vzero))|apply minor_scal; [lra|eapply minor_impl; eassumption]].
    + apply minor_add; [exact (minor_sub _ vzero _ (S vzero))|apply minor_scal; [lra|eapply minor_impl; eassumption]].
    + destruct (Ig vzero 1 Rlt_0_1) as (p & _ & Hp & _). exists p. split; [exact I|exact Hp].
  - intros E o f x0 tau HB HE HU Io Cf Lf Ht Hl. eapply C75_proximal_point_l; eauto. apply convex_min; auto; [eapply minor_impl; eassumption|].
    destruct (Io vzero 1 Rlt_0_1) as (p & _ & Hp & _). exists p. exact Hp.
Qed.
