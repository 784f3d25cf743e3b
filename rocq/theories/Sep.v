(** * Entrywise (separable) functions on lists and fixed-length vectors *)
From Verif Require Import Base Space Spec ConvexFacts.
From Coq Require Import Psatz.

(** The separable function (x_1,...,x_n) -> f_1(x_1) + ... + f_n(x_n). *)
Section SepDef.
Context {E : IPS}.
Fixpoint sep_dom (ph : list (efun E)) (x : list E) : Prop :=
  match ph, x with
  | f :: ph', a :: x' => edom f a /\ sep_dom ph' x'
  | _, _ => True
  end.
Fixpoint sep_val (ph : list (efun E)) (x : list E) : R :=
  match ph, x with
  | f :: ph', a :: x' => eval f a + sep_val ph' x'
  | _, _ => 0
  end.
Definition esep (ph : list (efun E)) (n : nat) : efun (Pow E n) :=
  mkEfun (E:=Pow E n) (fun x : nlist E n => sep_dom ph (proj1_sig x))
    (fun x : nlist E n => sep_val ph (proj1_sig x)).
End SepDef.

(** Entrywise relation between three lists of the same length. *)
Inductive pw3 {A B C : Type} (P : A -> B -> C -> Prop) : list A -> list B -> list C -> Prop :=
| pw3_nil : pw3 P [] [] []
| pw3_cons : forall a b c la lb lc, P a b c -> pw3 P la lb lc -> pw3 P (a :: la) (b :: lb) (c :: lc).

Lemma pw3_len {A B C} (P : A -> B -> C -> Prop) la lb lc : pw3 P la lb lc ->
  length la = length lb /\ length lc = length lb.
Proof. induction 1; simpl; lia. Qed.

Lemma pw3_map {A B C} (P : A -> B -> C -> Prop) a (T : B -> C) lb :
  (forall b, In b lb -> P a b (T b)) -> pw3 P (repeat a (length lb)) lb (map T lb).
Proof. induction lb; simpl; intro H; constructor; auto. Qed.

Lemma pw3_map2 {D A B C} (P : A -> B -> C -> Prop) (G : D -> A) (T : D -> B -> C) ld lb :
  length ld = length lb ->
  (forall d b, In d ld -> In b lb -> P (G d) b (T d b)) -> pw3 P (map G ld) lb (map2 T ld lb).
Proof.
  revert lb; induction ld as [|d ld IH]; intros [|b lb] Hl H; simpl in *; try discriminate; constructor; auto.
Qed.

Lemma pw3_impl {A B C} (P Q : A -> B -> C -> Prop) la lb lc :
  (forall a b c, P a b c -> Q a b c) -> pw3 P la lb lc -> pw3 Q la lb lc.
Proof. intros H; induction 1; constructor; auto. Qed.

(** Inner product of differences, entry by entry. *)
Section SepProx.
Context {E : IPS}.

Definition lsub (a b : list E) : list E := map2 vsub a b.

Lemma Pow_vsub n (a b : Pow E n) : proj1_sig (a [-] b) = lsub (proj1_sig a) (proj1_sig b).
Proof.
  destruct a as [a Ha], b as [b Hb]; unfold vsub at 1; simpl. unfold lsub.
  clear Ha Hb n. revert b; induction a as [|x a IH]; intros [|y b]; simpl; auto. f_equal; auto.
Qed.

Fixpoint ldist2 (a b : list E) : R :=
  match a, b with
  | x :: a', y :: b' => norm2 (x [-] y) + ldist2 a' b'
  | _, _ => 0
  end.

Lemma Pow_dist2 n (a b : Pow E n) : norm2 (a [-] b) = ldist2 (proj1_sig a) (proj1_sig b).
Proof.
  unfold norm2. change (@inner (Pow E n)) with (fun a b : nlist E n => linner (proj1_sig a) (proj1_sig b)).
  cbv beta. rewrite Pow_vsub. destruct a as [a Ha], b as [b Hb]; simpl.
  clear Ha Hb n. revert b; induction a as [|x a IH]; intros [|y b]; simpl; auto. rewrite <- IH. reflexivity.
Qed.

Lemma sep_prox_list tau ph x p :
  pw3 (fun f x p => is_prox f tau x p) ph x p ->
  sep_dom ph p /\
  forall y, length y = length x -> sep_dom ph y ->
    sep_val ph p + / (2 * tau) * ldist2 p x <= sep_val ph y + / (2 * tau) * ldist2 y x.
Proof.
  induction 1 as [|f a b ph x p [Hd Hm] Hpw [IHd IHm]]; simpl.
  - split; auto. intros [|] H _; simpl in *; try discriminate. lra.
  - split; auto. intros [|c y] Hl Hdy; simpl in *; try discriminate.
    destruct Hdy as [Hc Hdy]. specialize (Hm c Hc). specialize (IHm y ltac:(lia) Hdy). lra.
Qed.

Lemma sep_prox n ph tau (x p : Pow E n) :
  pw3 (fun f x p => is_prox f tau x p) ph (proj1_sig x) (proj1_sig p) ->
  is_prox (esep ph n) tau x p.
Proof.
  intro H. destruct (sep_prox_list tau ph _ _ H) as [H1 H2]. split; auto.
  intros y Hy. rewrite !Pow_dist2. apply H2; auto.
  rewrite (proj2_sig x), (proj2_sig y). reflexivity.
Qed.

(** The conjugate of a separable function is separable. *)
Lemma sep_dom_app ph x : length ph = length x ->
  (sep_dom ph x <-> Forall2 (fun (f : efun E) (a : E) => edom f a) ph x).
Proof.
  revert x; induction ph as [|f ph IH]; intros [|a x] H; simpl in *; try discriminate.
  - split; auto.
  - rewrite IH by lia. split; [intros [? ?]; constructor; auto | intro F; inversion F; auto].
Qed.
End SepProx.

(** Two functions with the same domain and values have the same prox. *)
Lemma is_prox_ext {E : IPS} (f g : efun E) tau x p :
  (forall y, edom f y <-> edom g y) -> (forall y, edom f y -> eval f y = eval g y) ->
  is_prox f tau x p -> is_prox g tau x p.
Proof.
  intros Hd Hv [H1 H2]. split; [apply Hd; auto|]. intros y Hy. apply Hd in Hy.
  rewrite <- !Hv by auto. auto.
Qed.

Lemma is_proj_ext {E : IPS} (C D : E -> Prop) x p :
  (forall y, C y <-> D y) -> is_proj C x p -> is_proj D x p.
Proof. intros H [H1 H2]; split; [apply H; auto | intros y Hy; apply H2, H; auto]. Qed.

(** A minimiser of the prox objective of an indicator is a projection. *)
Lemma prox_indic_proj {E : IPS} (C : E -> Prop) tau x p :
  0 < tau -> is_prox (indic C) tau x p -> is_proj C x p.
Proof.
  intros Ht [H1 H2]; split; auto. intros y Hy. specialize (H2 y Hy); simpl in H2.
  apply norm_le_iff. assert (0 < / (2 * tau)) by (apply Rinv_0_lt_compat; lra). nra.
Qed.

(** ** Entrywise maps on Vec n *)
Definition vmap {n} (f : R -> R) (x : Vec n) : Vec n :=
  exist _ (map f (proj1_sig x)) (eq_trans (map_length f _) (proj2_sig x)).
Definition vzip {A} {n} (f : A -> R -> R) (a : nlist A n) (x : Vec n) : Vec n.
Proof.
  refine (exist _ (map2 f (proj1_sig a) (proj1_sig x)) _).
  rewrite map2_length; [exact (proj2_sig a)|].
  rewrite (proj2_sig a); symmetry; exact (proj2_sig x).
Defined.

(** Scalar facts on [R_IPS]. *)
Lemma Rn2 (a : R_IPS) : norm2 a = (a : R) * a. Proof. reflexivity. Qed.
Lemma Rsub (a b : R_IPS) : a [-] b = ((a : R) - b : R_IPS). Proof. unfold vsub; simpl; ring. Qed.
Lemma Rn1 (a : R) : norm (a : R_IPS) = Rabs a.
Proof. unfold norm, norm2; simpl. rewrite <- (sqrt_square (Rabs a)) by apply Rabs_pos. f_equal.
  rewrite <- Rabs_mult, Rabs_pos_eq; nra. Qed.

Lemma repeat_map {A B} (f : A -> B) a n : map f (repeat a n) = repeat (f a) n.
Proof. induction n; simpl; congruence. Qed.

(** ** Conjugates and convexity of separable functions *)
Section SepConj.
Context {E : IPS}.
Implicit Types ph phs : list (efun E).

Lemma sep_conj_list ph phs : Forall2 is_conj ph phs ->
  (exists y : list E, length y = length ph /\ sep_dom ph y) /\
  forall z : list E, length z = length ph ->
    (sep_dom phs z <-> exists M, forall y, length y = length ph -> sep_dom ph y -> linner z y - sep_val ph y <= M) /\
    (sep_dom phs z ->
       is_lub (fun r => exists y, length y = length ph /\ sep_dom ph y /\ r = linner z y - sep_val ph y) (sep_val phs z)).
Proof.
  induction 1 as [|f fs ph phs Hf Hr IH].
  - split; [exists []; simpl; auto|]. intros [|? ?] Hz; [|discriminate]. simpl. split.
    + split; auto. intros _. exists 0. intros [|] ? ?; simpl; lra.
    + intros _. split.
      * intros r ([|] & _ & _ & ->); simpl; lra.
      * intros b Hb. apply Hb. exists []. simpl. repeat split; auto. ring.
  - destruct IH as [[y0 [Hy0l Hy0]] IH]. destruct Hf as [[a0 Ha0] Hf].
    split; [exists (a0 :: y0); simpl; auto|].
    intros [|w z] Hz; [discriminate|]. simpl in Hz. injection Hz as Hz.
    destruct (IH z Hz) as [IHd IHl]. destruct (Hf w) as [Hfd Hfl]. split.
    + simpl. rewrite Hfd, IHd. split.
      * intros [[M1 H1] [M2 H2]]. exists (M1 + M2). intros [|a y] Hl; [discriminate|]. simpl. intros [Ha Hy].
        specialize (H1 a Ha). specialize (H2 y ltac:(simpl in Hl; lia) Hy). lra.
      * intros [M HM]. split.
        -- exists (M - (linner z y0 - sep_val ph y0)). intros a Ha.
           specialize (HM (a :: y0) ltac:(simpl; lia) (conj Ha Hy0)). simpl in HM. lra.
        -- exists (M - (<< w, a0 >> - eval f a0)). intros y Hl Hy.
           specialize (HM (a0 :: y) ltac:(simpl; lia) (conj Ha0 Hy)). simpl in HM. lra.
    + simpl. intros [Hw Hzs]. destruct (Hfl Hw) as [U1 L1]. destruct (IHl Hzs) as [U2 L2]. split.
      * intros r ([|a y] & Hl & Hd & ->); [discriminate|]. simpl in *. destruct Hd as [Ha Hy].
        assert (<< w, a >> - eval f a <= eval fs w) by (apply U1; exists a; auto).
        assert (linner z y - sep_val ph y <= sep_val phs z) by (apply U2; exists y; repeat split; auto). lra.
      * intros b Hb.
        assert (H : sep_val phs z <= b - eval fs w).
        { apply L2. intros r (y & Hl & Hy & ->).
          assert (eval fs w <= b - (linner z y - sep_val ph y)).
          { apply L1. intros r (a & Ha & ->).
            specialize (Hb (<< w, a >> + linner z y - (eval f a + sep_val ph y))).
            assert (<< w, a >> + linner z y - (eval f a + sep_val ph y) <= b); [|lra].
            apply Hb. exists (a :: y). simpl. repeat split; auto. }
          lra. }
        lra.
Qed.

Lemma sep_conj n ph phs : length ph = n -> Forall2 is_conj ph phs ->
  is_conj (esep ph n) (esep phs n).
Proof.
  intros Hn H. destruct (sep_conj_list _ _ H) as [[y [Hl Hy]] Hz].
  split.
  - exists (exist _ y (eq_trans Hl Hn)). exact Hy.
  - intros [z Hzl]. destruct (Hz z (eq_trans Hzl (eq_sym Hn))) as [Hd Hlub]. simpl. split.
    + rewrite Hd. split.
      * intros [M HM]. exists M. intros [v Hv] Hvd. apply HM; auto. simpl. congruence.
      * intros [M HM]. exists M. intros v Hv Hvd. apply (HM (exist _ v (eq_trans Hv Hn))); auto.
    + intros Hd'. destruct (Hlub Hd') as [U L]. split.
      * intros r ([v Hv] & Hvd & ->). apply U. exists v. repeat split; auto. congruence.
      * intros b Hb. apply L. intros r (v & Hv & Hvd & ->). apply Hb.
        exists (exist _ v (eq_trans Hv Hn)). split; auto.
Qed.

Lemma sep_convex n ph : Forall convex ph -> convex (esep ph n).
Proof.
  intros H [x Hx] [y Hy] t. simpl. intros Hdx Hdy Ht.
  assert (Hl : length x = length y) by congruence. clear Hx Hy.
  revert ph H y Hl Hdx Hdy.
  induction x as [|a x IH]; intros [|f ph] H [|b y] Hl Hdx' Hdy'; simpl in *; try discriminate; try (split; auto; lra).
  inversion H; subst. destruct Hdx' as [Ha Hx], Hdy' as [Hb Hy].
  destruct (H2 a b t Ha Hb Ht) as [D1 V1]. destruct (IH ph H3 y ltac:(lia) Hx Hy) as [D2 V2].
  split; [auto|]. lra.
Qed.
End SepConj.

Lemma is_conj_ext {E : IPS} (f g fs gs : efun E) :
  (forall y, edom f y <-> edom g y) -> (forall y, edom f y -> eval f y = eval g y) ->
  (forall y, edom fs y <-> edom gs y) -> (forall y, edom fs y -> eval fs y = eval gs y) ->
  is_conj f fs -> is_conj g gs.
Proof.
  intros Hd Hv Hds Hvs [[y0 Hy0] H]. split; [exists y0; apply Hd; auto|].
  intro z. destruct (H z) as [H1 H2]. split.
  - rewrite <- Hds, H1. split; intros [M HM]; exists M; intros y Hy.
    + rewrite <- Hv by (apply Hd; auto). apply HM, Hd; auto.
    + rewrite Hv by auto. apply HM, Hd; auto.
  - intro Hz. apply Hds in Hz. rewrite <- Hvs by auto. destruct (H2 Hz) as [U L]. split.
    + intros r (y & Hy & ->). apply Hd in Hy. apply U. exists y. rewrite Hv; auto.
    + intros b Hb. apply L. intros r (y & Hy & ->). apply Hb. exists y. split; [apply Hd; auto|]. rewrite Hv; auto.
Qed.

Lemma convex_ext {E : IPS} (f g : efun E) :
  (forall y, edom f y <-> edom g y) -> (forall y, edom f y -> eval f y = eval g y) ->
  convex f -> convex g.
Proof.
  intros Hd Hv H x y t Hx Hy Ht. apply Hd in Hx. apply Hd in Hy. destruct (H x y t Hx Hy Ht) as [D V].
  split; [apply Hd; auto|]. rewrite <- !Hv; auto.
Qed.

Lemma Vec_vsub {n} (a b : Vec n) :
  proj1_sig (a [-] b : nlist R n) =
  lsub (E:=R_IPS) (proj1_sig (a : nlist R n)) (proj1_sig (b : nlist R n)).
Proof. exact (Pow_vsub n a b). Qed.

(** The list [l] as an element of [nlist A (length l)]. *)
Definition nl {A} (l : list A) : nlist A (length l) := exist _ l eq_refl.

Ltac list_eq := repeat match goal with
  | |- _ :: _ = _ :: _ => apply f_equal2
  | |- [] = [] => reflexivity
  end.
