(** * Hahn-Banach for the array spaces, and multipliers under Slater's condition (no choice principle is used) *)
From Coq Require Import Psatz.
From Verif Require Import Base Space Spec ConvexFacts VSum S_Qual.
Open Scope R_scope.

Lemma ginf (S : R -> Prop) : (exists r, S r) -> (exists m, forall r, S r -> m <= r) -> { m : R | (forall r, S r -> m <= r) /\ (forall b, (forall r, S r -> b <= r) -> b <= m) }.
Proof.
  intros He Hb. destruct (completeness (fun t => S (- t))) as [m [U L]].
  - destruct Hb as [b Hb]. exists (- b). intros t Ht. specialize (Hb _ Ht). lra.
  - destruct He as [r Hr]. exists (- r). rewrite Ropp_involutive. exact Hr.
  - exists (- m). split.
    + intros r Hr. assert (- r <= m); [|lra]. apply U. cbv beta. rewrite Ropp_involutive. exact Hr.
    + intros b Hb0. assert (m <= - b); [|lra]. apply L. intros t Ht. specialize (Hb0 _ Ht). lra.
Qed.

Lemma sublinear_0 {E : IPS} (p : E -> R) : sublinear p -> p vzero = 0.
Proof. intros [_ H]. specialize (H 2 vzero ltac:(lra)). replace (2 [*] (vzero : E)) with (vzero : E) in H by vring. lra. Qed.

Lemma rr1 (z : R) : z = - z * -1. Proof. ring. Qed.
Lemma rr2 (z : R) : z = z * 1. Proof. ring. Qed.
Lemma rr3 : 0 = 1 + -1. Proof. ring. Qed.
Lemma hb_R : hb R_IPS.
Proof.
  intros p Hp. pose proof (sublinear_0 p Hp) as H0. destruct Hp as [Ha Hs]. exists (p (1 : R_IPS)). intro x.
  change (p (1 : R_IPS) * x <= p x). destruct (Rtotal_order x 0) as [Hx|[Hx|Hx]].
  - assert (E1 : p x = - x * p (-1 : R_IPS)). { rewrite <- (Hs (- x) (-1 : R_IPS)) by lra. f_equal. exact (rr1 x). }
    pose proof (Ha (1 : R_IPS) (-1 : R_IPS)) as H1. replace ((1 : R_IPS) [+] (-1 : R_IPS)) with (vzero : R_IPS) in H1 by (exact rr3). rewrite H0 in H1.
    rewrite E1. assert (0 <= - x * (p (1 : R_IPS) + p (-1 : R_IPS))) by (apply Rmult_le_pos; lra). lra.
  - subst x. change (p (1 : R_IPS) * 0 <= p (vzero : R_IPS)). rewrite H0. lra.
  - assert (E1 : p x = x * p (1 : R_IPS)). { rewrite <- (Hs x (1 : R_IPS)) by lra. f_equal. exact (rr2 x). } rewrite E1. lra.
Qed.

Lemma hb_prod (E F : IPS) : hb E -> hb F -> hb (Prod_IPS E F).
Proof.
  intros HE HF p Hp. pose proof (sublinear_0 p Hp) as H0. destruct Hp as [Ha Hs].
  destruct (HE (fun x => p ((x, vzero) : Prod_IPS E F))) as [u1 H1].
  { split.
    - intros x y. specialize (Ha ((x, vzero) : Prod_IPS E F) ((y, vzero) : Prod_IPS E F)). cbn [vadd Prod_IPS fst snd] in Ha. replace ((vzero : F) [+] vzero) with (vzero : F) in Ha by vring. exact Ha.
    - intros t x Ht. rewrite <- (Hs t ((x, vzero) : Prod_IPS E F) Ht). f_equal. cbn [vscal Prod_IPS fst snd]. f_equal. vring. }
  set (S := fun (y : F) r => exists x : E, r = p ((x, y) : Prod_IPS E F) - << u1, x >>).
  assert (Sne : forall y, exists r, S y r) by (intro y; exists (p ((vzero, y) : Prod_IPS E F) - << u1, vzero >>), vzero; reflexivity).
  assert (Sb : forall y r, S y r -> - p ((vzero, vopp y) : Prod_IPS E F) <= r).
  { intros y r [x ->]. specialize (Ha ((x, y) : Prod_IPS E F) ((vzero, vopp y) : Prod_IPS E F)). cbn [vadd Prod_IPS fst snd] in Ha.
    replace (x [+] vzero) with x in Ha by vring. replace (y [+] vopp y) with (vzero : F) in Ha by (unfold vopp; vring). specialize (H1 x). lra. }
  set (q := fun y => proj1_sig (ginf (S y) (Sne y) (ex_intro _ _ (Sb y)))).
  assert (Ql : forall y x, q y <= p ((x, y) : Prod_IPS E F) - << u1, x >>). { intros y x. unfold q. destruct (ginf _ _ _) as [m [L G]]; simpl. apply L. exists x. reflexivity. }
  assert (Qg : forall y b, (forall x, b <= p ((x, y) : Prod_IPS E F) - << u1, x >>) -> b <= q y). { intros y b Hb. unfold q. destruct (ginf _ _ _) as [m [L G]]; simpl. apply G. intros r [x ->]. apply Hb. }
  destruct (HF q) as [u2 H2].
  { split.
    - intros y y'. apply Rnot_lt_le. intro K.
      assert (K1 : q (y [+] y') - q y' <= q y).
      { apply Qg. intro x. assert (K2 : q (y [+] y') - (p ((x, y) : Prod_IPS E F) - << u1, x >>) <= q y'); [|lra]. apply Qg. intro x'.
        specialize (Ql (y [+] y') (x [+] x')). specialize (Ha ((x, y) : Prod_IPS E F) ((x', y') : Prod_IPS E F)). cbn [vadd Prod_IPS fst snd] in Ha.
        rewrite inner_add_r in Ql. lra. }
      lra.
    - intros t y Ht.
      assert (A1 : forall t y, 0 < t -> t * q y <= q (t [*] y)).
      { intros s w Hsp. apply Qg. intro x. specialize (Ql w (/ s [*] x)). specialize (Hs s ((/ s [*] x, w) : Prod_IPS E F) Hsp). cbn [vscal Prod_IPS fst snd] in Hs.
        replace (s [*] (/ s [*] x)) with x in Hs by (vfield; lra). rewrite Hs. rewrite inner_scal_r in Ql.
        apply (Rmult_le_compat_l s) in Ql; [|lra]. replace (s * (p ((/ s [*] x, w) : Prod_IPS E F) - / s * << u1, x >>)) with (s * p ((/ s [*] x, w) : Prod_IPS E F) - << u1, x >>) in Ql by (field; lra). exact Ql. }
      apply Rle_antisym; [|apply A1; exact Ht].
      assert (It : 0 < / t) by (apply Rinv_0_lt_compat; exact Ht). pose proof (A1 (/ t) (t [*] y) It) as B. replace (/ t [*] (t [*] y)) with y in B by (vfield; lra).
      apply (Rmult_le_compat_l t) in B; [|lra]. replace (t * (/ t * q (t [*] y))) with (q (t [*] y)) in B by (field; lra). exact B. }
  exists ((u1, u2) : Prod_IPS E F). intros [x y]. change (<< u1, x >> + << u2, y >> <= p ((x, y) : Prod_IPS E F)). specialize (H2 y). specialize (Ql y x). lra.
Qed.

Definition pcons {E : IPS} {n} (x : E) (t : Pow E n) : Pow E (S n) := exist _ (x :: proj1_sig t) (f_equal S (proj2_sig t)).
Lemma hb_pow (E : IPS) n : hb E -> hb (Pow E n).
Proof.
  intro HE. induction n as [|n IH].
  - intros p Hp. exists (vzero : Pow E 0). intro x. replace x with (vzero : Pow E 0). 2:{ apply nlist_eq. destruct x as [l Hl]. destruct l; [reflexivity|discriminate]. }
    rewrite (sublinear_0 p Hp). cbn. lra.
  - intros p [Ha Hs]. destruct (hb_prod E (Pow E n) HE IH (fun z => p (pcons (fst z) (snd z)))) as [[u1 u2] Hu].
    { split.
      - intros x y. eapply Rle_trans; [|apply Ha]. apply Req_le. f_equal. apply nlist_eq. reflexivity.
      - intros t x Ht. rewrite <- Hs by exact Ht. f_equal. apply nlist_eq. reflexivity. }
    exists (pcons u1 u2). intro x. destruct x as [l Hl]. destruct l as [|a l]; [discriminate|].
    assert (Hl' : List.length l = n) by (simpl in Hl; lia).
    specialize (Hu ((a, exist _ l Hl') : Prod_IPS E (Pow E n))). cbn [fst snd] in Hu.
    replace (exist _ (a :: l) Hl : Pow E (S n)) with (pcons a (exist _ l Hl' : Pow E n)) by (apply nlist_eq; reflexivity). exact Hu.
Qed.

(** ** multipliers *)
Section Mult.
Context {E F : IPS} (f : efun E) (g : efun F) (A : linop E F) (x : E).
Hypothesis (HF : hb F) (Cf : convex f) (Cg : convex g) (Hq : qualified f g A) (Hm : is_min (eadd f (epre g (lapp A))) x).
Let m := eval f x + eval g (lapp A x).
Let S (v : F) (r : R) : Prop := exists t y, 0 < t /\ edom f y /\ edom g (lapp A y [+] t [*] v) /\ r = (eval f y + eval g (lapp A y [+] t [*] v) - m) / t.

Lemma mult_ge y : edom f y -> edom g (lapp A y) -> m <= eval f y + eval g (lapp A y).
Proof. intros H1 H2. exact (proj2 Hm y (conj H1 H2)). Qed.
Lemma mult_ne v : exists r, S v r.
Proof.
  destruct Hq as (x0 & Hx0 & delta & Hd & Hi). set (t := delta / (norm v + 1)). pose proof (norm_nonneg v) as Hn.
  assert (Ht : 0 < t) by (apply Rdiv_lt_0_compat; lra).
  exists ((eval f x0 + eval g (lapp A x0 [+] t [*] v) - m) / t), t, x0. split; [exact Ht|]. split; [exact Hx0|]. split; [|reflexivity].
  apply Hi. rewrite norm_scal, Rabs_right by lra. apply Rle_trans with (t * (norm v + 1)); [apply Rmult_le_compat_l; lra|]. apply Req_le. unfold t. field. lra.
Qed.
(** the key combination *)
Lemma mult_comb v w r r' : S v r -> S w r' -> exists r'', S (v [+] w) r'' /\ r'' <= r + r'.
Proof.
  intros (t & y & Ht & Hy & Hg & ->) (s & y' & Hsp & Hy' & Hg' & ->).
  set (l := t / (t + s)). assert (Hl : 0 <= l <= 1). { unfold l. split; [apply Rlt_le, Rdiv_lt_0_compat; lra|]. apply Rmult_le_reg_r with (t + s); [lra|]. replace (t / (t + s) * (t + s)) with t by (field; lra). lra. }
  assert (El : 1 - l = s / (t + s)) by (unfold l; field; lra).
  destruct (Cf y y' l Hy Hy' Hl) as [D1 V1]. destruct (Cg _ _ l Hg Hg' Hl) as [D2 V2].
  set (y2 := (1 - l) [*] y [+] l [*] y') in *. set (k := t * s / (t + s)). assert (Hk : 0 < k) by (apply Rdiv_lt_0_compat; nra).
  assert (EA : (1 - l) [*] (lapp A y [+] t [*] v) [+] l [*] (lapp A y' [+] s [*] w) = lapp A y2 [+] k [*] (v [+] w)).
  { unfold y2. rewrite lapp_add, !lapp_scal, El. unfold l, k. vfield; lra. }
  rewrite EA in D2, V2. exists ((eval f y2 + eval g (lapp A y2 [+] k [*] (v [+] w)) - m) / k). split.
  - exists k, y2. repeat split; auto.
  - set (a := eval f y + eval g (lapp A y [+] t [*] v)) in *. set (b := eval f y' + eval g (lapp A y' [+] s [*] w)) in *.
    apply Rmult_le_reg_r with k; [exact Hk|]. unfold Rdiv at 1. rewrite Rmult_assoc, Rinv_l, Rmult_1_r by lra.
    replace (((a - m) / t + (b - m) / s) * k) with ((1 - l) * a + l * b - m). 2:{ rewrite El. unfold k, l. field. lra. }
    unfold a, b. lra.
Qed.
Lemma mult_zero r : S vzero r -> 0 <= r.
Proof.
  intros (t & y & Ht & Hy & Hg & ->). replace (lapp A y [+] t [*] vzero) with (lapp A y) in * by vring. pose proof (mult_ge y Hy Hg).
  apply Rmult_le_pos; [lra|]. apply Rlt_le, Rinv_0_lt_compat, Ht.
Qed.
Lemma mult_bdd v : exists b, forall r, S v r -> b <= r.
Proof.
  destruct (mult_ne (vopp v)) as [r' Hr']. exists (- r'). intros r Hr. destruct (mult_comb v (vopp v) r r' Hr Hr') as (r2 & H2 & Hle).
  replace (v [+] vopp v) with (vzero : F) in H2 by (unfold vopp; vring). apply mult_zero in H2. lra.
Qed.
Let p (v : F) : R := proj1_sig (ginf (S v) (mult_ne v) (mult_bdd v)).
Lemma p_le v r : S v r -> p v <= r.
Proof. unfold p. destruct (ginf _ _ _) as [a [L G]]; simpl. apply L. Qed.
Lemma p_ge v b : (forall r, S v r -> b <= r) -> b <= p v.
Proof. unfold p. destruct (ginf _ _ _) as [a [L G]]; simpl. apply G. Qed.
Lemma p_sub : sublinear p.
Proof.
  split.
  - intros v w. assert (K : p (v [+] w) - p w <= p v); [|lra]. apply p_ge. intros r Hr. assert (K : p (v [+] w) - r <= p w); [|lra]. apply p_ge. intros r' Hr'.
    destruct (mult_comb v w r r' Hr Hr') as (r2 & H2 & Hle). apply p_le in H2. lra.
  - assert (A1 : forall t v, 0 < t -> t * p v <= p (t [*] v)).
    { intros t v Ht. apply p_ge. intros r (s & y & Hsp & Hy & Hg & ->).
      assert (St : S v ((eval f y + eval g (lapp A y [+] s [*] (t [*] v)) - m) / (s * t))).
      { exists (s * t), y. replace ((s * t) [*] v) with (s [*] (t [*] v)) by vring. repeat split; auto. apply Rmult_lt_0_compat; lra. }
      apply p_le in St. apply (Rmult_le_compat_l t) in St; [|lra]. eapply Rle_trans; [exact St|]. apply Req_le. field. lra. }
    intros t v Ht. apply Rle_antisym; [|apply A1; exact Ht]. assert (It : 0 < / t) by (apply Rinv_0_lt_compat; exact Ht).
    pose proof (A1 (/ t) (t [*] v) It) as B. replace (/ t [*] (t [*] v)) with v in B by (vfield; lra).
    apply (Rmult_le_compat_l t) in B; [|lra]. replace (t * (/ t * p (t [*] v))) with (p (t [*] v)) in B by (field; lra). exact B.
Qed.
Lemma multiplier : exists v, is_subgrad f x (vopp (ladj A v)) /\ is_subgrad g (lapp A x) v.
Proof.
  destruct (HF p p_sub) as [u Hu]. destruct Hm as [[Dx Dg] _].
  assert (K : forall y z, edom f y -> edom g (lapp A y [+] z) -> << u, z >> <= eval f y + eval g (lapp A y [+] z) - m).
  { intros y z Hy Hz. eapply Rle_trans; [apply Hu|]. apply p_le. exists 1, y. replace (1 [*] z) with z by vring. repeat split; auto; [lra|field]. }
  exists u. split; split; auto.
  - intros y Hy. specialize (K y (lapp A x [-] lapp A y) Hy). replace (lapp A y [+] (lapp A x [-] lapp A y)) with (lapp A x) in K by vring. specialize (K Dg).
    rewrite inner_opp_l, ladj_spec', lapp_sub. rewrite inner_sub_r in *. unfold m in K. lra.
  - intros w Hw. specialize (K x (w [-] lapp A x) Dx). replace (lapp A x [+] (w [-] lapp A x)) with w in K by vring. specialize (K Hw). unfold m in K. lra.
Qed.
End Mult.
