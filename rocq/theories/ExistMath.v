(** * Minimisers exist: closed convex functions with bounded level sets (no axiom of choice) *)
From Coq Require Import Psatz Classical.
From Verif Require Import Base Space Spec Cplx ConvexFacts VSum S_Seq Compact Fejer HahnBanach S_Exist.
Open Scope R_scope.

(** ** the spaces *)
Lemma D_dec {E : IPS} (D : nat -> E -> Prop) : (forall k x, D (S k) x -> D k x) -> forall k j x, (j <= k)%nat -> D k x -> D j x.
Proof. intros H k j x Hj. induction Hj; [auto|intro Hx; apply IHHj, H, Hx]. Qed.

Lemma complete_R : complete R_IPS.
Proof.
  intros D Hn Hd Hs. set (L := fun r : R => exists k, forall x : R_IPS, D k x -> r <= x).
  assert (NR : forall x y : R_IPS, norm (x [-] y) = Rabs (x - y)). { intros x y. unfold norm, norm2. cbn. change (sqrt (Rsqr (x + -1 * y)) = Rabs (x - y)). rewrite sqrt_Rsqr_abs. f_equal. ring. }
  assert (Hlow : forall eps, 0 < eps -> exists k, forall j x, (k <= j)%nat -> D j x -> L (x - eps)).
  { intros eps He. destruct (Hs eps He) as [k Hk]. exists k. intros j x Hj Hx. exists j. intros y Hy.
    pose proof (Hk x y (D_dec D Hd j k x Hj Hx) (D_dec D Hd j k y Hj Hy)) as H. rewrite NR in H. apply Rabs_def2 in H. lra. }
  assert (Hup : forall eps, 0 < eps -> exists k, forall j x r, (k <= j)%nat -> D j x -> L r -> r <= x + eps).
  { intros eps He. destruct (Hs eps He) as [k Hk]. exists k. intros j x r Hj Hx [i Hi]. destruct (Hn (Nat.max k i)) as [z Hz].
    pose proof (Hi z (D_dec D Hd _ i z (Nat.le_max_r k i) Hz)) as H1.
    pose proof (Hk x z (D_dec D Hd j k x Hj Hx) (D_dec D Hd _ k z (Nat.le_max_l k i) Hz)) as H. rewrite NR in H. apply Rabs_def2 in H. lra. }
  destruct (completeness L) as [l [Hl1 Hl2]].
  - destruct (Hup 1 ltac:(lra)) as [k Hk]. destruct (Hn k) as [x Hx]. exists (x + 1). intros r Hr. exact (Hk k x r (le_n k) Hx Hr).
  - destruct (Hlow 1 ltac:(lra)) as [k Hk]. destruct (Hn k) as [x Hx]. exists (x - 1). exact (Hk k x (le_n k) Hx).
  - exists (l : R_IPS). intros k eps He. destruct (Hlow (eps / 2) ltac:(lra)) as [k1 H1]. destruct (Hup (eps / 2) ltac:(lra)) as [k2 H2].
    set (j := (k + k1 + k2)%nat). destruct (Hn j) as [x Hx]. exists x. split; [apply (D_dec D Hd j); [unfold j; lia|exact Hx]|].
    rewrite NR. pose proof (Hl1 _ (H1 j x ltac:(unfold j; lia) Hx)) as A. assert (B : l <= x + eps / 2). { apply Hl2. intros r Hr. apply (H2 j x r); [unfold j; lia|exact Hx|exact Hr]. }
    apply Rabs_def1; lra.
Qed.

Lemma described_R : described R_IPS.
Proof.
  intros P HP. assert (Hb : forall k, bound (fun r : R => exists x : R_IPS, P k x /\ r <= x)).
  { intro k. destruct (HP k) as (x & Hx & Hu). exists x. intros r (y & Hy & Hr). rewrite (Hu y Hy) in Hr. exact Hr. }
  assert (Hn : forall k, exists r : R, exists x : R_IPS, P k x /\ r <= x).
  { intro k. destruct (HP k) as (x & Hx & Hu). exists x, x. split; [exact Hx|apply Rle_refl]. }
  exists (fun k => (proj1_sig (completeness _ (Hb k) (Hn k)) : R_IPS)). intro k. destruct (completeness _ _ _) as [m [H1 H2]]. cbn [proj1_sig].
  destruct (HP k) as (x & Hx & Hu). replace (m : R) with (x : R); [exact Hx|]. apply Rle_antisym.
  - apply H1. exists x. split; [exact Hx|apply Rle_refl].
  - apply H2. intros r (y & Hy & Hr). rewrite (Hu y Hy) in Hr. exact Hr.
Qed.

Lemma norm_pair (E F : IPS) (a : E) (b : F) : norm ((a, b) : Prod_IPS E F) <= norm a + norm b.
Proof.
  apply Rsqr_incr_0_var; [|pose proof (norm_nonneg a); pose proof (norm_nonneg b); lra]. unfold Rsqr. rewrite norm_sq. change (norm2 ((a, b) : Prod_IPS E F)) with (norm2 a + norm2 b).
  rewrite <- (norm_sq a), <- (norm_sq b). pose proof (Rmult_le_pos _ _ (norm_nonneg a) (norm_nonneg b)). nra.
Qed.
Lemma norm_fst (E F : IPS) (z : Prod_IPS E F) : norm (fst z) <= norm z.
Proof. destruct z as [a b]. apply Rsqr_incr_0_var; [|apply norm_nonneg]. unfold Rsqr. rewrite !norm_sq. change (norm2 ((a, b) : Prod_IPS E F)) with (norm2 a + norm2 b). cbn [fst]. pose proof (norm2_nonneg b). lra. Qed.
Lemma norm_snd (E F : IPS) (z : Prod_IPS E F) : norm (snd z) <= norm z.
Proof. destruct z as [a b]. apply Rsqr_incr_0_var; [|apply norm_nonneg]. unfold Rsqr. rewrite !norm_sq. change (norm2 ((a, b) : Prod_IPS E F)) with (norm2 a + norm2 b). cbn [snd]. pose proof (norm2_nonneg a). lra. Qed.

Lemma complete_prod (E F : IPS) : complete E -> complete F -> complete (Prod_IPS E F).
Proof.
  intros HE HF D Hn Hd Hs.
  destruct (HE (fun k a => exists b, D k ((a, b) : Prod_IPS E F))) as [l1 H1].
  - intro k. destruct (Hn k) as [[a b] H]. exists a, b. exact H.
  - intros k a [b H]. exists b. apply Hd. exact H.
  - intros eps He. destruct (Hs eps He) as [k Hk]. exists k. intros x y [b H] [b' H']. eapply Rle_lt_trans; [|exact (Hk _ _ H H')]. exact (norm_fst E F (((x, b) : Prod_IPS E F) [-] ((y, b') : Prod_IPS E F))).
  - destruct (HF (fun k b => exists a, D k ((a, b) : Prod_IPS E F))) as [l2 H2].
    + intro k. destruct (Hn k) as [[a b] H]. exists b, a. exact H.
    + intros k a [b H]. exists b. apply Hd. exact H.
    + intros eps He. destruct (Hs eps He) as [k Hk]. exists k. intros x y [b H] [b' H']. eapply Rle_lt_trans; [|exact (Hk _ _ H H')]. exact (norm_snd E F (((b, x) : Prod_IPS E F) [-] ((b', y) : Prod_IPS E F))).
    + exists ((l1, l2) : Prod_IPS E F). intros k eps He. destruct (Hs (eps / 3) ltac:(lra)) as [k1 K1]. set (j := (k + k1)%nat).
      destruct (H1 j (eps / 3) ltac:(lra)) as (a & [b Hab] & Ha). destruct (H2 j (eps / 3) ltac:(lra)) as (b' & [a' Hab'] & Hb).
      exists ((a, b) : Prod_IPS E F). split; [apply (D_dec D Hd j); [unfold j; lia|exact Hab]|].
      pose proof (K1 _ _ (D_dec D Hd j k1 _ ltac:(unfold j; lia) Hab) (D_dec D Hd j k1 _ ltac:(unfold j; lia) Hab')) as K.
      pose proof (norm_snd E F (((a, b) : Prod_IPS E F) [-] ((a', b') : Prod_IPS E F))) as K2. change (snd (((a, b) : Prod_IPS E F) [-] ((a', b') : Prod_IPS E F))) with (b [-] b') in K2.
      change (((a, b) : Prod_IPS E F) [-] ((l1, l2) : Prod_IPS E F)) with ((a [-] l1, b [-] l2) : Prod_IPS E F). eapply Rle_lt_trans; [apply norm_pair|].
      pose proof (norm_triangle (b [-] b') (b' [-] l2)) as K3. replace (b [-] b' [+] (b' [-] l2)) with (b [-] l2) in K3 by vring. lra.
Qed.
Lemma described_prod (E F : IPS) : described E -> described F -> described (Prod_IPS E F).
Proof.
  intros HE HF P HP.
  destruct (HE (fun k a => exists b, P k ((a, b) : Prod_IPS E F))) as [u Hu].
  { intro k. destruct (HP k) as ([a b] & H & Hq). exists a. split; [exists b; exact H|]. intros y [b' H']. pose proof (Hq _ H') as Q. injection Q as -> _. reflexivity. }
  destruct (HF (fun k b => exists a, P k ((a, b) : Prod_IPS E F))) as [v Hv].
  { intro k. destruct (HP k) as ([a b] & H & Hq). exists b. split; [exists a; exact H|]. intros y [b' H']. pose proof (Hq _ H') as Q. injection Q as _ ->. reflexivity. }
  exists (fun k => (u k, v k) : Prod_IPS E F). intro k. destruct (HP k) as ([a b] & H & Hq). destruct (Hu k) as [b' H1]. destruct (Hv k) as [a' H2].
  pose proof (Hq _ H1) as Q1. pose proof (Hq _ H2) as Q2. injection Q1 as -> _. injection Q2 as _ ->. exact H.
Qed.

(** stacking: Pow E (S n) is E x Pow E n up to names *)
Lemma pcons_sub {E : IPS} {n} (x y : E) (s t : Pow E n) : pcons x s [-] pcons y t = pcons (x [-] y) (s [-] t).
Proof. apply nlist_eq. reflexivity. Qed.
Lemma norm2_pcons {E : IPS} {n} (x : E) (s : Pow E n) : norm2 (pcons x s) = norm2 x + norm2 s.
Proof. reflexivity. Qed.
Lemma pcons_inv {E : IPS} {n} (z : Pow E (S n)) : exists x s, z = pcons x s.
Proof. destruct z as [l Hl]. destruct l as [|a l]; [discriminate|]. assert (Hl' : List.length l = n) by (simpl in Hl; lia). exists a, (exist _ l Hl' : Pow E n). apply nlist_eq. reflexivity. Qed.
Lemma pcons_inj {E : IPS} {n} (x y : E) (s t : Pow E n) : pcons x s = pcons y t -> x = y /\ s = t.
Proof. intro H. apply (f_equal (@proj1_sig _ _)) in H. cbn [pcons proj1_sig] in H. injection H as -> H. split; [reflexivity|apply nlist_eq; exact H]. Qed.
Lemma norm_pcons {E : IPS} {n} (x : E) (s : Pow E n) : norm (pcons x s) = norm ((x, s) : Prod_IPS E (Pow E n)).
Proof. unfold norm. rewrite norm2_pcons. reflexivity. Qed.

Lemma pow0 {E : IPS} (x y : Pow E 0) : x = y.
Proof. apply nlist_eq. destruct x as [l Hl], y as [l' Hl']. destruct l; [|discriminate]. destruct l'; [|discriminate]. reflexivity. Qed.
Lemma complete_pow (E : IPS) n : complete E -> complete (Pow E n).
Proof.
  intro HE. induction n as [|n IH].
  - intros D Hn Hd Hs. exists vzero. intros k eps He. destruct (Hn k) as [x Hx]. exists x. split; [exact Hx|]. rewrite (pow0 (x [-] vzero) vzero). rewrite norm_zero. exact He.
  - intros D Hn Hd Hs. destruct (complete_prod E (Pow E n) HE IH (fun k z => D k (pcons (fst z) (snd z)))) as [[a s] Hl].
    + intro k. destruct (Hn k) as [z Hz]. destruct (pcons_inv z) as (x & s & ->). exists ((x, s) : Prod_IPS E (Pow E n)). exact Hz.
    + intros k z. apply Hd.
    + intros eps He. destruct (Hs eps He) as [k Hk]. exists k. intros [x s] [y t] H1 H2. specialize (Hk _ _ H1 H2). cbn [fst snd] in Hk. rewrite pcons_sub, norm_pcons in Hk. exact Hk.
    + exists (pcons a s). intros k eps He. destruct (Hl k eps He) as ([x t] & H1 & H2). exists (pcons x t). split; [exact H1|]. rewrite pcons_sub, norm_pcons. exact H2.
Qed.
Lemma described_pow (E : IPS) n : described E -> described (Pow E n).
Proof.
  intro HE. induction n as [|n IH].
  - intros P HP. exists (fun _ => vzero). intro k. destruct (HP k) as (x & Hx & _). rewrite (pow0 vzero x). exact Hx.
  - intros P HP. destruct (described_prod E (Pow E n) HE IH (fun k z => P k (pcons (fst z) (snd z)))) as [u Hu].
    + intro k. destruct (HP k) as (z & Hz & Hq). destruct (pcons_inv z) as (x & s & ->). exists ((x, s) : Prod_IPS E (Pow E n)). split; [exact Hz|].
      intros [y t] H. specialize (Hq _ H). cbn [fst snd] in Hq. apply pcons_inj in Hq. destruct Hq as [-> ->]. reflexivity.
    + exists (fun k => pcons (fst (u k)) (snd (u k))). exact Hu.
Qed.

(** ** strongly convex functions *)
Lemma strong_mid {E : IPS} (s : R) (f : efun E) x y : strongly_convex s f -> edom f x -> edom f y ->
  edom f (/ 2 [*] (x [+] y)) /\ eval f (/ 2 [*] (x [+] y)) <= / 2 * eval f x + / 2 * eval f y - s / 8 * norm2 (x [-] y).
Proof.
  intros H Hx Hy. destruct (H x y (/ 2) Hx Hy ltac:(lra)) as [H1 H2]. cbn [edom eval] in H1, H2. replace ((1 - / 2) [*] x [+] / 2 [*] y) with (/ 2 [*] (x [+] y)) in H1, H2 by (vfield; lra).
  split; [exact H1|]. replace (norm2 (/ 2 [*] (x [+] y))) with (/ 2 * norm2 x + / 2 * norm2 y - / 4 * norm2 (x [-] y)) in H2 by (unfold norm2; iexp; field). nra.
Qed.
Lemma strong_min {E : IPS} (s : R) (f : efun E) : complete E -> 0 < s -> strongly_convex s f -> closed f -> minorised f -> (exists x, edom f x) ->
  exists p, is_min f p /\ forall y, edom f y -> eval f p + s / 4 * norm2 (y [-] p) <= eval f y.
Proof.
  intros HE Hs Hf Hc [v [c Hv]] [x0 Hx0].
  assert (Hlow : exists m, forall r, (exists x, edom f x /\ r = eval f x) -> m <= r).
  { exists (2 * << v, x0 >> - 2 * c - eval f x0 - norm2 v / s). intros r (y & Hy & ->). destruct (strong_mid s f x0 y Hf Hx0 Hy) as [H1 H2]. specialize (Hv _ H1).
    replace (<< v, / 2 [*] (x0 [+] y) >>) with (<< v, x0 >> + / 2 * << v, y [-] x0 >>) in Hv by (iexp; field).
    pose proof (norm2_nonneg (2 / s [*] v [+] (y [-] x0))) as H3. replace (norm2 (2 / s [*] v [+] (y [-] x0))) with (4 / (s * s) * norm2 v + 4 / s * << v, y [-] x0 >> + norm2 (x0 [-] y)) in H3 by (unfold norm2; iexp; field; lra).
    apply (Rmult_le_compat_l (s / 4)) in H3; [|lra]. rewrite Rmult_0_r in H3.
    replace (s / 4 * (4 / (s * s) * norm2 v + 4 / s * << v, y [-] x0 >> + norm2 (x0 [-] y))) with (norm2 v / s + << v, y [-] x0 >> + s / 4 * norm2 (x0 [-] y)) in H3 by (field; lra). lra. }
  destruct (ginf (fun r => exists x, edom f x /\ r = eval f x) (ex_intro _ _ (ex_intro _ x0 (conj Hx0 eq_refl))) Hlow) as [m [Hm1 Hm2]].
  assert (Hm : forall x, edom f x -> m <= eval f x) by (intros x Hx; apply Hm1; exists x; auto).
  set (D := fun k x => edom f x /\ eval f x <= m + / INR (S k)).
  assert (Ik : forall k, 0 < / INR (S k)) by (intro k; apply Rinv_0_lt_compat, lt_0_INR; lia).
  destruct (HE D) as [l Hl].
  - intro k. apply NNPP. intro Hno. assert (A : m + / INR (S k) <= m); [|pose proof (Ik k); lra]. apply Hm2. intros r (x & Hx & ->). apply Rnot_lt_le. intro Hlt. apply Hno. exists x. split; [exact Hx|lra].
  - intros k x [H1 H2]. split; [exact H1|]. assert (/ INR (S (S k)) <= / INR (S k)); [|lra]. apply Rinv_le_contravar; [apply lt_0_INR; lia|apply le_INR; lia].
  - intros eps He. destruct (archimed_cor1 (s / 8 * (eps * eps))) as (N & HN & HN0); [apply Rmult_lt_0_compat; [lra|apply Rmult_lt_0_compat; lra]|].
    exists N. intros x y [H1 H2] [H3 H4]. destruct (strong_mid s f x y Hf H1 H3) as [H5 H6]. specialize (Hm _ H5).
    assert (H7 : / INR (S N) <= / INR N) by (apply Rinv_le_contravar; [apply lt_0_INR; lia|apply le_INR; lia]).
    assert (H8 : norm2 (x [-] y) < eps * eps). { apply (Rmult_lt_reg_l (s / 8)); [lra|]. lra. }
    rewrite <- norm_sq in H8. apply Rnot_le_lt. intro H9. pose proof (Rmult_le_compat eps (norm (x [-] y)) eps (norm (x [-] y)) ltac:(lra) ltac:(lra) H9 H9). lra.
  - assert (Hlk : forall k, edom f l /\ eval f l <= m + / INR (S k)). { intro k. apply Hc. intros eps He. destruct (Hl k eps He) as (x & [H1 H2] & H3). exists x. auto. }
    assert (Hd : edom f l) by exact (proj1 (Hlk 0%nat)).
    assert (Hle : eval f l <= m). { apply Rnot_lt_le. intro Hlt. destruct (archimed_cor1 (eval f l - m) ltac:(lra)) as (N & HN & HN0). destruct (Hlk N) as [_ H]. assert (/ INR (S N) <= / INR N) by (apply Rinv_le_contravar; [apply lt_0_INR; lia|apply le_INR; lia]). lra. }
    exists l. split; [split; [exact Hd|intros y Hy; specialize (Hm y Hy); lra]|].
    intros y Hy. destruct (strong_mid s f y l Hf Hy Hd) as [H1 H2]. specialize (Hm _ H1). lra.
Qed.

(** ** convex functions with bounded level sets: minimise f + |.|^2 / (2 (k+1)) and pass to the limit *)
Definition reg {E : IPS} (s : R) (f : efun E) : efun E := mkEfun (edom f) (fun x => eval f x + s / 2 * norm2 x).
Lemma reg_strong {E : IPS} s (f : efun E) : convex f -> strongly_convex s (reg s f).
Proof. intros Hf x y t Hx Hy Ht. destruct (Hf x y t Hx Hy Ht) as [H1 H2]. cbn [edom eval reg]. split; [exact H1|]. lra. Qed.
Lemma reg_minor {E : IPS} s (f : efun E) : 0 <= s -> minorised f -> minorised (reg s f).
Proof. intros Hs [v [c H]]. exists v, c. intros x Hx. specialize (H x Hx). cbn [eval reg]. pose proof (Rmult_le_pos (s / 2) _ ltac:(lra) (norm2_nonneg x)). lra. Qed.
Lemma norm2_cont {E : IPS} (l : E) eps : 0 < eps -> exists d, 0 < d /\ forall x, norm (x [-] l) < d -> norm2 l <= norm2 x + eps.
Proof.
  intro He. pose proof (norm_nonneg l) as Hl. exists (eps / (2 * norm l + 1)). assert (Hd : 0 < eps / (2 * norm l + 1)) by (apply Rdiv_lt_0_compat; lra). split; [exact Hd|]. intros x Hx.
  replace (norm2 l) with (norm2 x - norm2 (x [-] l) - 2 * << x [-] l, l >>) by (unfold norm2; iexp; ring). pose proof (norm2_nonneg (x [-] l)).
  assert (H2 : - << x [-] l, l >> <= norm (x [-] l) * norm l). { pose proof (CS_abs (x [-] l) l) as H2. pose proof (Rle_abs (- << x [-] l, l >>)) as H5. rewrite Rabs_Ropp in H5. lra. }
  assert (H3 : norm (x [-] l) * norm l <= eps / (2 * norm l + 1) * norm l) by (apply Rmult_le_compat_r; lra).
  assert (H4 : eps / (2 * norm l + 1) * (2 * norm l + 1) = eps) by (field; lra). lra.
Qed.
Lemma closed_plus {E : IPS} (f : efun E) (h : E -> R) : closed f -> (forall l eps, 0 < eps -> exists d, 0 < d /\ forall x, norm (x [-] l) < d -> h l <= h x + eps) -> closed (mkEfun (edom f) (fun x => eval f x + h x)).
Proof.
  intros Hf Hh l c H. assert (A : forall eps, 0 < eps -> edom f l /\ eval f l <= c - h l + eps).
  { intros eps He. destruct (Hh l eps He) as (d & Hd & Hx). apply Hf. intros e He'. destruct (H (Rmin d e)) as (x & H1 & H2 & H3); [apply Rmin_pos; auto|]. cbn [edom eval] in H2, H3.
    exists x. pose proof (Rmin_l d e). pose proof (Rmin_r d e). split; [lra|]. split; [exact H2|]. specialize (Hx x ltac:(lra)). lra. }
  split; [exact (proj1 (A 1 ltac:(lra)))|]. cbn [eval]. apply Rnot_lt_le. intro Hlt. destruct (A ((eval f l + h l - c) / 2) ltac:(lra)) as [_ B]. lra.
Qed.
Lemma reg_closed {E : IPS} s (f : efun E) : 0 < s -> closed f -> closed (reg s f).
Proof.
  intros Hs Hf. apply (closed_plus f (fun x => s / 2 * norm2 x) Hf). intros l eps He. destruct (norm2_cont l (2 / s * eps)) as (d & Hd & H); [apply Rmult_lt_0_compat; [apply Rdiv_lt_0_compat|]; lra|].
  exists d. split; [exact Hd|]. intros x Hx. specialize (H x Hx). apply (Rmult_le_compat_l (s / 2)) in H; [|lra]. replace (s / 2 * (norm2 x + 2 / s * eps)) with (s / 2 * norm2 x + eps) in H by (field; lra). exact H.
Qed.

Lemma closed_lsc {E : IPS} (f : efun E) : closed f -> lsc f.
Proof. intros H u l c Hu Hk. apply H. intros eps He. destruct (Hu eps He) as [N HN]. exists (u N). split; [apply HN; lia|apply Hk]. Qed.

Lemma convex_min {E : IPS} (f : efun E) : bw E -> complete E -> described E -> convex f -> closed f -> minorised f -> level_bounded f -> (exists x, edom f x) -> exists p, is_min f p.
Proof.
  intros HB HE HU Hf Hc Hm Hl [x0 Hx0].
  assert (Ik : forall k, 0 < / INR (S k)) by (intro k; apply Rinv_0_lt_compat, lt_0_INR; lia).
  assert (Ik1 : forall k, / INR (S k) <= 1). { intro k. rewrite <- Rinv_1. apply Rinv_le_contravar; [lra|]. change 1 with (INR 1). apply le_INR. lia. }
  destruct (HU (fun k x => is_min (reg (/ INR (S k)) f) x)) as [u Hu].
  { intro k. destruct (strong_min (/ INR (S k)) (reg (/ INR (S k)) f) HE (Ik k) (reg_strong _ f Hf) (reg_closed _ f (Ik k) Hc) (reg_minor _ f ltac:(left; apply Ik) Hm) (ex_intro _ x0 Hx0)) as (p & Hp & Hg).
    exists p. split; [exact Hp|]. intros y [Hy1 Hy2]. specialize (Hg y Hy1). specialize (Hy2 p (proj1 Hp)). apply vsub_eq, norm2_eq0. apply Rle_antisym; [|apply norm2_nonneg].
    apply (Rmult_le_reg_l (/ INR (S k) / 4)); [pose proof (Ik k); lra|]. lra. }
  destruct (Hl (eval f x0 + 1 / 2 * norm2 x0)) as [M HM].
  assert (Hle : forall k y, edom f y -> eval f (u k) <= eval f y + / INR (S k) / 2 * norm2 y).
  { intros k y Hy. destruct (Hu k) as [_ H]. specialize (H y Hy). cbn [eval reg] in H. pose proof (Rmult_le_pos (/ INR (S k) / 2) (norm2 (u k)) ltac:(pose proof (Ik k); lra) (norm2_nonneg _)). lra. }
  assert (Hd : forall k, edom f (u k)) by (intro k; exact (proj1 (Hu k))).
  destruct (HB u M) as (l & phi & Hphi & Hcv).
  { intro k. apply HM; [apply Hd|]. eapply Rle_trans; [apply (Hle k x0 Hx0)|]. apply Rplus_le_compat_l. apply Rmult_le_compat_r; [apply norm2_nonneg|pose proof (Ik1 k); lra]. }
  assert (Hge : forall k, (k <= phi k)%nat). { induction k; [lia|specialize (Hphi k); lia]. }
  assert (Hlim : forall y eps, edom f y -> 0 < eps -> edom f l /\ eval f l <= eval f y + eps).
  { intros y eps Hy He. pose proof (norm2_nonneg y) as Hy2. destruct (archimed_cor1 (eps / (norm2 y + 1))) as (N & HN & HN0); [apply Rdiv_lt_0_compat; lra|].
    apply (closed_lsc f Hc (fun k => u (phi (N + k)%nat)) l).
    - intros e He'. destruct (Hcv e He') as [K HK]. exists K. intros k Hk. apply HK. lia.
    - intro k. split; [apply Hd|]. eapply Rle_trans; [apply (Hle _ y Hy)|]. apply Rplus_le_compat_l. set (j := phi (N + k)%nat). assert (Hj : (N <= j)%nat) by (unfold j; specialize (Hge (N + k)%nat); lia).
      assert (H1 : / INR (S j) <= / INR N) by (apply Rinv_le_contravar; [apply lt_0_INR; lia|apply le_INR; lia]). pose proof (Ik j).
      assert (H2 : / INR (S j) * norm2 y <= eps / (norm2 y + 1) * norm2 y) by (apply Rmult_le_compat_r; lra).
      assert (H3 : eps / (norm2 y + 1) * (norm2 y + 1) = eps) by (field; lra). assert (H4 : 0 < eps / (norm2 y + 1)) by (apply Rdiv_lt_0_compat; lra).
      assert (H5 : 0 <= / INR (S j) * norm2 y) by (apply Rmult_le_pos; lra). lra. }
  exists l. split; [exact (proj1 (Hlim x0 1 Hx0 ltac:(lra)))|]. intros y Hy. apply Rnot_lt_le. intro Hlt. destruct (Hlim y ((eval f l - eval f y) / 2) Hy ltac:(lra)) as [_ H]. lra.
Qed.
