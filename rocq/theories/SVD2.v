(** * Every matrix has a singular value decomposition *)
From Coq Require Import Psatz.
From Verif Require Import Base Space Spec ConvexFacts VSum MatFacts M_Proj SVD.
Open Scope R_scope.

(** ** a Lipschitz function attains its maximum on a cube *)
Definition cube (d : nat) (x : nat -> R) : Prop := forall i, (i < d)%nat -> -1 <= x i <= 1.
Definition clamp1 (t : R) : R := Rmax (-1) (Rmin 1 t).
Lemma clamp1_in t : -1 <= clamp1 t <= 1.
Proof. unfold clamp1, Rmax, Rmin. repeat destruct (Rle_dec _ _); lra. Qed.
Lemma clamp1_id t : -1 <= t <= 1 -> clamp1 t = t.
Proof. intro. unfold clamp1, Rmax, Rmin. repeat destruct (Rle_dec _ _); lra. Qed.
Lemma clamp1_lip t t' : Rabs (clamp1 t - clamp1 t') <= Rabs (t - t').
Proof. unfold clamp1, Rmax, Rmin. repeat destruct (Rle_dec _ _); unfold Rabs; repeat destruct (Rcase_abs _); lra. Qed.
Definition upd (x : nat -> R) (d : nat) (t : R) (i : nat) : R := if Nat.eqb i d then t else x i.
Definition lip (d : nat) (L : R) (f : (nat -> R) -> R) : Prop := forall x y, cube d x -> cube d y -> f x - f y <= L * RS d (fun i => Rabs (x i - y i)).
Lemma cube_max d : forall L f, 0 <= L -> lip d L f -> exists x, cube d x /\ forall y, cube d y -> f y <= f x.
Proof.
  induction d as [|d IH]; intros L f HL Hf.
  - exists (fun _ => 0). split; [intros i Hi; lia|]. intros y Hy. specialize (Hf y (fun _ => 0) Hy ltac:(intros i Hi; lia)). cbn in Hf. lra.
  - assert (HU : forall x t, cube d x -> cube (S d) (upd x d (clamp1 t))).
    { intros x t Hx i Hi. unfold upd. destruct (Nat.eqb_spec i d); [apply clamp1_in|apply Hx; lia]. }
    assert (HS : forall x y t t', RS (S d) (fun i => Rabs (upd x d t i - upd y d t' i)) = RS d (fun i => Rabs (x i - y i)) + Rabs (t - t')).
    { intros. cbn [RS]. f_equal; [apply RS_ext; intros i Hi|]; unfold upd; [destruct (Nat.eqb_spec i d); [lia|reflexivity]|rewrite Nat.eqb_refl; reflexivity]. }
    assert (HM : forall t, exists x, cube d x /\ forall y, cube d y -> f (upd y d (clamp1 t)) <= f (upd x d (clamp1 t))).
    { intro t. apply (IH L (fun x => f (upd x d (clamp1 t))) HL). intros x y Hx Hy. pose proof (Hf _ _ (HU x t Hx) (HU y t Hy)) as H. rewrite HS in H. replace (clamp1 t - clamp1 t) with 0 in H by ring. rewrite Rabs_R0, Rplus_0_r in H. exact H. }
    set (Eset := fun t r => exists x, cube d x /\ r = f (upd x d (clamp1 t))).
    assert (HB : forall t, bound (Eset t)) by (intro t; destruct (HM t) as [x [_ Hx]]; exists (f (upd x d (clamp1 t))); intros r [y [Hy ->]]; auto).
    assert (HE : forall t, exists r, Eset t r) by (intro t; destruct (HM t) as [x [Hx _]]; exists (f (upd x d (clamp1 t))); exists x; auto).
    set (G := fun t => proj1_sig (completeness (Eset t) (HB t) (HE t))).
    assert (HG : forall t, is_lub (Eset t) (G t)) by (intro t; exact (proj2_sig (completeness (Eset t) (HB t) (HE t)))).
    assert (HA : forall t, exists x, cube d x /\ G t = f (upd x d (clamp1 t))).
    { intro t. destruct (HM t) as [x [Hx Hm]]. exists x. split; auto. destruct (HG t) as [G1 G2]. apply Rle_antisym; [apply G2; intros r [y [Hy ->]]; auto|apply G1; exists x; auto]. }
    assert (HGL : forall t t', G t - G t' <= L * Rabs (t - t')).
    { intros t t'. destruct (HA t) as [x [Hx E]]. destruct (HG t') as [G1 _]. specialize (G1 (f (upd x d (clamp1 t'))) (ex_intro _ x (conj Hx eq_refl))). pose proof (Hf _ _ (HU x t Hx) (HU x t' Hx)) as H. rewrite HS in H.
      rewrite (RS_ext d _ (fun _ => 0)) in H by (intros; unfold Rminus; rewrite Rplus_opp_r; apply Rabs_R0). rewrite RS_zero, Rplus_0_l in H. pose proof (Rmult_le_compat_l L _ _ HL (clamp1_lip t t')). lra. }
    destruct (continuity_ab_maj G (-1) 1 ltac:(lra)) as [t [Ht1 Ht2]].
    { intros c Hc eps He. exists (eps / (L + 1)). split; [apply Rdiv_lt_0_compat; lra|]. intros x [_ Hx]. unfold dist in *. cbn in *. unfold R_dist in *.
      assert (L * Rabs (x - c) < eps). { apply Rle_lt_trans with ((L + 1) * Rabs (x - c)); [pose proof (Rabs_pos (x - c)); nra|]. apply (Rmult_lt_compat_l (L + 1)) in Hx; [|lra]. replace ((L + 1) * (eps / (L + 1))) with eps in Hx by (field; lra). exact Hx. }
      pose proof (HGL x c). pose proof (HGL c x) as H1. rewrite Rabs_minus_sym in H1. apply Rabs_def1; lra. }
    destruct (HA t) as [x [Hx E]]. exists (upd x d (clamp1 t)). split; [apply HU; auto|]. intros y Hy. rewrite <- E.
    pose proof (Hy d ltac:(lia)) as Hyd. eapply Rle_trans; [|apply (Ht1 (y d) Hyd)]. destruct (HG (y d)) as [G1 _]. apply G1. exists y. split; [intros i Hi; apply Hy; lia|]. rewrite clamp1_id by auto.
    apply Rle_antisym.
    + pose proof (Hf y (upd y d (y d)) Hy ltac:(rewrite <- (clamp1_id (y d)) at 1 by auto; apply HU; intros i Hi; apply Hy; lia)) as H. rewrite (RS_ext (S d) _ (fun _ => 0)) in H; [rewrite RS_zero in H; lra|].
      intros i Hi. unfold upd. destruct (Nat.eqb_spec i d) as [->|]; unfold Rminus; rewrite Rplus_opp_r; apply Rabs_R0.
    + pose proof (Hf (upd y d (y d)) y ltac:(rewrite <- (clamp1_id (y d)) at 1 by auto; apply HU; intros i Hi; apply Hy; lia) Hy) as H. rewrite (RS_ext (S d) _ (fun _ => 0)) in H; [rewrite RS_zero in H; lra|].
      intros i Hi. unfold upd. destruct (Nat.eqb_spec i d) as [->|]; unfold Rminus; rewrite Rplus_opp_r; apply Rabs_R0.
Qed.

(** ** matrix-vector products *)
Definition mv {m n} (X : Vec (m * n)) (b : Vec n) : Vec m := vtab m (fun i => RS n (fun j => get X (i * n + j) * get b j)).
Definition mtv {m n} (X : Vec (m * n)) (a : Vec m) : Vec n := vtab n (fun j => RS m (fun i => get X (i * n + j) * get a i)).
Lemma mv_bil m n (X : Vec (m * n)) a b : << a, mv X b >> = << outer a b, X >>.
Proof.
  rewrite !vec_inner, RS_flat. apply RS_ext. intros i Hi. unfold mv. rewrite get_vtab by auto. rewrite <- RS_scal. apply RS_ext. intros j Hj. rewrite get_outer by auto. ring.
Qed.
Lemma mtv_bil m n (X : Vec (m * n)) a b : << mtv X a, b >> = << outer a b, X >>.
Proof.
  rewrite !vec_inner, RS_flat, RS_swap. apply RS_ext. intros j Hj. unfold mtv. rewrite get_vtab by auto. rewrite <- RS_scal_r. apply RS_ext. intros i Hi. rewrite get_outer by auto. ring.
Qed.
Lemma mtv_norm m n (X : Vec (m * n)) a : norm (mtv X a) <= norm X * norm a.
Proof.
  apply norm_le_of_sq; [apply Rmult_le_pos; apply norm_nonneg|]. set (b := mtv X a). unfold norm2 at 1. unfold b at 1. rewrite mtv_bil.
  assert (H : << outer a b, X >> <= norm a * norm b * norm X).
  { eapply Rle_trans; [apply CS|]. unfold norm at 1. rewrite outer_norm2. rewrite sqrt_mult by apply norm2_nonneg. apply Rle_refl. }
  assert (E : norm b * norm b = << outer a b, X >>) by (rewrite norm_sq; unfold norm2; unfold b at 1; apply mtv_bil).
  assert (Hb : norm b <= norm a * norm X).
  { destruct (Rle_lt_dec (norm b) (norm a * norm X)) as [|Hl]; [auto|]. exfalso. pose proof (norm_nonneg a). pose proof (norm_nonneg b). pose proof (norm_nonneg X). assert (0 <= norm a * norm X) by (apply Rmult_le_pos; auto). assert (0 < norm b) by lra. nra. }
  rewrite <- E. pose proof (norm_nonneg b). replace (norm X * norm a) with (norm a * norm X) by ring. apply Rmult_le_compat; auto.
Qed.
Lemma mtv_sub m n (X : Vec (m * n)) a a' : mtv X (a [-] a') = mtv X a [-] mtv X a'.
Proof. apply vec_ext. intros j Hj. rewrite get_sub by auto. unfold mtv. rewrite !get_vtab by auto. rewrite <- RS_sub. apply RS_ext. intros i Hi. rewrite get_sub by auto. ring. Qed.
Lemma mtv_scal m n (X : Vec (m * n)) t a : mtv X (t [*] a) = t [*] mtv X a.
Proof. apply vec_ext. intros j Hj. rewrite get_scal by auto. unfold mtv. rewrite !get_vtab by auto. rewrite <- RS_scal. apply RS_ext. intros i Hi. rewrite get_scal by auto. ring. Qed.
Lemma norm_l1 n (x : Vec n) : norm x <= RS n (fun i => Rabs (get x i)).
Proof.
  rewrite (vec_basis n x) at 1. eapply Rle_trans; [apply norm_VS|]. apply RS_le. intros k Hk. rewrite norm_scal. assert (norm (basis n k) = 1).
  { unfold norm. rewrite vec_norm2. rewrite (RS_dlt n k 1); [apply sqrt_1|auto|]. intros i Hi. unfold basis. rewrite get_vtab by auto. destruct (Nat.eqb i k); ring. }
  rewrite H. lra.
Qed.
Lemma sq_diff {E : IPS} (p q : E) M : norm p <= M -> norm q <= M -> norm2 p - norm2 q <= 2 * M * norm (p [-] q).
Proof.
  intros Hp Hq. replace (norm2 p - norm2 q) with (<< p [-] q, p [+] q >>) by (unfold norm2; rewrite inner_sub_l, !inner_add_r, (inner_sym q p); ring). eapply Rle_trans; [apply CS|].
  pose proof (norm_triangle p q). pose proof (norm_nonneg (p [-] q)). rewrite Rmult_comm. apply Rmult_le_compat_r; lra.
Qed.

(** ** a largest singular triple *)
Lemma top_vector m n (X : Vec (m * n)) : (0 < m)%nat -> exists a, norm2 a = 1 /\ forall a', norm2 (mtv X a') <= norm2 (mtv X a) * norm2 a'.
Proof.
  intro Hm. set (K := norm X * norm X). assert (HK : 0 <= K) by (apply Rmult_le_pos; apply norm_nonneg). set (B := INR m).
  assert (HB : 0 <= B) by apply pos_INR.
  set (f := fun x : nat -> R => norm2 (mtv X (vtab m x)) - K * Rmax 0 (norm2 (vtab m x) - 1)).
  assert (Hcb : forall x, cube m x -> norm (vtab m x) <= B).
  { intros x Hx. eapply Rle_trans; [apply norm_l1|]. unfold B. rewrite <- (Rmult_1_r (INR m)), <- RS_const. apply RS_le. intros i Hi. rewrite get_vtab by auto. apply Rabs_le. specialize (Hx i Hi). lra. }
  assert (Hb : forall a : Vec m, norm2 (mtv X a) <= K * norm2 a).
  { intro a. rewrite <- !norm_sq. unfold K. pose proof (mtv_norm m n X a). pose proof (norm_nonneg (mtv X a)). replace (norm X * norm X * (norm a * norm a)) with ((norm X * norm a) * (norm X * norm a)) by ring. apply Rmult_le_compat; auto. }
  destruct (cube_max m (4 * B * K) f) as [x [Hx Hmax]].
  - assert (0 <= B * K) by (apply Rmult_le_pos; auto). lra.
  - intros x y Hx Hy. unfold f. set (a := vtab m x : Vec m). set (c := vtab m y : Vec m).
    pose proof (Hcb x Hx) as Ha. pose proof (Hcb y Hy) as Hc. fold a in Ha. fold c in Hc.
    assert (HD : norm (a [-] c) <= RS m (fun i => Rabs (x i - y i))).
    { eapply Rle_trans; [apply norm_l1|]. apply RS_le. intros i Hi. rewrite get_sub by auto. unfold a, c. rewrite !get_vtab by auto. lra. }
    assert (H1 : norm2 (mtv X a) - norm2 (mtv X c) <= 2 * B * K * norm (a [-] c)).
    { pose proof (norm_nonneg X). eapply Rle_trans; [apply (sq_diff _ _ (norm X * B))|].
      - eapply Rle_trans; [apply mtv_norm|]. apply Rmult_le_compat_l; auto.
      - eapply Rle_trans; [apply mtv_norm|]. apply Rmult_le_compat_l; auto.
      - rewrite <- mtv_sub. pose proof (mtv_norm m n X (a [-] c)). unfold K. replace (2 * B * (norm X * norm X) * norm (a [-] c)) with (2 * (norm X * B) * (norm X * norm (a [-] c))) by ring. apply Rmult_le_compat_l; auto. assert (0 <= norm X * B) by (apply Rmult_le_pos; auto). lra. }
    assert (H2 : Rmax 0 (norm2 c - 1) - Rmax 0 (norm2 a - 1) <= 2 * B * norm (a [-] c)).
    { pose proof (sq_diff c a B Hc Ha) as H. rewrite norm_sub_sym in H. assert (0 <= 2 * B * norm (a [-] c)) by (apply Rmult_le_pos; [lra|apply norm_nonneg]). unfold Rmax. repeat destruct (Rle_dec _ _); lra. }
    assert (H3 : K * (Rmax 0 (norm2 c - 1) - Rmax 0 (norm2 a - 1)) <= K * (2 * B * norm (a [-] c))) by (apply Rmult_le_compat_l; auto).
    assert (H4 : 4 * B * K * norm (a [-] c) <= 4 * B * K * RS m (fun i => Rabs (x i - y i))). { apply Rmult_le_compat_l; auto. assert (0 <= B * K) by (apply Rmult_le_pos; auto). lra. }
    lra.
  - set (a0 := vtab m x : Vec m).
    (* every vector of the ball is bounded by f x *)
    assert (Hu : forall a : Vec m, norm2 a = 1 -> norm2 (mtv X a) <= f x).
    { intros a Ha. specialize (Hmax (get a)). unfold f in Hmax at 1. rewrite vtab_get, Ha in Hmax. replace (Rmax 0 (1 - 1)) with 0 in Hmax by (unfold Rmax; destruct (Rle_dec _ _); lra). rewrite Rmult_0_r, Rminus_0_r in Hmax. apply Hmax.
      intros i Hi. assert (get a i * get a i <= 1). { rewrite <- Ha, vec_norm2. rewrite <- (RS_dlt m i (get a i * get a i) (fun j => get a i * get a i * (if Nat.eqb j i then 1 else 0)) Hi) at 1 by auto. apply RS_le. intros j Hj. destruct (Nat.eqb_spec j i) as [->|]; [lra|]. pose proof (Rle_0_sqr (get a j)). unfold Rsqr in *. lra. }
      split; nra. }
    assert (Hf0 : 0 <= f x).
    { assert (norm2 (basis m 0) = 1) as Hb0. { rewrite vec_norm2. apply (RS_dlt m 0 1); auto. intros i Hi. unfold basis. rewrite get_vtab by auto. destruct (Nat.eqb i 0); ring. } pose proof (Hu _ Hb0). pose proof (norm2_nonneg (mtv X (basis m 0))). lra. }
    assert (Hex : exists a : Vec m, norm2 a = 1 /\ f x <= norm2 (mtv X a)).
    { destruct (Req_dec (norm2 a0) 0) as [E0|E0].
      - exists (basis m 0). split; [rewrite vec_norm2; apply (RS_dlt m 0 1); auto; intros i Hi; unfold basis; rewrite get_vtab by auto; destruct (Nat.eqb i 0); ring|].
        assert (Hz : f x = 0). { unfold f. fold a0. apply norm2_eq0 in E0. rewrite E0. replace (vzero : Vec m) with (0 [*] (vzero : Vec m)) by vring. rewrite mtv_scal, vscal_0, vscal_0, !norm2_zero. unfold Rmax. destruct (Rle_dec _ _); lra. }
        rewrite Hz. apply norm2_nonneg.
      - pose proof (norm2_nonneg a0). assert (Hp : 0 < norm a0). { pose proof (norm_nonneg a0). destruct (Req_dec (norm a0) 0) as [E|E]; [|lra]. exfalso. apply E0. rewrite <- norm_sq, E. ring. }
        exists (/ norm a0 [*] a0). assert (E1 : norm2 (/ norm a0 [*] a0) = 1) by (rewrite norm2_scal, <- norm_sq; field; lra). split; auto.
        rewrite mtv_scal, norm2_scal. set (g := norm2 (mtv X a0)). assert (Eg : / norm a0 * / norm a0 * g = g / norm2 a0) by (rewrite <- norm_sq; field; lra). rewrite Eg.
        assert (Hg : 0 <= g) by apply norm2_nonneg. pose proof (Hb a0) as HbK. fold g in HbK.
        unfold f. fold a0. fold g. set (N := norm2 a0) in *. assert (HN : 0 < N) by lra. unfold Rmax. destruct (Rle_dec 0 (N - 1)).
        + apply Rmult_le_reg_r with N; auto. replace (g / N * N) with g by (field; lra). nra.
        + apply Rmult_le_reg_r with N; auto. replace (g / N * N) with g by (field; lra). nra. }
    destruct Hex as [a [Ha Hfa]]. exists a. split; auto. intro a'. destruct (Req_dec (norm2 a') 0) as [E0|E0].
    + apply norm2_eq0 in E0. subst a'. replace (vzero : Vec m) with (0 [*] (vzero : Vec m)) by vring. rewrite mtv_scal, vscal_0, vscal_0, norm2_zero, norm2_zero. lra.
    + pose proof (norm2_nonneg a'). assert (Hp : 0 < norm a'). { pose proof (norm_nonneg a'). destruct (Req_dec (norm a') 0) as [E|E]; [|lra]. exfalso. apply E0. rewrite <- norm_sq, E. ring. }
      pose proof (Hu (/ norm a' [*] a') ltac:(rewrite norm2_scal, <- norm_sq; field; lra)) as H1. rewrite mtv_scal, norm2_scal in H1.
      replace (/ norm a' * / norm a' * norm2 (mtv X a')) with (norm2 (mtv X a') / norm2 a') in H1 by (rewrite <- (norm_sq a'); field; lra).
      assert (H2 : norm2 (mtv X a') / norm2 a' <= norm2 (mtv X a)) by lra. apply (Rmult_le_compat_r (norm2 a')) in H2; [|lra]. replace (norm2 (mtv X a') / norm2 a' * norm2 a') with (norm2 (mtv X a')) in H2 by (field; lra). exact H2.
Qed.
Lemma top_triple m n (X : Vec (m * n)) : (0 < m)%nat -> exists s a b, 0 <= s /\ (forall a' b', << outer a' b', X >> <= s * (norm a' * norm b')) /\
  (s = 0 \/ (norm2 a = 1 /\ norm2 b = 1 /\ (forall b', << outer a b', X >> = s * << b, b' >>) /\ (forall a', << outer a' b, X >> = s * << a, a' >>))).
Proof.
  intro Hm. destruct (top_vector m n X Hm) as [a [Ha Hmax]]. set (s := norm (mtv X a)). exists s, a, (/ s [*] mtv X a). assert (Hs : 0 <= s) by apply norm_nonneg. split; auto.
  assert (Hbd : forall a', norm (mtv X a') <= s * norm a').
  { intro a'. apply norm_le_of_sq; [apply Rmult_le_pos; auto; apply norm_nonneg|]. specialize (Hmax a'). rewrite <- (norm_sq a'), <- (norm_sq (mtv X a)) in Hmax. fold s in Hmax. nra. }
  split.
  - intros a' b'. rewrite <- mtv_bil. eapply Rle_trans; [apply CS|]. rewrite <- Rmult_assoc. apply Rmult_le_compat_r; [apply norm_nonneg|apply Hbd].
  - destruct (Req_dec s 0) as [E|E]; [auto|]. right. assert (0 < s) by lra. set (b := / s [*] mtv X a).
    assert (Hb : norm2 b = 1) by (unfold b; rewrite norm2_scal, <- norm_sq; fold s; field; lra). split; auto. split; auto.
    assert (H1 : forall b', << outer a b', X >> = s * << b, b' >>) by (intro b'; rewrite <- mtv_bil; unfold b; rewrite inner_scal_l; field; lra). split; auto.
    assert (Nb : norm b = 1) by (unfold norm; rewrite Hb; apply sqrt_1).
    set (c := mv X b). assert (Hc : norm c <= s).
    { assert (Hcc : norm2 c = << mtv X c, b >>) by (rewrite mtv_bil, <- mv_bil; reflexivity). pose proof (CS (mtv X c) b) as H2. rewrite Nb, Rmult_1_r in H2. rewrite <- Hcc, <- norm_sq in H2. pose proof (Hbd c). pose proof (norm_nonneg c).
      destruct (Req_dec (norm c) 0); [lra|]. apply Rmult_le_reg_r with (norm c); lra. }
    assert (Hac : << a, c >> = s) by (unfold c; rewrite mv_bil, H1; fold (norm2 b); rewrite Hb; ring).
    assert (E2 : c = s [*] a).
    { apply norm2_sub_eq0. apply Rle_antisym; [|apply norm2_nonneg]. rewrite norm2_sub, norm2_scal, inner_scal_r, (inner_sym c), Hac, Ha, <- norm_sq. pose proof (norm_nonneg c). nra. }
    intro a'. rewrite <- mv_bil. fold c. rewrite E2, inner_scal_r, (inner_sym a'). reflexivity.
Qed.

(** ** completing orthonormal families *)
Lemma basis_inner n (x : Vec n) j : (j < n)%nat -> << x, basis n j >> = get x j.
Proof. intro Hj. rewrite vec_inner. apply (RS_dlt n j); auto. intros i Hi. unfold basis. rewrite get_vtab by auto. destruct (Nat.eqb_spec i j) as [->|]; ring. Qed.
Lemma basis_norm n j : (j < n)%nat -> norm2 (basis n j) = 1.
Proof. intro Hj. unfold norm2. rewrite basis_inner by auto. unfold basis. rewrite get_vtab, Nat.eqb_refl by auto. reflexivity. Qed.
Lemma on_trace n k (u : nat -> Vec n) : orthonormal k u -> RS n (fun j => norm2 (basis n j) - RS k (fun i => << u i, basis n j >> * << u i, basis n j >>)) = INR n - INR k.
Proof.
  intro H. rewrite RS_sub. f_equal.
  - rewrite <- (Rmult_1_r (INR n)), <- RS_const. apply RS_ext. intros j Hj. apply basis_norm; auto.
  - rewrite RS_swap. rewrite <- (Rmult_1_r (INR k)), <- RS_const. apply RS_ext. intros i Hi. rewrite <- (on_norm k u i H Hi), vec_norm2. apply RS_ext. intros j Hj. rewrite basis_inner by auto. reflexivity.
Qed.
Lemma RS_pos_ex n h : 0 < RS n h -> exists j, (j < n)%nat /\ 0 < h j.
Proof.
  induction n as [|n IH]; cbn [RS]; intro Hs; [lra|]. destruct (Rlt_dec 0 (h n)); [exists n; split; [lia|auto]|]. destruct IH as [j [Hj H]]; [lra|]. exists j. split; [lia|auto].
Qed.
Lemma on_extend n k (u : nat -> Vec n) : orthonormal k u -> (k < n)%nat -> exists w, norm2 w = 1 /\ forall i, (i < k)%nat -> << u i, w >> = 0.
Proof.
  intros H Hk. pose proof (on_trace n k u H) as T.
  assert (Hj : exists j, (j < n)%nat /\ 0 < norm2 (basis n j) - RS k (fun i => << u i, basis n j >> * << u i, basis n j >>)).
  { assert (Hs : 0 < RS n (fun j => norm2 (basis n j) - RS k (fun i => << u i, basis n j >> * << u i, basis n j >>))) by (rewrite T; apply lt_INR in Hk; lra).
    apply RS_pos_ex in Hs. exact Hs. }
  destruct Hj as [j [Hj Hp]]. set (w := basis n j [-] VS k (fun i => << u i, basis n j >> [*] u i)). assert (Hw : 0 < norm2 w) by (unfold w; rewrite on_residual by auto; exact Hp).
  assert (Hn : 0 < norm w) by (apply sqrt_lt_R0; auto). exists (/ norm w [*] w). split; [rewrite norm2_scal, <- norm_sq; field; lra|].
  intros i Hi. rewrite inner_scal_r. unfold w at 2. rewrite inner_sub_r, (on_coef k u (fun i => << u i, basis n j >>)) by auto. ring.
Qed.
Lemma on_complete n (u : nat -> Vec n) : orthonormal n u -> forall a, a = VS n (fun i => << u i, a >> [*] u i).
Proof.
  intros H a. assert (HB : forall j, (j < n)%nat -> basis n j = VS n (fun i => << u i, basis n j >> [*] u i)).
  { intros j Hj. apply norm2_sub_eq0. rewrite on_residual by auto. apply (RS_zero_all n (fun j => norm2 (basis n j) - RS n (fun i => << u i, basis n j >> * << u i, basis n j >>))); auto.
    - intros i Hi. pose proof (bessel n u (basis n i) H). lra.
    - rewrite on_trace by auto. ring. }
  apply norm2_sub_eq0. set (w := a [-] VS n (fun i => << u i, a >> [*] u i)).
  assert (Hw : forall i, (i < n)%nat -> << u i, w >> = 0) by (intros i Hi; unfold w; rewrite inner_sub_r, (on_coef n u (fun i => << u i, a >>)) by auto; ring).
  rewrite vec_norm2. rewrite (RS_ext n _ (fun _ => 0)); [apply RS_zero|]. intros j Hj. rewrite <- basis_inner by auto. rewrite HB by auto. rewrite inner_VS_r. rewrite (RS_ext n _ (fun _ => 0)); [rewrite RS_zero; ring|].
  intros i Hi. rewrite inner_scal_r, (inner_sym w), Hw by auto. ring.
Qed.

(** ** existence *)
Definition setf {A} (f : nat -> A) (k : nat) (a : A) (i : nat) : A := if Nat.eqb i k then a else f i.
Lemma setf_eq {A} (f : nat -> A) k a : setf f k a k = a.
Proof. unfold setf. rewrite Nat.eqb_refl. reflexivity. Qed.
Lemma setf_ne {A} (f : nat -> A) k a i : (i < k)%nat -> setf f k a i = f i.
Proof. intro H. unfold setf. destruct (Nat.eqb_spec i k); [lia|reflexivity]. Qed.
Lemma on_set {E : IPS} k (u : nat -> E) w : orthonormal k u -> norm2 w = 1 -> (forall i, (i < k)%nat -> << u i, w >> = 0) -> orthonormal (S k) (setf u k w).
Proof.
  intros H Hw H0 i j Hi Hj. destruct (Nat.eq_dec i k) as [->|Hi']; destruct (Nat.eq_dec j k) as [->|Hj'].
  - rewrite setf_eq, Nat.eqb_refl. exact Hw.
  - rewrite setf_eq, setf_ne by lia. rewrite inner_sym, H0 by lia. destruct (Nat.eqb_spec k j); [lia|reflexivity].
  - rewrite setf_eq, setf_ne by lia. rewrite H0 by lia. destruct (Nat.eqb_spec i k); [lia|reflexivity].
  - rewrite !setf_ne by lia. apply H; lia.
Qed.
Lemma bil_zero m n (X : Vec (m * n)) : (forall a b, << outer a b, X >> = 0) -> X = vzero.
Proof.
  intro H. apply mat_ext. intros i j Hi Hj. rewrite get_zero. rewrite <- (H (basis m i) (basis n j)), <- mv_bil. rewrite inner_sym, basis_inner by auto. unfold mv. rewrite get_vtab by auto. symmetry. apply (RS_dlt n j); auto.
  intros l Hl. unfold basis. rewrite get_vtab by auto. destruct (Nat.eqb_spec l j) as [->|]; ring.
Qed.
Lemma deflate m n (X : Vec (m * n)) : forall k, (k <= Nat.min m n)%nat -> exists s u v, let Rk := X [-] synth k s u v in
  orthonormal k u /\ orthonormal k v /\ noninc k s /\ (forall i b, (i < k)%nat -> << outer (u i) b, Rk >> = 0) /\ (forall i a, (i < k)%nat -> << outer a (v i), Rk >> = 0) /\
  forall i a b, (i < k)%nat -> << outer a b, Rk >> <= s i * (norm a * norm b).
Proof.
  induction k as [|k IH]; intro Hk.
  - exists (fun _ => 0), (fun _ => vzero), (fun _ => vzero). cbn zeta. split; [intros i j Hi; lia|]. split; [intros i j Hi; lia|]. split; [split; intros; lia|]. split; [intros; lia|]. split; intros; lia.
  - destruct IH as [s [u [v IH]]]; [lia|]. cbn zeta in IH. destruct IH as [Hu [Hv [[Hs Hs0] [Hl [Hr Hb]]]]]. set (Rk := X [-] synth k s u v) in *.
    destruct (top_triple m n Rk ltac:(lia)) as [t [a [b [Ht [Hbd Hcase]]]]].
    assert (HT : exists a b, norm2 a = 1 /\ norm2 b = 1 /\ (forall i, (i < k)%nat -> << u i, a >> = 0) /\ (forall i, (i < k)%nat -> << v i, b >> = 0) /\ (forall b', << outer a b', Rk >> = t * << b, b' >>) /\ (forall a', << outer a' b, Rk >> = t * << a, a' >>)).
    { destruct Hcase as [E|[Ha [Hb' [H1 H2]]]].
      - destruct (on_extend m k u Hu ltac:(lia)) as [a1 [A1 A2]]. destruct (on_extend n k v Hv ltac:(lia)) as [b1 [B1 B2]]. exists a1, b1.
        assert (Hz : forall a' b', << outer a' b', Rk >> = 0).
        { intros a' b'. pose proof (Hbd a' b'). pose proof (Hbd (-1 [*] a') b') as H1. rewrite outer_scal_l, inner_scal_l in H1. rewrite E in *. lra. }
        split; auto. split; auto. split; auto. split; auto. split; intros; rewrite Hz, E; ring.
      - destruct (Req_dec t 0) as [E|E].
        + destruct (on_extend m k u Hu ltac:(lia)) as [a1 [A1 A2]]. destruct (on_extend n k v Hv ltac:(lia)) as [b1 [B1 B2]]. exists a1, b1.
          assert (Hz : forall a' b', << outer a' b', Rk >> = 0).
          { intros a' b'. pose proof (Hbd a' b'). pose proof (Hbd (-1 [*] a') b') as H3. rewrite outer_scal_l, inner_scal_l in H3. rewrite E in *. lra. }
          split; auto. split; auto. split; auto. split; auto. split; intros; rewrite Hz, E; ring.
        + exists a, b. split; auto. split; auto. split; [|split].
          * intros i Hi. pose proof (Hl i b Hi) as H3. rewrite H2 in H3. rewrite (inner_sym (u i)). apply Rmult_integral in H3 as [H3|H3]; [contradiction|exact H3].
          * intros i Hi. pose proof (Hr i a Hi) as H3. rewrite H1 in H3. rewrite (inner_sym (v i)). apply Rmult_integral in H3 as [H3|H3]; [contradiction|exact H3].
          * split; auto. }
    clear a b Hcase. destruct HT as [a [b [Ha [Hb' [Hua [Hvb [Hab Hba]]]]]]].
    exists (setf s k t), (setf u k a), (setf v k b). cbn zeta.
    assert (ES : synth (S k) (setf s k t) (setf u k a) (setf v k b) = synth k s u v [+] t [*] outer a b).
    { unfold synth. cbn [VS]. rewrite !setf_eq. f_equal. apply VS_ext. intros i Hi. rewrite !setf_ne by auto. reflexivity. }
    assert (ER : X [-] synth (S k) (setf s k t) (setf u k a) (setf v k b) = Rk [-] t [*] outer a b) by (rewrite ES; unfold Rk; vring). rewrite ER.
    assert (EB : forall a' b', << outer a' b', Rk [-] t [*] outer a b >> = << outer a' b', Rk >> - t * (<< a', a >> * << b', b >>)) by (intros; rewrite inner_sub_r, inner_scal_r, outer_inner; reflexivity).
    assert (Hts : forall i, (i < k)%nat -> t <= s i).
    { intros i Hi. pose proof (Hb i a b Hi) as H. rewrite Hab in H. fold (norm2 b) in H. rewrite Hb' in H. unfold norm in H. rewrite Ha, Hb', sqrt_1 in H. lra. }
    split; [apply on_set; auto|]. split; [apply on_set; auto|]. split; [|split; [|split]].
    + split.
      * intros i j Hij Hj. destruct (Nat.eq_dec j k) as [->|]; [rewrite setf_eq|]; (destruct (Nat.eq_dec i k) as [->|]; [rewrite ?setf_eq|]); rewrite ?setf_ne by lia; try lra; [apply Hts; lia|lia|apply Hs; lia].
      * intros i Hi. destruct (Nat.eq_dec i k) as [->|]; [rewrite setf_eq; auto|rewrite setf_ne by lia; apply Hs0; lia].
    + intros i b' Hi. rewrite EB. destruct (Nat.eq_dec i k) as [->|]; [rewrite setf_eq|rewrite setf_ne by lia].
      * fold (norm2 a). rewrite Ha, Hab, (inner_sym b'). ring.
      * rewrite Hl, Hua by lia. ring.
    + intros i a' Hi. rewrite EB. destruct (Nat.eq_dec i k) as [->|]; [rewrite setf_eq|rewrite setf_ne by lia].
      * fold (norm2 b). rewrite Hb', Hba, (inner_sym a'). ring.
      * rewrite Hr, Hvb by lia. ring.
    + intros i a' b' Hi.
      assert (H1 : << outer a' b', Rk [-] t [*] outer a b >> <= t * (norm a' * norm b')).
      { set (c := a' [-] << a', a >> [*] a).
        assert (Hc : << outer a' b', Rk [-] t [*] outer a b >> = << outer c b', Rk >>).
        { rewrite EB. unfold c. replace (a' [-] << a', a >> [*] a) with (a' [+] (- << a', a >>) [*] a) by vring. rewrite outer_add_l, outer_scal_l, inner_add_l, inner_scal_l, Hab, (inner_sym b'). ring. }
        rewrite Hc. eapply Rle_trans; [apply Hbd|]. apply Rmult_le_compat_l; auto. apply Rmult_le_compat_r; [apply norm_nonneg|]. apply norm_le_iff. unfold c. rewrite norm2_sub, norm2_scal, inner_scal_r, Ha.
        pose proof (Rle_0_sqr << a', a >>). unfold Rsqr in *. lra. }
      eapply Rle_trans; [exact H1|]. assert (0 <= norm a' * norm b') by (apply Rmult_le_pos; apply norm_nonneg). apply Rmult_le_compat_r; auto.
      destruct (Nat.eq_dec i k) as [->|]; [rewrite setf_eq; lra|rewrite setf_ne by lia; apply Hts; lia].
Qed.
Theorem svd_exists m n (X : Vec (m * n)) : exists s u v, is_svd X s u v.
Proof.
  destruct (deflate m n X (Nat.min m n) (le_n _)) as [s [u [v H]]]. cbn zeta in H. destruct H as [Hu [Hv [Hs [Hl [Hr _]]]]]. exists s, u, v. split; auto. split; auto. split; auto.
  apply vsub_eq. apply bil_zero. intros a b. set (R0 := X [-] synth (Nat.min m n) s u v) in *. destruct (Nat.le_gt_cases m n) as [Hmn|Hmn].
  - rewrite Nat.min_l in * by auto. rewrite (on_complete m u Hu a).
    assert (HO : forall k h, outer (VS k h : Vec m) b = VS k (fun i => outer (h i) b)).
    { intros k h. induction k as [|k IH]; cbn [VS]; [replace (vzero : Vec m) with (0 [*] (vzero : Vec m)) by vring; rewrite outer_scal_l; apply vscal_0|]. rewrite outer_add_l, IH. reflexivity. }
    rewrite HO, inner_VS_l. rewrite (RS_ext m _ (fun _ => 0)); [apply RS_zero|]. intros i Hi. rewrite outer_scal_l, inner_scal_l, Hl by auto. ring.
  - rewrite Nat.min_r in * by lia. rewrite (on_complete n v Hv b).
    assert (HO : forall k h, outer a (VS k h : Vec n) = VS k (fun i => outer a (h i))).
    { intros k h. induction k as [|k IH]; cbn [VS]; [replace (vzero : Vec n) with (0 [*] (vzero : Vec n)) by vring; rewrite outer_scal_r; apply vscal_0|]. rewrite outer_add_r, IH. reflexivity. }
    rewrite HO, inner_VS_r || rewrite HO, inner_VS_l. rewrite (RS_ext n _ (fun _ => 0)); [apply RS_zero|]. intros i Hi. rewrite outer_scal_r, inner_scal_l, Hr by auto. ring.
Qed.
