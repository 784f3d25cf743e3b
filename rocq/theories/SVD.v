(** * Singular values: trace inequality, uniqueness, existence *)
From Coq Require Import Psatz.
From Verif Require Import Base Space Spec ConvexFacts VSum MatFacts M_Proj.
Open Scope R_scope.

(** ** outer products *)
Definition outer {m n} (a : Vec m) (b : Vec n) : Vec (m * n) := vtab (m * n) (fun p => get a (p / n) * get b (p mod n)).
Lemma get_outer m n (a : Vec m) (b : Vec n) i j : (i < m)%nat -> (j < n)%nat -> get (outer a b) (i * n + j) = get a i * get b j.
Proof. intros Hi Hj. unfold outer. rewrite get_vtab by (apply flat_lt; auto). destruct (divmod_flat n i j Hj) as [-> ->]. reflexivity. Qed.
Lemma outer_inner m n (a a' : Vec m) (b b' : Vec n) : << outer a b, outer a' b' >> = << a, a' >> * << b, b' >>.
Proof.
  rewrite !vec_inner, RS_flat, RS_mult. apply RS_ext. intros i Hi. apply RS_ext. intros j Hj. rewrite !get_outer by auto. ring.
Qed.
Lemma mat_ext m n (x y : Vec (m * n)) : (forall i j, (i < m)%nat -> (j < n)%nat -> get x (i * n + j) = get y (i * n + j)) -> x = y.
Proof.
  intro H. apply vec_ext. intros p Hp. assert (n <> 0)%nat by nia. rewrite (Nat.div_mod p n) by auto. rewrite (Nat.mul_comm n). apply H; [apply Nat.div_lt_upper_bound; lia|apply Nat.mod_upper_bound; auto].
Qed.
Lemma outer_add_l m n (a a' : Vec m) (b : Vec n) : outer (a [+] a') b = outer a b [+] outer a' b.
Proof. apply mat_ext. intros i j Hi Hj. rewrite get_add by (apply flat_lt; auto). rewrite !get_outer, get_add by auto. ring. Qed.
Lemma outer_scal_l m n t (a : Vec m) (b : Vec n) : outer (t [*] a) b = t [*] outer a b.
Proof. apply mat_ext. intros i j Hi Hj. rewrite get_scal by (apply flat_lt; auto). rewrite !get_outer, get_scal by auto. ring. Qed.
Lemma outer_add_r m n (a : Vec m) (b b' : Vec n) : outer a (b [+] b') = outer a b [+] outer a b'.
Proof. apply mat_ext. intros i j Hi Hj. rewrite get_add by (apply flat_lt; auto). rewrite !get_outer, get_add by auto. ring. Qed.
Lemma outer_scal_r m n t (a : Vec m) (b : Vec n) : outer a (t [*] b) = t [*] outer a b.
Proof. apply mat_ext. intros i j Hi Hj. rewrite get_scal by (apply flat_lt; auto). rewrite !get_outer, get_scal by auto. ring. Qed.
Lemma outer_norm2 m n (a : Vec m) (b : Vec n) : norm2 (outer a b) = norm2 a * norm2 b.
Proof. apply outer_inner. Qed.

(** ** orthonormal families *)
Definition orthonormal {E : IPS} (k : nat) (u : nat -> E) : Prop := forall i j, (i < k)%nat -> (j < k)%nat -> << u i, u j >> = if Nat.eqb i j then 1 else 0.
Lemma on_norm {E : IPS} k (u : nat -> E) i : orthonormal k u -> (i < k)%nat -> norm2 (u i) = 1.
Proof. intros H Hi. unfold norm2. rewrite H, Nat.eqb_refl by auto. reflexivity. Qed.
Lemma RS_dlt n k c (h : nat -> R) : (k < n)%nat -> (forall i, (i < n)%nat -> h i = c * (if Nat.eqb i k then 1 else 0)) -> RS n h = c.
Proof. intros Hk H. rewrite <- (RS_delta n k (fun _ => c) Hk). apply RS_ext. intros i Hi. rewrite H by auto. rewrite (Nat.eqb_sym i k). reflexivity. Qed.
Lemma on_coef {E : IPS} k (u : nat -> E) c j : orthonormal k u -> (j < k)%nat -> << u j, VS k (fun i => c i [*] u i) >> = c j.
Proof.
  intros H Hj. rewrite inner_VS_r. apply (RS_dlt k j); auto. intros i Hi. rewrite inner_scal_r, H by auto. rewrite (Nat.eqb_sym j i). destruct (Nat.eqb_spec i j) as [->|]; ring.
Qed.
Lemma on_sum2 {E : IPS} k (u : nat -> E) c d : orthonormal k u -> << VS k (fun i => c i [*] u i), VS k (fun i => d i [*] u i) >> = RS k (fun i => c i * d i).
Proof. intro H. rewrite inner_VS_l. apply RS_ext. intros i Hi. rewrite inner_scal_l, on_coef by auto. reflexivity. Qed.
Lemma on_residual {E : IPS} k (u : nat -> E) a : orthonormal k u -> norm2 (a [-] VS k (fun i => << u i, a >> [*] u i)) = norm2 a - RS k (fun i => << u i, a >> * << u i, a >>).
Proof.
  intro H. rewrite norm2_sub. unfold norm2 at 2. rewrite on_sum2 by auto. rewrite inner_VS_r. rewrite (RS_ext k (fun i => << a, << u i, a >> [*] u i >>) (fun i => << u i, a >> * << u i, a >>)).
  - ring.
  - intros i Hi. rewrite inner_scal_r, (inner_sym a). reflexivity.
Qed.
Lemma bessel {E : IPS} k (u : nat -> E) a : orthonormal k u -> RS k (fun i => << u i, a >> * << u i, a >>) <= norm2 a.
Proof. intro H. pose proof (on_residual k u a H). pose proof (norm2_nonneg (a [-] VS k (fun i => << u i, a >> [*] u i))). lra. Qed.

(** ** sums weighted by a sub-stochastic matrix *)
Lemma abel k s g : RS k (fun i => s i * g i) = RS k (fun a => (s a - s (S a)) * RS (S a) g) + s k * RS k g.
Proof. induction k as [|k IH]; [cbn; ring|]. cbn [RS] in *. rewrite IH. ring. Qed.
Definition noninc (k : nat) (s : nat -> R) : Prop := (forall i j, (i <= j)%nat -> (j < k)%nat -> s j <= s i) /\ forall i, (i < k)%nat -> 0 <= s i.
Lemma RS_indic k a : (a < k)%nat -> RS k (fun j => if Nat.leb j a then 1 else 0) = INR (S a).
Proof.
  intro H. replace k with (S a + (k - S a))%nat by lia. rewrite RS_split. rewrite (RS_ext (S a) _ (fun _ => 1)), (RS_ext (k - S a) _ (fun _ => 0)).
  - rewrite RS_zero, RS_const. ring.
  - intros j Hj. destruct (Nat.leb_spec (S a + j) a); [lia|reflexivity].
  - intros j Hj. destruct (Nat.leb_spec j a); [reflexivity|lia].
Qed.
Lemma RS_cut k a (h : nat -> R) : (a < k)%nat -> RS k (fun j => h j * (if Nat.leb j a then 1 else 0)) = RS (S a) h.
Proof.
  intro H. replace k with (S a + (k - S a))%nat by lia. rewrite RS_split. rewrite (RS_ext (S a) _ h), (RS_ext (k - S a) _ (fun _ => 0)).
  - rewrite RS_zero. ring.
  - intros j Hj. destruct (Nat.leb_spec (S a + j) a); [lia|ring].
  - intros j Hj. destruct (Nat.leb_spec j a); [ring|lia].
Qed.
Lemma head_bound k s q a : noninc k s -> (a < k)%nat -> (forall j, (j < k)%nat -> 0 <= q j <= 1) -> RS k q <= INR (S a) -> RS k (fun j => s j * q j) <= RS (S a) s.
Proof.
  intros [Hs Hn] Ha Hq Hb. rewrite <- (RS_cut k a s Ha).
  assert (H : RS k (fun j => (s j - s a) * (q j - if Nat.leb j a then 1 else 0)) <= 0).
  { apply Rle_trans with (RS k (fun _ => 0)); [|rewrite RS_zero; lra]. apply RS_le. intros j Hj. specialize (Hq j Hj). destruct (Nat.leb_spec j a).
    - pose proof (Hs j a ltac:(lia) Ha). assert (0 <= (s j - s a) * (1 - q j)) by (apply Rmult_le_pos; lra). lra.
    - pose proof (Hs a j ltac:(lia) Hj). assert (0 <= (s a - s j) * q j) by (apply Rmult_le_pos; lra). lra. }
  rewrite (RS_ext k _ (fun j => (s j * q j - s j * (if Nat.leb j a then 1 else 0)) - (s a * q j - s a * (if Nat.leb j a then 1 else 0)))) in H by (intros; ring).
  rewrite !RS_sub, !RS_scal, RS_indic in H by auto. specialize (Hn a Ha). pose proof (Rmult_le_compat_l (s a) _ _ Hn Hb). lra.
Qed.
Lemma substochastic k s t P : noninc k s -> noninc k t -> (forall i j, (i < k)%nat -> (j < k)%nat -> 0 <= P i j) ->
  (forall i, (i < k)%nat -> RS k (fun j => P i j) <= 1) -> (forall j, (j < k)%nat -> RS k (fun i => P i j) <= 1) ->
  RS k (fun i => RS k (fun j => s i * t j * P i j)) <= RS k (fun i => s i * t i).
Proof.
  intros [Hs Hs0] Ht HP Hr Hc. set (s' := fun i => if Nat.ltb i k then s i else 0).
  assert (Es : forall i, (i < k)%nat -> s i = s' i) by (intros i Hi; unfold s'; destruct (Nat.ltb_spec i k); [reflexivity|lia]).
  rewrite (RS_ext k _ (fun i => s' i * RS k (fun j => t j * P i j))) by (intros i Hi; rewrite <- Es, <- RS_scal by auto; apply RS_ext; intros; ring).
  rewrite (RS_ext k (fun i => s i * t i) (fun i => s' i * t i)) by (intros i Hi; rewrite <- Es by auto; reflexivity).
  rewrite (abel k s' (fun i => RS k (fun j => t j * P i j))), (abel k s' t). replace (s' k) with 0 by (unfold s'; destruct (Nat.ltb_spec k k); [lia|reflexivity]). rewrite !Rmult_0_l, !Rplus_0_r. apply RS_le. intros a Ha.
  apply Rmult_le_compat_l.
  { unfold s'. destruct (Nat.ltb_spec a k); [|lia]. destruct (Nat.ltb_spec (S a) k); [pose proof (Hs a (S a) ltac:(lia) ltac:(lia)); lra|pose proof (Hs0 a Ha); lra]. }
  rewrite RS_swap. rewrite (RS_ext k _ (fun j => t j * RS (S a) (fun i => P i j))) by (intros; rewrite RS_scal; reflexivity).
  assert (Hsub : forall h, (forall i, (i < k)%nat -> 0 <= h i) -> RS (S a) h <= RS k h).
  { intros h Hh. replace k with (S a + (k - S a))%nat by lia. rewrite RS_split. pose proof (RS_nonneg (k - S a) (fun j => h (S a + j)%nat) ltac:(intros; apply Hh; lia)). lra. }
  apply (head_bound k); auto.
  - intros j Hj. split; [apply RS_nonneg; intros; apply HP; lia|]. eapply Rle_trans; [apply Hsub|apply Hc; auto]. intros; apply HP; auto.
  - rewrite RS_swap. eapply Rle_trans; [apply RS_le; intros i Hi; apply Hr; lia|]. rewrite RS_const. lra.
Qed.

(** ** singular value decompositions *)
(** sum_(i < k) s_i u_i v_i^T *)
Definition synth {m n} (k : nat) (s : nat -> R) (u : nat -> Vec m) (v : nat -> Vec n) : Vec (m * n) := VS k (fun i => s i [*] outer (u i) (v i)).
Lemma synth_inner m n k k' s s' (u u' : nat -> Vec m) (v v' : nat -> Vec n) :
  << synth k s u v, synth k' s' u' v' >> = RS k (fun i => RS k' (fun j => s i * s' j * (<< u i, u' j >> * << v i, v' j >>))).
Proof.
  unfold synth. rewrite inner_VS_l. apply RS_ext. intros i Hi. rewrite inner_VS_r. apply RS_ext. intros j Hj. rewrite inner_scal_l, inner_scal_r, outer_inner. ring.
Qed.
Lemma synth_same m n k s s' (u : nat -> Vec m) (v : nat -> Vec n) : orthonormal k u -> orthonormal k v -> << synth k s u v, synth k s' u v >> = RS k (fun i => s i * s' i).
Proof.
  intros Hu Hv. rewrite synth_inner. apply RS_ext. intros i Hi. apply (RS_dlt k i); auto. intros j Hj. rewrite Hu, Hv by auto. rewrite (Nat.eqb_sym i j). destruct (Nat.eqb_spec j i) as [->|]; ring.
Qed.
Lemma synth_sub m n k s s' (u : nat -> Vec m) (v : nat -> Vec n) : synth k s u v [-] synth k s' u v = synth k (fun i => s i - s' i) u v.
Proof. unfold synth. rewrite <- VS_sub. apply VS_ext. intros. vring. Qed.
(** von Neumann's trace inequality *)
Lemma trace_ineq m n k s s' (u u' : nat -> Vec m) (v v' : nat -> Vec n) : noninc k s -> noninc k s' -> orthonormal k u -> orthonormal k v -> orthonormal k u' -> orthonormal k v' ->
  << synth k s u v, synth k s' u' v' >> <= RS k (fun i => s i * s' i).
Proof.
  intros Hs Hs' Hu Hv Hu' Hv'. rewrite synth_inner.
  set (P := fun i j => (<< u i, u' j >> * << u i, u' j >> + << v i, v' j >> * << v i, v' j >>) / 2).
  eapply Rle_trans; [|apply (substochastic k s s' P Hs Hs')].
  - apply RS_le. intros i Hi. apply RS_le. intros j Hj. apply Rmult_le_compat_l; [apply Rmult_le_pos; [apply (proj2 Hs)|apply (proj2 Hs')]; auto|]. unfold P. pose proof (Rle_0_sqr (<< u i, u' j >> - << v i, v' j >>)). unfold Rsqr in *. lra.
  - intros i j _ _. unfold P. pose proof (Rle_0_sqr << u i, u' j >>). pose proof (Rle_0_sqr << v i, v' j >>). unfold Rsqr in *. lra.
  - intros i Hi. unfold P. unfold Rdiv. rewrite RS_scal_r, RS_add.
    rewrite (RS_ext k (fun j => << u i, u' j >> * << u i, u' j >>) (fun j => << u' j, u i >> * << u' j, u i >>)) by (intros; rewrite (inner_sym (u i)); reflexivity).
    rewrite (RS_ext k (fun j => << v i, v' j >> * << v i, v' j >>) (fun j => << v' j, v i >> * << v' j, v i >>)) by (intros; rewrite (inner_sym (v i)); reflexivity).
    pose proof (bessel k u' (u i) Hu'). pose proof (bessel k v' (v i) Hv'). rewrite (on_norm k u i Hu Hi) in *. rewrite (on_norm k v i Hv Hi) in *. lra.
  - intros j Hj. unfold P. unfold Rdiv. rewrite RS_scal_r, RS_add. pose proof (bessel k u (u' j) Hu). pose proof (bessel k v (v' j) Hv). rewrite (on_norm k u' j Hu' Hj) in *. rewrite (on_norm k v' j Hv' Hj) in *. lra.
Qed.

(** s lists the k = min(m, n) singular values of X in non-increasing order *)
Definition is_svd {m n} (X : Vec (m * n)) (s : nat -> R) (u : nat -> Vec m) (v : nat -> Vec n) : Prop :=
  let k := Nat.min m n in noninc k s /\ orthonormal k u /\ orthonormal k v /\ X = synth k s u v.
Definition sing_vals {m n} (X : Vec (m * n)) (s : nat -> R) : Prop := exists u v, is_svd X s u v.
Lemma svd_dist m n (X Y : Vec (m * n)) s t : sing_vals X s -> sing_vals Y t -> RS (Nat.min m n) (fun i => (s i - t i) * (s i - t i)) <= norm2 (X [-] Y).
Proof.
  intros [u [v [H1 [H2 [H3 HX]]]]] [u' [v' [H1' [H2' [H3' HY]]]]]. subst X Y. rewrite norm2_sub. unfold norm2. rewrite !synth_same by auto. pose proof (trace_ineq m n _ s t u u' v v' H1 H1' H2 H3 H2' H3').
  rewrite (RS_ext _ _ (fun i => (s i * s i - 2 * (s i * t i)) + t i * t i)) by (intros; ring). rewrite RS_add, RS_sub, RS_scal. lra.
Qed.
Lemma svd_unique m n (X : Vec (m * n)) s t : sing_vals X s -> sing_vals X t -> forall i, (i < Nat.min m n)%nat -> s i = t i.
Proof.
  intros H1 H2 i Hi. pose proof (svd_dist _ _ _ _ _ _ H1 H2) as H. rewrite vsub_diag, norm2_zero in H.
  assert (Hz : RS (Nat.min m n) (fun i => (s i - t i) * (s i - t i)) = 0) by (apply Rle_antisym; [exact H|apply RS_nonneg; intros; apply Rle_0_sqr]).
  pose proof (RS_zero_all _ _ (fun i _ => Rle_0_sqr (s i - t i)) Hz i Hi) as E. apply Rsqr_0_uniq in E. lra.
Qed.
Lemma svd_same_dist m n s t (u : nat -> Vec m) (v : nat -> Vec n) k : orthonormal k u -> orthonormal k v -> norm2 (synth k s u v [-] synth k t u v) = RS k (fun i => (s i - t i) * (s i - t i)).
Proof. intros Hu Hv. rewrite synth_sub. unfold norm2. apply synth_same; auto. Qed.
(** minimising over the singular values minimises over the matrices *)
Lemma svd_lift m n (X : Vec (m * n)) s u v p (F : (nat -> R) -> R) tau : 0 < tau -> is_svd X s u v -> noninc (Nat.min m n) p ->
  (forall q, noninc (Nat.min m n) q -> F p + / (2 * tau) * RS (Nat.min m n) (fun i => (p i - s i) * (p i - s i)) <= F q + / (2 * tau) * RS (Nat.min m n) (fun i => (q i - s i) * (q i - s i))) ->
  sing_vals (synth (Nat.min m n) p u v) p /\
  forall Y q, sing_vals Y q -> F p + / (2 * tau) * norm2 (synth (Nat.min m n) p u v [-] X) <= F q + / (2 * tau) * norm2 (Y [-] X).
Proof.
  intros Ht HX Hp HF. pose proof HX as [H1 [H2 [H3 HE]]]. split; [exists u, v; split; auto|].
  intros Y q Hq. pose proof Hq as [u' [v' [Hq' _]]]. eapply Rle_trans; [|eapply Rle_trans; [apply (HF q Hq')|]].
  - rewrite HE, svd_same_dist by auto. lra.
  - apply Rplus_le_compat_l, Rmult_le_compat_l; [left; apply Rinv_0_lt_compat; lra|]. apply svd_dist; auto. exists u, v. exact HX.
Qed.
