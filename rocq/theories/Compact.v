(** * Bolzano-Weierstrass in R^n and existence of minimisers *)
From Coq Require Import Psatz ConstructiveEpsilon Rtopology.
From Verif Require Import Base Space Spec VSum MatFacts.
From Verif Require Export S_Seq.
Open Scope R_scope.

Lemma strict_inc_ge phi : strict_inc phi -> forall k, (k <= phi k)%nat.
Proof. intros H k. induction k as [|k IH]; [lia|]. specialize (H k). lia. Qed.
Lemma strict_inc_lt phi : strict_inc phi -> forall k j, (k < j)%nat -> (phi k < phi j)%nat.
Proof. intros H k j Hj. induction j as [|j IH]; [lia|]. pose proof (H j). destruct (Nat.eq_dec k j) as [->|]; [lia|]. specialize (IH ltac:(lia)). lia. Qed.
Lemma strict_inc_comp phi psi : strict_inc phi -> strict_inc psi -> strict_inc (fun k => phi (psi k)).
Proof. intros H1 H2 k. apply strict_inc_lt; auto. Qed.
Lemma Un_cv_sub u l phi : strict_inc phi -> Un_cv u l -> Un_cv (fun k => u (phi k)) l.
Proof. intros Hp H eps He. destruct (H eps He) as [N HN]. exists N. intros k Hk. apply HN. pose proof (strict_inc_ge phi Hp k). lia. Qed.

(** a cluster point is the limit of a subsequence *)
Lemma cluster_subseq u l : ValAdh u l -> exists phi, strict_inc phi /\ Un_cv (fun k => u (phi k)) l.
Proof.
  intro H.
  assert (G : forall N k : nat, { p | (N <= p)%nat /\ Rabs (u p - l) < / (INR k + 1) }).
  { intros N k. apply constructive_indefinite_ground_description_nat.
    - intro p. destruct (le_dec N p); [|right; tauto]. destruct (Rlt_dec (Rabs (u p - l)) (/ (INR k + 1))); [left; tauto|right; tauto].
    - assert (Hk : 0 < / (INR k + 1)) by (apply Rinv_0_lt_compat; pose proof (pos_INR k); lra).
      destruct (H (disc l (mkposreal _ Hk)) N) as [p [Hp Hd]]; [exists (mkposreal _ Hk); intros y Hy; exact Hy|]. exists p. split; [exact Hp|exact Hd]. }
  set (phi := fix phi k := match k with O => proj1_sig (G 0%nat 0%nat) | S k' => proj1_sig (G (S (phi k')) (S k')) end).
  assert (Hc : forall k, Rabs (u (phi k) - l) < / (INR k + 1)). { intro k. destruct k as [|k]; cbn [phi]; apply (proj2 (proj2_sig (G _ _))). }
  exists phi. split.
  - intro k. change (phi (S k)) with (proj1_sig (G (S (phi k)) (S k))). pose proof (proj1 (proj2_sig (G (S (phi k)) (S k)))). lia.
  - intros eps He. destruct (archimed_cor1 eps He) as [N [HN HN0]]. exists N. intros k Hk. unfold R_dist. eapply Rlt_trans; [apply Hc|]. eapply Rle_lt_trans; [|exact HN]. apply Rinv_le_contravar; [apply lt_0_INR; lia|]. apply le_INR in Hk. lra.
Qed.
Lemma bw_real u M : (forall k, Rabs (u k) <= M) -> exists l phi, strict_inc phi /\ Un_cv (fun k => u (phi k)) l.
Proof.
  intro H. destruct (Bolzano_Weierstrass u (fun c => - M <= c <= M) (compact_P3 (- M) M)) as [l Hl].
  - intro k. specialize (H k). pose proof (Rle_abs (u k)). pose proof (Rle_abs (- u k)). rewrite Rabs_Ropp in *. lra.
  - exists l. apply cluster_subseq. exact Hl.
Qed.
Lemma bw_fun n (u : nat -> nat -> R) M : (forall k i, (i < n)%nat -> Rabs (u k i) <= M) -> exists l phi, strict_inc phi /\ forall i, (i < n)%nat -> Un_cv (fun k => u (phi k) i) (l i).
Proof.
  induction n as [|n IH]; intro H.
  - exists (fun _ => 0), (fun k => k). split; [intro k; lia|intros; lia].
  - destruct (IH (fun k i Hi => H k i ltac:(lia))) as (l & phi & H1 & H2). destruct (bw_real (fun k => u (phi k) n) M (fun k => H (phi k) n ltac:(lia))) as (c & psi & H3 & H4).
    exists (fun i => if Nat.eqb i n then c else l i), (fun k => phi (psi k)). split; [apply strict_inc_comp; auto|]. intros i Hi. destruct (Nat.eqb_spec i n) as [->|]; [exact H4|].
    apply (Un_cv_sub (fun k => u (phi k) i)); [exact H3|]. apply H2. lia.
Qed.

(** convergence in R^n *)
Lemma RS_cv n (u : nat -> nat -> R) l : (forall i, (i < n)%nat -> Un_cv (fun k => u k i) (l i)) -> Un_cv (fun k => RS n (u k)) (RS n l).
Proof.
  induction n as [|n IH]; intro H; cbn [RS]; [intros eps He; exists 0%nat; intros; unfold R_dist; rewrite Rminus_0_r, Rabs_R0; auto|]. apply CV_plus; [apply IH; intros; apply H; lia|apply H; lia].
Qed.
Lemma vcv_coords n (u : nat -> Vec n) l : (forall i, (i < n)%nat -> Un_cv (fun k => get (u k) i) (get l i)) -> vcv u l.
Proof.
  intros H eps He. assert (HC : Un_cv (fun k => RS n (fun i => (get (u k) i - get l i) * (get (u k) i - get l i))) (RS n (fun _ => 0))).
  { apply RS_cv. intros i Hi. replace 0 with ((get l i - get l i) * (get l i - get l i)) by ring.
    assert (HS : Un_cv (fun k => get (u k) i - get l i) (get l i - get l i)) by (apply (CV_minus (fun k => get (u k) i) (fun _ => get l i)); [apply H; auto|intros e He'; exists 0%nat; intros; unfold R_dist; rewrite Rminus_eq_0, Rabs_R0; auto]).
    apply CV_mult; exact HS. }
  rewrite RS_zero in HC. destruct (HC (eps * eps) ltac:(nra)) as [N HN]. exists N. intros k Hk. specialize (HN k Hk). unfold R_dist in HN. rewrite Rminus_0_r in HN.
  assert (EN : RS n (fun i => (get (u k) i - get l i) * (get (u k) i - get l i)) = norm2 (u k [-] l)) by (rewrite vec_norm2; apply RS_ext; intros i Hi; rewrite get_sub by auto; reflexivity).
  rewrite EN in HN. apply Rabs_def2 in HN. rewrite <- norm_sq in HN. pose proof (norm_nonneg (u k [-] l)). nra.
Qed.
Lemma bw_vec n (u : nat -> Vec n) M : (forall k i, (i < n)%nat -> Rabs (get (u k) i) <= M) -> exists l phi, strict_inc phi /\ vcv (fun k => u (phi k)) l.
Proof.
  intro H. destruct (bw_fun n (fun k i => get (u k) i) M H) as (l & phi & H1 & H2). exists (vtab n l), phi. split; [auto|]. apply vcv_coords. intros i Hi. rewrite get_vtab by auto. apply H2; auto.
Qed.

(** sequentially closed set, sequentially continuous function *)
Definition seq_closed {E : IPS} (C : E -> Prop) : Prop := forall u l, (forall k : nat, C (u k)) -> vcv u l -> C l.
Definition seq_cont {E : IPS} (f : E -> R) : Prop := forall u l, vcv u l -> Un_cv (fun k => f (u k)) (f l).
(** a bounded minimising sequence has a minimiser among its cluster points *)
Lemma minimiser_exists n (C : Vec n -> Prop) (f : Vec n -> R) M u : seq_closed C -> seq_cont f -> (forall k, C (u k)) -> (forall k i, (i < n)%nat -> Rabs (get (u k) i) <= M) ->
  (forall v, C v -> forall eps, 0 < eps -> exists N, forall k, (N <= k)%nat -> f (u k) <= f v + eps) -> exists z, C z /\ forall v, C v -> f z <= f v.
Proof.
  intros HC Hf Hu HM Hm. destruct (bw_vec n u M HM) as (z & phi & Hp & Hz). exists z. split; [apply (HC (fun k => u (phi k))); auto|].
  intros v Hv. apply Rnot_lt_le. intro Hl. set (e := (f z - f v) / 2). assert (He : 0 < e) by (unfold e; lra).
  destruct (Hm v Hv e He) as [N1 H1]. destruct (Hf _ _ Hz e He) as [N2 H2]. set (k := Nat.max N1 N2). specialize (H2 k ltac:(lia)). specialize (H1 (phi k) ltac:(pose proof (strict_inc_ge phi Hp k); lia)).
  unfold R_dist in H2. apply Rabs_def2 in H2. unfold e in *. lra.
Qed.

(** continuity of the basic functions *)
Lemma vcv_norm {E : IPS} (u : nat -> E) l : vcv u l -> Un_cv (fun k => norm (u k)) (norm l).
Proof.
  intros H eps He. destruct (H eps He) as [N HN]. exists N. intros k Hk. specialize (HN k Hk). unfold R_dist. eapply Rle_lt_trans; [|exact HN].
  apply Rabs_le. split.
  - pose proof (norm_triangle (u k) (l [-] u k)) as H1. replace (u k [+] (l [-] u k)) with l in H1 by vring. rewrite (norm_sub_sym l (u k)) in H1. lra.
  - pose proof (norm_triangle l (u k [-] l)) as H1. replace (l [+] (u k [-] l)) with (u k) in H1 by vring. lra.
Qed.
Lemma vcv_norm2 {E : IPS} (u : nat -> E) l : vcv u l -> Un_cv (fun k => norm2 (u k)) (norm2 l).
Proof.
  intro H. rewrite <- norm_sq. intros eps He. destruct (CV_mult _ _ _ _ (vcv_norm u l H) (vcv_norm u l H) eps He) as [N HN]. exists N. intros k Hk. specialize (HN k Hk). rewrite norm_sq in HN. exact HN.
Qed.
Lemma vcv_inner {E : IPS} (u : nat -> E) l v : vcv u l -> Un_cv (fun k => << u k, v >>) (<< l, v >>).
Proof.
  intros H eps He. destruct (H (eps / (norm v + 1))) as [N HN].
  { apply Rmult_lt_0_compat; [auto|]. apply Rinv_0_lt_compat. pose proof (norm_nonneg v). lra. }
  exists N. intros k Hk. specialize (HN k Hk). unfold R_dist. rewrite <- inner_sub_l. eapply Rle_lt_trans; [apply CS_abs|]. pose proof (norm_nonneg v). pose proof (norm_nonneg (u k [-] l)).
  apply Rle_lt_trans with (norm (u k [-] l) * (norm v + 1)); [nra|]. apply (Rmult_lt_compat_r (norm v + 1)) in HN; [|lra]. replace (eps / (norm v + 1) * (norm v + 1)) with eps in HN by (field; lra). exact HN.
Qed.
Lemma vcv_add_const {E : IPS} (u : nat -> E) l v : vcv u l -> vcv (fun k => v [+] u k) (v [+] l).
Proof. intros H eps He. destruct (H eps He) as [N HN]. exists N. intros k Hk. replace (v [+] u k [-] (v [+] l)) with (u k [-] l) by vring. auto. Qed.
Lemma vcv_map {E F : IPS} (T : E -> F) C (u : nat -> E) l : 0 < C -> (forall v w, norm (T v [-] T w) <= C * norm (v [-] w)) -> vcv u l -> vcv (fun k => T (u k)) (T l).
Proof.
  intros HC HT H eps He. destruct (H (eps / C)) as [N HN]; [apply Rmult_lt_0_compat; [auto|apply Rinv_0_lt_compat; auto]|]. exists N. intros k Hk. specialize (HN k Hk). eapply Rle_lt_trans; [apply HT|].
  apply (Rmult_lt_compat_l C) in HN; [|auto]. replace (C * (eps / C)) with eps in HN by (field; lra). exact HN.
Qed.
Lemma vcv_unique {E : IPS} (u : nat -> E) l l' : vcv u l -> vcv u l' -> l = l'.
Proof.
  intros H1 H2. apply vsub_eq, norm_eq0. apply Rle_antisym; [|apply norm_nonneg]. apply Rnot_lt_le. intro Hl. set (e := norm (l [-] l')) in *.
  destruct (H1 (e / 2) ltac:(lra)) as [N1 HN1]. destruct (H2 (e / 2) ltac:(lra)) as [N2 HN2]. set (k := Nat.max N1 N2). specialize (HN1 k ltac:(lia)). specialize (HN2 k ltac:(lia)).
  pose proof (norm_triangle (l [-] u k) (u k [-] l')) as H. replace (l [-] u k [+] (u k [-] l')) with (l [-] l') in H by vring. rewrite (norm_sub_sym l (u k)) in H. fold e in H. lra.
Qed.
Lemma Un_cv_le_lim u l B : Un_cv u l -> (forall k, u k <= B) -> l <= B.
Proof. intros H HB. apply Rnot_lt_le. intro Hl. destruct (H (l - B) ltac:(lra)) as [N HN]. specialize (HN N ltac:(lia)). unfold R_dist in HN. apply Rabs_def2 in HN. specialize (HB N). lra. Qed.
