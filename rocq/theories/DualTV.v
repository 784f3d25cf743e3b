(** * Accelerated projected gradient on the dual of min_y |y - x|^2 / 2 + gamma max_(p in K) <p, D y> *)
From Coq Require Import Psatz.
From Verif Require Import Base Space Spec ConvexFacts Smooth P_PG.
Open Scope R_scope.

Section DualTV.
Context {E F : IPS} (D : linop E F) (K : F -> Prop) (gamma L : R) (x : E).
Hypothesis HK : convex_set K.
Hypothesis Hg : 0 < gamma.
Hypothesis HL : 0 < L.
Hypothesis HD : forall v, norm2 (D v) <= L * norm2 v.

Definition dsol (p : F) : E := x [+] gamma [*] ladj D p.
Definition dobj (p : F) : R := / 2 * norm2 (dsol p).
Definition dgrad (p : F) : F := gamma [*] D (dsol p).

Lemma dsol_sub p q : dsol p [-] dsol q = gamma [*] ladj D (p [-] q).
Proof. unfold dsol. rewrite ladj_sub. vring. Qed.
Lemma adj_bound p : norm2 (ladj D p) <= L * norm2 p.
Proof.
  set (q := ladj D p). pose proof (CS_sq p (D q)) as H. assert (EQ : << p, D q >> = norm2 q) by (unfold norm2, q; rewrite <- ladj_spec'; reflexivity). rewrite EQ in H.
  pose proof (HD q) as H2. pose proof (norm2_nonneg q). pose proof (norm2_nonneg p). destruct (Req_dec (norm2 q) 0) as [->|Hn]; [apply Rmult_le_pos; lra|].
  apply Rmult_le_reg_l with (norm2 q); [lra|]. eapply Rle_trans; [exact H|]. eapply Rle_trans; [apply Rmult_le_compat_l; [auto|exact H2]|]. lra.
Qed.
Lemma dobj_expand p q : dobj q = dobj p + << dgrad p, q [-] p >> + / 2 * norm2 (dsol q [-] dsol p).
Proof.
  unfold dgrad. rewrite inner_scal_l, ladj_spec, <- inner_scal_r, <- dsol_sub. unfold dobj. iexp; field.
Qed.
Lemma dobj_smooth : smooth_convex dobj dgrad (gamma * gamma * L).
Proof.
  split; intros p q; rewrite (dobj_expand p q).
  - pose proof (norm2_nonneg (dsol q [-] dsol p)). lra.
  - rewrite dsol_sub, norm2_scal. pose proof (adj_bound (q [-] p)) as H. apply (Rmult_le_compat_l (gamma * gamma)) in H; [|nra]. lra.
Qed.

(** a dual minimiser *)
Definition dmin (z : F) : Prop := K z /\ forall p, K p -> dobj z <= dobj p.
Lemma dmin_vi z p : dmin z -> K p -> 0 <= << dsol z, dsol p [-] dsol z >>.
Proof.
  intros [Hz Hm] Hp. apply (small_t _ (/ 2 * norm2 (dsol p [-] dsol z))); [pose proof (norm2_nonneg (dsol p [-] dsol z)); lra|].
  intros t Ht. pose proof (Hm _ (HK z p t Hz Hp ltac:(lra))) as H. rewrite (dobj_expand z (_ [+] _)) in H.
  assert (E1 : (1 - t) [*] z [+] t [*] p [-] z = t [*] (p [-] z)) by vring. rewrite dsol_sub in H. rewrite E1 in H.
  assert (E2 : gamma [*] ladj D (t [*] (p [-] z)) = t [*] (dsol p [-] dsol z)) by (rewrite dsol_sub, ladj_scal; vring). rewrite E2, norm2_scal in H.
  unfold dgrad in H. rewrite inner_scal_l, ladj_spec, ladj_scal, inner_scal_r in H. 
  assert (E3 : << dsol z, dsol p [-] dsol z >> = gamma * << dsol z, ladj D (p [-] z) >>) by (rewrite dsol_sub, inner_scal_r; reflexivity). rewrite E3.
  apply Rmult_le_reg_l with t; [lra|]. nra.
Qed.
Lemma dmin_gap z p : dmin z -> K p -> norm2 (dsol p [-] dsol z) <= 2 * (dobj p - dobj z).
Proof.
  intros Hz Hp. pose proof (dmin_vi z p Hz Hp) as H. rewrite (dobj_expand z p). unfold dgrad. rewrite inner_scal_l, ladj_spec, <- inner_scal_r, <- dsol_sub. lra.
Qed.

(** tv is the support function of K composed with D: attained maximum of <p, D y> over K, for K symmetric *)
Variable tv : E -> R.
Hypothesis Hub : forall y p, K p -> << p, D y >> <= tv y.
Hypothesis Hatt : forall y, exists p, K p /\ << p, D y >> = tv y.
Hypothesis Hsym : forall p, K p -> K (vopp p).

Lemma dmin_subgrad z : dmin z -> is_subgrad (escal gamma (etot tv)) (dsol z) (x [-] dsol z).
Proof.
  intro Hz. split; [exact I|]. intros y _. cbn [eval escal etot].
  assert (H1 : << x [-] dsol z, y >> <= gamma * tv y).
  { assert (E1 : x [-] dsol z = gamma [*] ladj D (vopp z)) by (unfold dsol, vopp; rewrite ladj_scal; vring). rewrite E1, inner_scal_l, ladj_spec'. apply Rmult_le_compat_l; [lra|]. apply Hub, Hsym, Hz. }
  assert (H2 : gamma * tv (dsol z) <= << x [-] dsol z, dsol z >>).
  { destruct (Hatt (dsol z)) as [p [Hp <-]]. pose proof (dmin_vi z (vopp p) Hz (Hsym p Hp)) as H.
    assert (E1 : dsol (vopp p) [-] dsol z = (x [-] dsol z) [-] gamma [*] ladj D p) by (unfold dsol, vopp; rewrite ladj_scal; vring). rewrite E1, inner_sub_r, inner_scal_r in H.
    rewrite (inner_sym (dsol z) (ladj D p)), ladj_spec', (inner_sym (dsol z) (x [-] dsol z)) in H. lra. }
  rewrite inner_sub_r. lra.
Qed.
Lemma dmin_prox z : dmin z -> is_prox (escal gamma (etot tv)) 1 x (dsol z).
Proof. intro Hz. apply subgrad_prox; [lra|]. rewrite Rinv_1, vscal_1. apply dmin_subgrad; auto. Qed.

(** ** The accelerated iteration *)
Definition t2 (k : nat) : R := (INR k + 2) / 2.
Variables (s : R) (ps ys : nat -> F).
Hypothesis Hs : 0 < s <= / (gamma * gamma * L).
Hypothesis Hp0 : ps 0%nat = vzero.
Hypothesis Hy0 : ys 0%nat = vzero.
Hypothesis Hps : forall k, is_proj K (ys k [-] s [*] dgrad (ys k)) (ps (S k)).
Hypothesis Hys : forall k, ys (S k) = ps (S k) [+] ((t2 k - 1) / t2 (S k)) [*] (ps (S k) [-] ps k).

Lemma t2_S k : t2 (S k) = t2 k + / 2. Proof. unfold t2. rewrite S_INR. field. Qed.
Lemma t2_ge1 k : 1 <= t2 k. Proof. unfold t2. pose proof (pos_INR k). lra. Qed.
Lemma dual_doc n : pg_doc dgrad (indic K) (fun _ => 1) (fun _ => s) 1 (fun k => (t2 k - 1) / t2 (S k)) ps ys n.
Proof.
  split; [congruence|]. intros j _. exists (ps (S j)). split; [|split].
  - apply proj_prox; [lra|]. apply Hps.
  - vring.
  - apply Hys.
Qed.
Lemma dual_rate z k : dmin z -> 2 * s * (t2 k * t2 k) * (dobj (ps (S k)) - dobj z) <= norm2 z.
Proof.
  intros [Hz Hm].
  assert (Hc : suff_dec dobj dgrad (fun _ => s) ps ys (S k)) by (apply (suff_dec_small dobj dgrad (gamma * gamma * L)); [apply dobj_smooth|apply Rmult_lt_0_compat; [nra|auto]|intros; exact Hs]).
  pose proof (fista_rate dobj dgrad (indic K) 1 (proj1 dobj_smooth) (indic_convex K HK) ltac:(lra) (fun _ => s) (fun k => (t2 k - 1) / t2 (S k)) ps ys ltac:(intros; lra) t2 ltac:(unfold t2; simpl; lra) t2_ge1
    ltac:(intro j; rewrite t2_S; pose proof (t2_ge1 j); nra) (S k) z ltac:(reflexivity) (dual_doc (S k)) Hc ltac:(intros; lra) Hz) as H.
  specialize (H ltac:(intros y Hy; cbn [eval indic]; specialize (Hm y Hy); lra) k ltac:(lia)). cbn [eval indic] in H. rewrite Hp0 in H.
  replace (norm2 (vzero [-] z)) with (norm2 z) in H by iring. match goal with H : _ + norm2 ?v <= _ |- _ => pose proof (norm2_nonneg v) end. nra.
Qed.
Lemma dual_dist z k : dmin z -> norm (dsol (ps (S k)) [-] dsol z) <= norm z / (sqrt s * t2 k).
Proof.
  intro Hz. pose proof (dual_rate z k Hz) as H. pose proof (dmin_gap z (ps (S k)) Hz (proj1 (Hps k))) as H2. pose proof (t2_ge1 k). pose proof (sqrt_lt_R0 s ltac:(lra)) as Hq.
  assert (HQ : 0 < sqrt s * t2 k) by nra. apply Rmult_le_reg_r with (sqrt s * t2 k); [auto|]. replace (norm z / (sqrt s * t2 k) * (sqrt s * t2 k)) with (norm z) by (field; split; lra).
  apply Rsqr_incr_0_var; [|apply norm_nonneg]. unfold Rsqr. rewrite norm_sq. eapply Rle_trans; [|exact H].
  replace (norm (dsol (ps (S k)) [-] dsol z) * (sqrt s * t2 k) * (norm (dsol (ps (S k)) [-] dsol z) * (sqrt s * t2 k))) with ((sqrt s * sqrt s) * (t2 k * t2 k) * (norm (dsol (ps (S k)) [-] dsol z) * norm (dsol (ps (S k)) [-] dsol z))) by ring.
  rewrite sqrt_sqrt, norm_sq by lra. replace (2 * s * (t2 k * t2 k) * (dobj (ps (S k)) - dobj z)) with (s * (t2 k * t2 k) * (2 * (dobj (ps (S k)) - dobj z))) by ring. apply Rmult_le_compat_l; [nra|exact H2].
Qed.
(** the extrapolated point used for the returned solution *)
Lemma dual_y_dist z k : dmin z -> norm (dsol (ys (S k)) [-] dsol z) <= 6 * norm z / (sqrt s * INR (S k)).
Proof.
  intro Hz. pose proof (dual_dist z k Hz) as H1. pose proof (sqrt_lt_R0 s ltac:(lra)) as Hq. pose proof (norm_nonneg z) as Hn. set (N := norm z / sqrt s). assert (HN : 0 <= N) by (apply Rmult_le_pos; [auto|apply Rlt_le, Rinv_0_lt_compat; lra]).
  pose proof (t2_ge1 k) as Ht. pose proof (pos_INR k) as Hk.
  replace (norm z / (sqrt s * t2 k)) with (N / t2 k) in H1 by (unfold N; field; split; lra).
  replace (6 * norm z / (sqrt s * INR (S k))) with (6 * N / INR (S k)) by (unfold N; field; split; [rewrite S_INR; lra|lra]).
  set (w := (t2 k - 1) / t2 (S k)). assert (Hw : 0 <= w <= 1).
  { unfold w. rewrite t2_S. split; [apply Rmult_le_pos; [lra|apply Rlt_le, Rinv_0_lt_compat; lra]|]. apply Rmult_le_reg_r with (t2 k + / 2); [lra|]. replace ((t2 k - 1) / (t2 k + / 2) * (t2 k + / 2)) with (t2 k - 1) by (field; lra). lra. }
  assert (EY : dsol (ys (S k)) [-] dsol z = (1 + w) [*] (dsol (ps (S k)) [-] dsol z) [-] w [*] (dsol (ps k) [-] dsol z)).
  { rewrite Hys. fold w. unfold dsol. rewrite ladj_add, ladj_scal, ladj_sub. vring. }
  assert (HT : norm (dsol (ys (S k)) [-] dsol z) <= (1 + w) * norm (dsol (ps (S k)) [-] dsol z) + w * norm (dsol (ps k) [-] dsol z)).
  { rewrite EY. eapply Rle_trans; [replace ((1 + w) [*] (dsol (ps (S k)) [-] dsol z) [-] w [*] (dsol (ps k) [-] dsol z)) with ((1 + w) [*] (dsol (ps (S k)) [-] dsol z) [+] (- w) [*] (dsol (ps k) [-] dsol z)) by vring; apply norm_triangle|]. rewrite !norm_scal, Rabs_Ropp, !Rabs_right by lra. lra. }
  eapply Rle_trans; [exact HT|]. destruct k as [|k].
  - assert (EW : w = 0) by (unfold w, t2; simpl; lra). rewrite EW. unfold t2 in H1. simpl INR in *. replace (N / ((0 + 2) / 2)) with N in H1 by field. replace (6 * N / 1) with (6 * N) by field. lra.
  - pose proof (dual_dist z k Hz) as H3. replace (norm z / (sqrt s * t2 k)) with (N / t2 k) in H3 by (unfold N; pose proof (t2_ge1 k); field; split; lra).
    pose proof (norm_nonneg (dsol (ps (S (S k))) [-] dsol z)) as P1. pose proof (norm_nonneg (dsol (ps (S k)) [-] dsol z)) as P2.
    assert (B1 : N / t2 (S k) <= 2 * N / INR (S (S k))). { unfold t2. rewrite !S_INR in *. pose proof (pos_INR k). apply Rle_trans with (2 * N / (INR k + 1 + 2)); [right; field; lra|]. apply Rmult_le_compat_l; [lra|]. apply Rinv_le_contravar; lra. }
    assert (B2 : N / t2 k <= 2 * N / INR (S (S k))). { unfold t2. rewrite !S_INR in *. pose proof (pos_INR k). right. field. lra. }
    replace (6 * N / INR (S (S k))) with (2 * (2 * N / INR (S (S k))) + 2 * N / INR (S (S k))) by (field; rewrite !S_INR in *; lra). nra.
Qed.
End DualTV.
