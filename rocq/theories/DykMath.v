(** * Why Dykstra-like iterations converge without a qualification condition (Boyle and Dykstra's argument, for functions) *)
From Coq Require Import Psatz Classical ConstructiveEpsilon.
From Verif Require Import Base Space Spec ConvexFacts VSum SeqConv S_Seq Compact Fejer IterMath3.
Open Scope R_scope.

Lemma norm_sub_le {E : IPS} (x y : E) : norm (x [-] y) <= norm x + norm y.
Proof. replace (x [-] y) with (x [+] (vzero [-] y)) by vring. eapply Rle_trans; [apply norm_triangle|]. rewrite (norm_sub_sym vzero y). replace (y [-] vzero) with y by vring. lra. Qed.

(** ** sequences of reals *)
Lemma often_subseq (a e : nat -> R) : (forall N k : nat, exists p, (N <= p)%nat /\ a p < e k) -> exists phi, strict_inc phi /\ forall k, a (phi k) < e k.
Proof.
  intro H. assert (G : forall N k : nat, { p | (N <= p)%nat /\ a p < e k }).
  { intros N k. apply constructive_indefinite_ground_description_nat; [|apply H]. intro p. destruct (le_dec N p); [|right; tauto]. destruct (Rlt_dec (a p) (e k)); [left; tauto|right; tauto]. }
  set (phi := fix phi k := match k with O => proj1_sig (G 0%nat 0%nat) | S k' => proj1_sig (G (S (phi k')) (S k')) end).
  exists phi. split.
  - intro k. change (phi (S k)) with (proj1_sig (G (S (phi k)) (S k))). pose proof (proj1 (proj2_sig (G (S (phi k)) (S k)))). lia.
  - intro k. destruct k as [|k]; cbn [phi]; apply (proj2 (proj2_sig (G _ _))).
Qed.
Lemma RS_jensen n (h : nat -> R) : RS n h * RS n h <= INR n * RS n (fun i => h i * h i).
Proof.
  induction n as [|n IH]; [simpl; lra|]. cbn [RS]. rewrite S_INR. set (s := RS n h) in *. set (q := RS n (fun i => h i * h i)) in *. set (c := h n).
  assert (Hq : 0 <= q) by (apply RS_nonneg; intros; apply Rle_0_sqr). destruct n as [|n]; [unfold s, q in *; simpl; lra|]. assert (Hn : 0 < INR (S n)) by (apply lt_0_INR; lia). set (N := INR (S n)) in *.
  assert (H1 : 0 <= (s - N * c) * (s - N * c)) by apply Rle_0_sqr.
  assert (H2 : N * (2 * s * c) <= N * (q + N * (c * c))) by (ring_simplify in H1; nra). apply Rmult_le_reg_l in H2; [|exact Hn]. lra.
Qed.
Lemma RS_block (h : nat -> R) c n j : (forall p, (n <= p < n + j)%nat -> c <= h p) -> RS n h + INR j * c <= RS (n + j) h.
Proof.
  induction j as [|j IH]; intro H; [rewrite Nat.add_0_r; simpl; lra|]. replace (n + S j)%nat with (S (n + j)) by lia. cbn [RS]. rewrite S_INR. specialize (IH ltac:(intros; apply H; lia)). specialize (H (n + j)%nat ltac:(lia)). lra.
Qed.
(** square-summable steps: (sum of the steps so far) * step is arbitrarily small again and again *)
Lemma often_small (M : nat -> R) B : (forall k, 0 <= M k) -> (forall n, RS n (fun k => M k * M k) <= B) -> forall eps, 0 < eps -> forall N, exists p, (N <= p)%nat /\ RS (S p) M * M p < eps.
Proof.
  intros HM HB eps He N0. apply NNPP. intro Hno.
  assert (H : forall p, (N0 <= p)%nat -> eps <= RS (S p) M * M p) by (intros p Hp; apply Rnot_lt_le; intro; apply Hno; eauto).
  set (N := S N0). set (B' := B + 1). assert (HB0 : 0 <= B) by (specialize (HB 0%nat); simpl in HB; lra).
  assert (Hp : forall p, (N0 <= p)%nat -> eps * eps <= INR (S p) * B' * (M p * M p)).
  { intros p Hp. specialize (H p Hp). pose proof (RS_jensen (S p) M) as HJ. pose proof (HB (S p)) as H1. set (s := RS (S p) M) in *.
    assert (Hs : s * s <= INR (S p) * B'). { eapply Rle_trans; [exact HJ|]. apply Rmult_le_compat_l; [apply pos_INR|unfold B'; lra]. }
    apply Rle_trans with (s * M p * (s * M p)); [apply Rmult_le_compat; lra|]. replace (s * M p * (s * M p)) with (s * s * (M p * M p)) by ring. apply Rmult_le_compat_r; [apply Rle_0_sqr|exact Hs]. }
  set (d := eps * eps / (2 * B')). assert (HB' : 0 < B') by (unfold B'; lra). assert (Hd : 0 < d) by (apply Rdiv_lt_0_compat; nra).
  assert (Hblock : forall n, (N <= n)%nat -> RS n (fun k => M k * M k) + d <= RS (n + n) (fun k => M k * M k)).
  { intros n Hn. assert (Hn0 : 0 < INR n) by (apply lt_0_INR; unfold N in Hn; lia). pose proof (RS_block (fun k => M k * M k) (eps * eps / (2 * INR n * B')) n n) as HH.
    replace (INR n * (eps * eps / (2 * INR n * B'))) with d in HH by (unfold d; field; lra). apply HH. intros p Hpp. specialize (Hp p ltac:(unfold N in Hn; lia)).
    assert (Hc : 0 < 2 * INR n * B') by (apply Rmult_lt_0_compat; lra). apply (Rmult_le_reg_r (2 * INR n * B')); [exact Hc|]. replace (eps * eps / (2 * INR n * B') * (2 * INR n * B')) with (eps * eps) by (field; lra).
    eapply Rle_trans; [exact Hp|]. rewrite (Rmult_comm (M p * M p)). apply Rmult_le_compat_r; [apply Rle_0_sqr|]. apply Rmult_le_compat_r; [lra|]. replace (2 * INR n) with (INR (n + n)) by (rewrite plus_INR; lra). apply le_INR. lia. }
  assert (HJ : forall J, exists n, (N <= n)%nat /\ INR J * d <= RS n (fun k => M k * M k)).
  { induction J as [|J [n [Hn IH]]]; [exists N; split; [lia|]; change (INR 0) with 0; rewrite Rmult_0_l; apply RS_nonneg; intros; apply Rle_0_sqr|].
    exists (n + n)%nat. split; [lia|]. rewrite S_INR. specialize (Hblock n Hn). lra. }
  assert (HJ0 : exists J, B / d < INR J) by (exists (Z.to_nat (up (B / d))); pose proof (archimed (B / d)) as [H1 _]; assert (H0 : 0 <= B / d) by (apply Rmult_le_pos; [exact HB0|left; apply Rinv_0_lt_compat; exact Hd]); rewrite INR_IZR_INZ, Z2Nat.id; [lra|apply le_IZR; simpl; lra]). destruct HJ0 as [J HJ']. destruct (HJ J) as [n [_ Hn]]. specialize (HB n). apply (Rmult_lt_compat_r d) in HJ'; [|exact Hd]. replace (B / d * d) with B in HJ' by (field; lra). lra.
Qed.

(** ** lower semicontinuity along a convergent sequence *)
Lemma lsc_liminf {E : IPS} (f : efun E) u l : lsc f -> vcv u l -> (forall k : nat, edom f (u k)) -> edom f l -> forall eps, 0 < eps -> exists N, forall k, (N <= k)%nat -> eval f l - eps <= eval f (u k).
Proof.
  intros Hf Hu Hd Hl eps He. apply NNPP. intro Hno.
  destruct (often_subseq (fun k => eval f (u k)) (fun _ => eval f l - eps)) as (phi & Hi & Hp).
  { intros N _. apply NNPP. intro H. apply Hno. exists N. intros k Hk. apply Rnot_lt_le. intro. apply H. eauto. }
  destruct (Hf (fun k => u (phi k)) l (eval f l - eps)) as [_ H]; [apply vcv_sub; auto|intro k; split; [apply Hd|left; apply Hp]|]. lra.
Qed.
Lemma lsc_liminf_sum {E : IPS} m (F : nat -> efun E) (w : nat -> R) (a : nat -> nat -> E) l : (forall i, (i < m)%nat -> 0 < w i) -> (forall i, (i < m)%nat -> lsc (F i)) ->
  (forall i, (i < m)%nat -> vcv (fun k => a k i) l) -> (forall k i, (i < m)%nat -> edom (F i) (a k i)) -> (forall i, (i < m)%nat -> edom (F i) l) ->
  forall eps, 0 < eps -> exists N, forall k, (N <= k)%nat -> RS m (fun i => w i * eval (F i) l) - eps <= RS m (fun i => w i * eval (F i) (a k i)).
Proof.
  induction m as [|m IH]; intros Hw Hf Ha Hd Hl eps He; [exists 0%nat; intros; simpl; lra|].
  destruct (IH ltac:(auto) ltac:(auto) ltac:(auto) ltac:(auto) ltac:(auto) (eps / 2) ltac:(lra)) as [N1 H1]. specialize (Hw m ltac:(lia)).
  destruct (lsc_liminf (F m) (fun k => a k m) l (Hf m ltac:(lia)) (Ha m ltac:(lia)) (fun k => Hd k m ltac:(lia)) (Hl m ltac:(lia)) (eps / (2 * w m))) as [N2 H2]; [apply Rdiv_lt_0_compat; lra|].
  exists (N1 + N2)%nat. intros k Hk. cbn [RS]. specialize (H1 k ltac:(lia)). specialize (H2 k ltac:(lia)). cbv beta in H2. apply (Rmult_le_compat_l (w m)) in H2; [|lra].
  replace (w m * (eval (F m) l - eps / (2 * w m))) with (w m * eval (F m) l - eps / 2) in H2 by (field; lra). lra.
Qed.
Lemma Un_cv_bound u l : Un_cv u l -> forall eps, 0 < eps -> exists N, forall k, (N <= k)%nat -> l - eps < u k < l + eps.
Proof. intros H eps He. destruct (H eps He) as [N HN]. exists N. intros k Hk. specialize (HN k ltac:(lia)). unfold R_dist in HN. apply Rabs_def2 in HN. lra. Qed.

Section Engine.
Context {E : IPS} (HB : bw E) (m : nat) (F : nat -> efun E) (w : nat -> R) (x0 : E) (x : nat -> E) (a u : nat -> nat -> E) (M : nat -> R) (B : R).
Hypothesis Hw : forall i, (i < m)%nat -> 0 < w i.
Hypothesis Hlsc : forall i, (i < m)%nat -> lsc (F i).
Hypothesis Hsub : forall k i, (i < m)%nat -> is_subgrad (F i) (a k i) (u k i).
Hypothesis Hsum : forall k, VS m (fun i => w i [*] u k i) = x0 [-] x k.
Hypothesis HM : forall k, 0 <= M k.
Hypothesis HMB : forall n, RS n (fun k => M k * M k) <= B.
Hypothesis Hu : forall k i, (i < m)%nat -> norm (u k i) <= RS (S k) M.
Hypothesis Ha : forall k i, (i < m)%nat -> norm (a k i [-] x k) <= M k.
Definition bgap p k i := << u k i, a k i [-] p >> - eval (F i) (a k i) + eval (F i) p.
Definition Qgap k p := / 2 * norm2 (x k [-] p) + RS m (fun i => w i * bgap p k i).
Hypothesis HQ : forall p k, (forall i, (i < m)%nat -> edom (F i) p) -> Qgap (S k) p <= Qgap k p.

Definition elag k := RS m (fun i => w i * << u k i, a k i [-] x k >>).
Lemma bgap_nonneg p k i : (i < m)%nat -> edom (F i) p -> 0 <= bgap p k i.
Proof. intros Hi Hp. destruct (Hsub k i Hi) as [_ H]. specialize (H p Hp). unfold bgap. rewrite inner_sub_r in *. lra. Qed.
Lemma Qgap_eq k p : Qgap k p = / 2 * norm2 (x k [-] p) + elag k + << x0 [-] x k, x k [-] p >> - RS m (fun i => w i * eval (F i) (a k i)) + RS m (fun i => w i * eval (F i) p).
Proof.
  unfold Qgap, elag. rewrite <- Hsum, inner_VS_l. rewrite (RS_ext m (fun i => w i * bgap p k i) (fun i => (w i * << u k i, a k i [-] x k >> + << w i [*] u k i, x k [-] p >>) - w i * eval (F i) (a k i) + w i * eval (F i) p)).
  - rewrite RS_add, RS_sub, !RS_add. ring.
  - intros i Hi. unfold bgap. rewrite inner_scal_l, !inner_sub_r. ring.
Qed.
Lemma Qgap_nonneg k p : (forall i, (i < m)%nat -> edom (F i) p) -> / 2 * norm2 (x k [-] p) <= Qgap k p.
Proof.
  intro Hp. unfold Qgap. assert (0 <= RS m (fun i => w i * bgap p k i)); [|lra]. apply RS_nonneg. intros i Hi. apply Rmult_le_pos; [left; auto|apply bgap_nonneg; auto].
Qed.
Lemma elag_le k : Rabs (elag k) <= RS m w * (RS (S k) M * M k).
Proof.
  unfold elag. clear HQ Hsum. induction m as [|n IH]; [simpl; rewrite Rabs_R0; lra|]. cbn [RS]. eapply Rle_trans; [apply Rabs_triang|]. specialize (IH ltac:(auto) ltac:(auto) ltac:(auto) ltac:(auto) ltac:(auto)).
  rewrite Rmult_plus_distr_r. apply Rplus_le_compat; [exact IH|]. rewrite Rabs_mult, (Rabs_pos_eq (w n)) by (left; apply Hw; lia). apply Rmult_le_compat_l; [left; apply Hw; lia|].
  eapply Rle_trans; [apply CS_abs|]. apply Rmult_le_compat; try apply norm_nonneg; [apply Hu; lia|apply Ha; lia].
Qed.

Lemma engine : (exists p, forall i, (i < m)%nat -> edom (F i) p) -> exists l, is_prox (esum m (fun i => escal (w i) (F i))) 1 x0 l /\ vcv x l.
Proof.
  intros [p0 Hp0].
  (* bounded *)
  set (X := norm p0 + sqrt (2 * Qgap 0 p0)).
  assert (HQ0 : forall k, Qgap k p0 <= Qgap 0 p0) by (apply (dec_le (fun k => Qgap k p0)); intro k; apply HQ; auto).
  assert (Hxp : forall k, norm (x k [-] p0) <= sqrt (2 * Qgap 0 p0)).
  { intro k. unfold norm. apply sqrt_le_1_alt. pose proof (Qgap_nonneg k p0 Hp0). pose proof (HQ0 k). fold (norm2 (x k [-] p0)). lra. }
  assert (HX : forall k, norm (x k) <= X).
  { intro k. replace (x k) with (p0 [+] (x k [-] p0)) by vring. eapply Rle_trans; [apply norm_triangle|]. specialize (Hxp k). unfold X. lra. }
  (* the subsequence *)
  destruct (often_subseq (fun k => RS (S k) M * M k) (fun k => / (INR k + 1))) as (phi1 & Hi1 & Hs1).
  { intros N k. apply (often_small M B HM HMB). apply Rinv_0_lt_compat. pose proof (pos_INR k). lra. }
  destruct (HB (fun k => x (phi1 k)) X) as (l & phi2 & Hi2 & Hl); [intro k; apply HX|].
  set (phi := fun k => phi1 (phi2 k)). assert (Hi : strict_inc phi) by exact (strict_inc_comp phi1 phi2 Hi1 Hi2). change (vcv (fun k => x (phi k)) l) in Hl.
  assert (Hsm : Un_cv (fun k => RS (S (phi k)) M * M (phi k)) 0).
  { apply (Un_cv_sub (fun k => RS (S (phi1 k)) M * M (phi1 k)) 0 phi2 Hi2). intros eps He. destruct (archimed_cor1 eps He) as [N [HN HN0]]. exists N. intros k Hk. unfold R_dist. rewrite Rminus_0_r, Rabs_pos_eq.
    - eapply Rlt_trans; [apply Hs1|]. eapply Rle_lt_trans; [|exact HN]. apply Rinv_le_contravar; [apply lt_0_INR; lia|]. apply le_INR in Hk. lra.
    - apply Rmult_le_pos; [apply RS_nonneg; auto|auto]. }
  assert (He0 : Un_cv (fun k => elag (phi k)) 0).
  { assert (Hc : Un_cv (fun k => RS m w * (RS (S (phi k)) M * M (phi k))) 0). { replace 0 with (RS m w * 0) by ring. apply CV_mult; [apply Un_cv_const|exact Hsm]. }
    intros eps He. destruct (Hc eps He) as [N HN]. exists N. intros k Hk. specialize (HN k Hk). unfold R_dist in *. rewrite Rminus_0_r in *. eapply Rle_lt_trans; [apply elag_le|]. eapply Rle_lt_trans; [apply Rle_abs|exact HN]. }
  assert (HMv : Un_cv M 0).
  { apply vanish_cv; auto. intros eps He. destruct (summable_vanish (fun k => M k * M k) B ltac:(intro; apply Rle_0_sqr) HMB (eps * eps) ltac:(nra)) as [N HN]. exists N. intros n Hn. specialize (HN n Hn). cbv beta in HN. specialize (HM n). nra. }
  assert (Hal : forall i, (i < m)%nat -> vcv (fun k => a (phi k) i) l).
  { intros i Hii. apply (vcv_close (fun k => x (phi k))); [exact Hl|]. apply (Un_cv_squeeze _ (fun k => M (phi k) * M (phi k))).
    - intro k. split; [apply norm2_nonneg|]. rewrite <- norm_sq. apply Rmult_le_compat; try apply norm_nonneg; apply Ha; auto.
    - replace 0 with (0 * 0) by ring. apply CV_mult; apply (Un_cv_sub M 0 phi Hi HMv). }
  assert (Hdom : forall k i, (i < m)%nat -> edom (F i) (a k i)) by (intros k i Hii; apply (Hsub k i Hii)).
  assert (Hub : forall p k, (forall i, (i < m)%nat -> edom (F i) p) -> RS m (fun i => w i * eval (F i) (a k i)) <= RS m (fun i => w i * eval (F i) p) + elag k + << x0 [-] x k, x k [-] p >>).
  { intros p k Hp. pose proof (Qgap_nonneg k p Hp) as H1. rewrite Qgap_eq in H1. lra. }
  (* the limit lies in every domain *)
  assert (Hld : forall i, (i < m)%nat -> edom (F i) l).
  { intros i Hii.
    assert (HMb : exists K, 0 <= K /\ forall k, M k <= K). { exists (B + 1). assert (0 <= B) by (specialize (HMB 0%nat); simpl in HMB; lra). split; [lra|]. intro k. specialize (HMB (S k)). cbn [RS] in HMB. specialize (HM k).
      assert (0 <= RS k (fun k => M k * M k)) by (apply RS_nonneg; intros; apply Rle_0_sqr). nra. }
    destruct HMb as (K & HK0 & HK).
    assert (Hab : forall k j, (j < m)%nat -> norm (a k j) <= X + K). { intros k j Hj. replace (a k j) with (x k [+] (a k j [-] x k)) by vring. eapply Rle_trans; [apply norm_triangle|]. specialize (HX k). specialize (Ha k j Hj). specialize (HK k). lra. }
    set (Lb := fun j => eval (F j) (a 0%nat j) - norm (u 0%nat j) * (X + K + norm (a 0%nat j))).
    assert (HLb : forall k j, (j < m)%nat -> Lb j <= eval (F j) (a k j)).
    { intros k j Hj. destruct (Hsub 0%nat j Hj) as [_ H]. specialize (H (a k j) (Hdom k j Hj)). unfold Lb. pose proof (CS_abs (u 0%nat j) (a k j [-] a 0%nat j)) as Hcs.
      assert (Hn : norm (a k j [-] a 0%nat j) <= X + K + norm (a 0%nat j)). { eapply Rle_trans; [apply norm_sub_le|]. specialize (Hab k j Hj). lra. }
      apply (Rmult_le_compat_l (norm (u 0%nat j))) in Hn; [|apply norm_nonneg]. pose proof (Rle_abs (- << u 0%nat j, a k j [-] a 0%nat j >>)) as Hab'. rewrite Rabs_Ropp in Hab'. lra. }
    destruct (Un_cv_bound _ _ He0 1 ltac:(lra)) as [N HN].
    set (D := RS m (fun i => w i * eval (F i) p0) + 1 + (norm x0 + X) * sqrt (2 * Qgap 0 p0)).
    assert (HD : forall k, RS m (fun i => w i * eval (F i) (a (phi (N + k)%nat) i)) <= D).
    { intro k. eapply Rle_trans; [apply (Hub p0); auto|]. unfold D. specialize (HN (N + k)%nat ltac:(lia)). assert (<< x0 [-] x (phi (N + k)%nat), x (phi (N + k)%nat) [-] p0 >> <= (norm x0 + X) * sqrt (2 * Qgap 0 p0)); [|lra].
      eapply Rle_trans; [apply CS|]. apply Rmult_le_compat; try apply norm_nonneg; [|apply Hxp]. eapply Rle_trans; [apply norm_sub_le|]. specialize (HX (phi (N + k)%nat)). lra. }
    destruct (Hlsc i Hii (fun k => a (phi (N + k)%nat) i) l (Lb i + (D - RS m (fun j => w j * Lb j)) / w i)) as [H _]; [| |exact H].
    - apply (vcv_sub (fun k => a (phi k) i) l (fun k => (N + k)%nat)); [intro; lia|auto].
    - intro k. split; [apply Hdom; auto|]. assert (H1 : w i * (eval (F i) (a (phi (N + k)%nat) i) - Lb i) <= D - RS m (fun j => w j * Lb j)).
      { eapply Rle_trans; [apply (RS_le_one m (fun j => w j * (eval (F j) (a (phi (N + k)%nat) j) - Lb j)) i); auto; intros j Hj; apply Rmult_le_pos; [left; auto|specialize (HLb (phi (N + k)%nat) j Hj); lra]|].
        rewrite (RS_ext m _ (fun j => w j * eval (F j) (a (phi (N + k)%nat) j) - w j * Lb j)) by (intros; ring). rewrite RS_sub. specialize (HD k). lra. }
      specialize (Hw i Hii). assert (H2 : eval (F i) (a (phi (N + k)%nat) i) - Lb i <= (D - RS m (fun j => w j * Lb j)) / w i); [|lra].
      apply (Rmult_le_reg_l (w i)); auto. replace (w i * ((D - RS m (fun j => w j * Lb j)) / w i)) with (D - RS m (fun j => w j * Lb j)) by (field; lra). exact H1. }
  assert (Hlim : forall p, Un_cv (fun k => << x0 [-] x (phi k), x (phi k) [-] p >>) (<< x0 [-] l, l [-] p >>)).
  { intro p. apply (Un_cv_ext (fun k => << x (phi k), x0 [+] p >> - << x0, p >> - norm2 (x (phi k)))); [intro k; iring|].
    replace (<< x0 [-] l, l [-] p >>) with (<< l, x0 [+] p >> - << x0, p >> - norm2 l) by iring. apply CV_minus; [apply CV_minus; [apply vcv_inner; auto|apply Un_cv_const]|apply vcv_norm2; auto]. }
  assert (Hlow : forall eps, 0 < eps -> exists N, forall k, (N <= k)%nat -> RS m (fun i => w i * eval (F i) l) - eps <= RS m (fun i => w i * eval (F i) (a (phi k) i))).
  { apply lsc_liminf_sum; auto. }
  exists l. split.
  - apply subgrad_prox; [lra|]. split; [intros i Hii; apply Hld; auto|]. intros p Hp. cbn [edom esum escal] in Hp. change (eval (esum m (fun i => escal (w i) (F i))) l) with (RS m (fun i => w i * eval (F i) l)). change (eval (esum m (fun i => escal (w i) (F i))) p) with (RS m (fun i => w i * eval (F i) p)).
    rewrite Rinv_1, vscal_1. apply le_epsilon. intros eps He.
    destruct (Hlow (eps / 3) ltac:(lra)) as [N1 H1]. destruct (Un_cv_bound _ _ He0 (eps / 3) ltac:(lra)) as [N2 H2]. destruct (Un_cv_bound _ _ (Hlim p) (eps / 3) ltac:(lra)) as [N3 H3].
    specialize (H1 (N1 + N2 + N3)%nat ltac:(lia)). specialize (H2 (N1 + N2 + N3)%nat ltac:(lia)). specialize (H3 (N1 + N2 + N3)%nat ltac:(lia)). pose proof (Hub p (phi (N1 + N2 + N3)%nat) Hp) as H4.
    replace (<< x0 [-] l, p [-] l >>) with (- << x0 [-] l, l [-] p >>) by iring. lra.
  - apply vcv_iff2. assert (HV : Un_cv (fun k => Qgap k l) 0).
    { apply (dec_sub _ phi); [intro k; apply HQ; auto|intro k; pose proof (Qgap_nonneg k l Hld); pose proof (norm2_nonneg (x k [-] l)); lra|exact Hi|].
      assert (Hn : Un_cv (fun k => norm2 (x (phi k) [-] l)) 0) by (apply vcv_iff2; exact Hl).
      intros eps He. destruct (Hlow (eps / 4) ltac:(lra)) as [N1 H1]. destruct (Un_cv_bound _ _ He0 (eps / 4) ltac:(lra)) as [N2 H2]. destruct (Un_cv_bound _ _ (Hlim l) (eps / 4) ltac:(lra)) as [N3 H3]. destruct (Un_cv_bound _ _ Hn (eps / 4) ltac:(lra)) as [N4 H4].
      exists (N1 + N2 + N3 + N4)%nat. intros k Hk. specialize (H1 k ltac:(lia)). specialize (H2 k ltac:(lia)). specialize (H3 k ltac:(lia)). specialize (H4 k ltac:(lia)). cbv beta in *.
      pose proof (Qgap_nonneg (phi k) l Hld) as H5. pose proof (norm2_nonneg (x (phi k) [-] l)) as H6. unfold R_dist. rewrite Rminus_0_r, Rabs_pos_eq by lra. rewrite Qgap_eq.
      rewrite vsub_diag, inner_zero_r in H3. lra. }
    apply (Un_cv_squeeze _ (fun k => 2 * Qgap k l)).
    + intro k. split; [apply norm2_nonneg|]. pose proof (Qgap_nonneg k l Hld). lra.
    + replace 0 with (2 * 0) by ring. apply CV_mult; [apply Un_cv_const|exact HV].
Qed.
End Engine.
