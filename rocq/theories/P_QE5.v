(** * The level search of QuadraticEnvelopeRankL2.prox (M_QE.v) *)
From Coq Require Import Permutation Sorting.
From Verif Require Import Base Space Spec SpecOps ConvexFacts Sep M_ProxOp M_L1 M_Pen MatFacts VSum M_Proj M_L0 P_L0 M_SVD SVD M_QE P_QE P_QE2.

Section Loop.
Context (argsort : list R -> list nat) (HA : argsort_ok argsort).
Context (rho : R) (Hrho : 0 < rho) (r0 : nat) (ys : list R).
Notation n := (length ys).
Context (Hr0 : (0 < r0 <= n)%nat) (Hsort : forall i j, (i <= j < n)%nat -> nth j ys 0 <= nth i ys 0) (Hpos : forall j, (j < n)%nat -> 0 <= nth j ys 0).
Notation r := (ci_scale (1 + rho) r0 ys).
Notation bal := (bal (1 + rho) r0 ys).
Let ind := argsort r.
Let p := take r ind.
Notation e := (fun j => nth j ind 0%nat).

Lemma rl_r_length : length r = n.
Proof. unfold ci_scale. rewrite app_length, map_length, firstn_length, skipn_length. lia. Qed.
Lemma rl_perm : Permutation ind (seq 0 n).
Proof. destruct (HA r) as [HP _]. rewrite rl_r_length in HP. exact HP. Qed.
Lemma rl_ind_length : length ind = n.
Proof. rewrite (Permutation_length rl_perm). apply seq_length. Qed.
Lemma rl_e_lt j : (j < n)%nat -> (e j < n)%nat.
Proof. intro Hj. assert (HI : In (nth j ind 0%nat) ind) by (apply nth_In; rewrite rl_ind_length; auto). apply (Permutation_in _ rl_perm), in_seq in HI. lia. Qed.
Lemma rl_p_length : length p = n.
Proof. unfold p, take. rewrite map_length. apply rl_ind_length. Qed.
Lemma rl_p_nth j : (j < n)%nat -> nth j p 0 = nth (e j) r 0.
Proof. intro Hj. unfold p, take. apply (map_nth_lt (fun i => nth i r 0) ind j 0%nat 0). rewrite rl_ind_length. auto. Qed.
Lemma rl_p_sorted i j : (i <= j < n)%nat -> nth i p 0 <= nth j p 0.
Proof.
  intro H. destruct (Nat.eq_dec i j) as [->|Hne]; [lra|]. apply (sorted_nth Rle); [apply (sort_sorted argsort HA)|]. change (np_sort argsort r) with p. rewrite rl_p_length. lia.
Qed.
Lemma rl_r_top j : (j < r0)%nat -> nth j r 0 = nth j ys 0.
Proof. intro H. unfold ci_scale. rewrite app_nth1 by (rewrite firstn_length; lia). apply firstn_nth. auto. Qed.
Lemma rl_r_bot j : (r0 <= j < n)%nat -> nth j r 0 = (1 + rho) * nth j ys 0.
Proof.
  intro H. unfold ci_scale. rewrite app_nth2 by (rewrite firstn_length; lia). rewrite firstn_length.
  rewrite (map_nth_lt (Rmult (1 + rho)) _ _ 0 0) by (rewrite skipn_length; lia). rewrite skipn_nth. do 2 f_equal. lia.
Qed.

(** the coefficients before position k is processed *)
Definition rl_a (k : nat) : R := RS n (fun j => if (j <? k)%nat then (if (e j <? r0)%nat then (rho + 1) / rho else 0) else (if (e j <? r0)%nat then 0 else 1 / rho)).
Definition rl_b (k : nat) : R := RS n (fun j => (if (j <? k)%nat then (if (e j <? r0)%nat then (rho + 1) / rho else 0) else (if (e j <? r0)%nat then 0 else (rho + 1) / rho)) * nth (e j) ys 0).

Lemma rl_delta k c : (k < n)%nat -> RS n (fun j => if Nat.eqb j k then c else 0) = c.
Proof.
  intro H. rewrite (RS_ext n _ (fun j => c * (if Nat.eqb k j then 1 else 0))); [apply (RS_delta n k (fun _ => c) H)|].
  intros j Hj. rewrite (Nat.eqb_sym k j). destruct (Nat.eqb j k); ring.
Qed.
Lemma rl_a_step k : (k < n)%nat -> rl_a (S k) = if (e k <? r0)%nat then rl_a k + (rho + 1) / rho else rl_a k - 1 / rho.
Proof.
  intro Hk. assert (E : rl_a (S k) - rl_a k = if (e k <? r0)%nat then (rho + 1) / rho else - (1 / rho)); [|destruct (_ <? r0)%nat; lra].
  unfold rl_a. rewrite <- RS_sub. rewrite <- (rl_delta k (if (e k <? r0)%nat then (rho + 1) / rho else - (1 / rho)) Hk). apply RS_ext. intros j Hj.
  destruct (Nat.eqb_spec j k) as [->|Hne].
  - destruct (Nat.ltb_spec k (S k)); [|lia]. destruct (Nat.ltb_spec k k); [lia|]. destruct (_ <? r0)%nat; ring.
  - destruct (Nat.ltb_spec j (S k)), (Nat.ltb_spec j k); try lia; ring.
Qed.
Lemma rl_b_step k : (k < n)%nat -> rl_b (S k) = if (e k <? r0)%nat then rl_b k + (rho + 1) / rho * nth (e k) ys 0 else rl_b k - (rho + 1) / rho * nth (e k) ys 0.
Proof.
  intro Hk. set (c := (rho + 1) / rho * nth (e k) ys 0).
  assert (E : rl_b (S k) - rl_b k = if (e k <? r0)%nat then c else - c); [|destruct (_ <? r0)%nat; lra].
  unfold rl_b. rewrite <- RS_sub. rewrite <- (rl_delta k (if (e k <? r0)%nat then c else - c) Hk). apply RS_ext. intros j Hj.
  destruct (Nat.eqb_spec j k) as [->|Hne].
  - destruct (Nat.ltb_spec k (S k)); [|lia]. destruct (Nat.ltb_spec k k); [lia|]. unfold c. destruct (_ <? r0)%nat; ring.
  - destruct (Nat.ltb_spec j (S k)), (Nat.ltb_spec j k); try lia; ring.
Qed.
Lemma rl_a_0 : rl_a 0 = (INR n - INR r0) / rho.
Proof.
  unfold rl_a. rewrite (RS_ext n _ (fun j => (fun i => (if (i <? r0)%nat then 0 else 1) * (1 / rho)) (e j))).
  - rewrite <- (RS_perm n ind (fun i => (if (i <? r0)%nat then 0 else 1) * (1 / rho)) rl_perm). rewrite RS_scal_r, RS_tail, minus_INR by lia. field. lra.
  - intros j Hj. cbv beta. change (j <? 0)%nat with false. cbv iota. destruct (Nat.ltb (nth j ind 0%nat) r0); ring.
Qed.
Lemma rl_b_0 : rl_b 0 = (rho + 1) / rho * Rsum (skipn r0 ys).
Proof.
  unfold rl_b. rewrite (RS_ext n _ (fun j => (fun i => (rho + 1) / rho * (if (i <? r0)%nat then 0 else nth i ys 0)) (e j))).
  - rewrite <- (RS_perm n ind (fun i => (rho + 1) / rho * (if (i <? r0)%nat then 0 else nth i ys 0)) rl_perm). rewrite RS_scal. f_equal.
    rewrite Rsum_RS, skipn_length. replace n with (r0 + (n - r0))%nat at 1 by lia. rewrite RS_split, (RS_ext r0 _ (fun _ => 0)), RS_zero.
    + rewrite Rplus_0_l. apply RS_ext. intros i Hi. destruct (Nat.ltb_spec (r0 + i) r0); [lia|]. unfold nthr. rewrite skipn_nth. reflexivity.
    + intros i Hi. destruct (Nat.ltb_spec i r0); [auto|lia].
  - intros j Hj. cbv beta. change (j <? 0)%nat with false. cbv iota. destruct (Nat.ltb (nth j ind 0%nat) r0); ring.
Qed.

Lemma rl_bal k t : (S k < n)%nat -> nth k p 0 <= t <= nth (S k) p 0 -> bal t = rho * (rl_b (S k) - rl_a (S k) * t).
Proof.
  intros Hk Ht. unfold P_QE2.bal. rewrite (RS_perm n ind _ rl_perm). unfold rl_a, rl_b. rewrite <- RS_scal_r, <- RS_sub, <- RS_scal. apply RS_ext. intros j Hj.
  pose proof (rl_p_nth j Hj) as Ej. pose proof (rl_e_lt j Hj) as Hej. cbv beta in Ej, Hej. cbv beta. destruct (Nat.ltb_spec j (S k)) as [Hjk|Hjk].
  - pose proof (rl_p_sorted j k ltac:(lia)) as Hle. rewrite Ej in Hle. destruct (Nat.ltb_spec (nth j ind 0%nat) r0) as [H|H].
    + rewrite rl_r_top in Hle by auto. rewrite Rmax_right by lra. field. lra.
    + rewrite rl_r_bot in Hle by lia. rewrite Rmax_left by lra. ring.
  - pose proof (rl_p_sorted (S k) j ltac:(lia)) as Hle. rewrite Ej in Hle. destruct (Nat.ltb_spec (nth j ind 0%nat) r0) as [H|H].
    + rewrite rl_r_top in Hle by auto. rewrite Rmax_left by lra. ring.
    + rewrite rl_r_bot in Hle by lia. rewrite Rmax_right by lra. field. lra.
Qed.
Lemma rl_a_nonneg k : 0 <= rl_a k.
Proof.
  apply RS_nonneg. intros j Hj. assert (0 < / rho) by (apply Rinv_0_lt_compat; auto). assert (0 < (rho + 1) / rho) by (apply Rmult_lt_0_compat; lra).
  destruct (_ <? k)%nat, (_ <? r0)%nat; unfold Rdiv in *; lra.
Qed.
Lemma rl_a_zero k : rl_a k = 0 -> forall j, (j < n)%nat -> ((j < k)%nat -> (r0 <= e j)%nat) /\ ((k <= j)%nat -> (e j < r0)%nat).
Proof.
  intros H j Hj. assert (Hi : 0 < / rho) by (apply Rinv_0_lt_compat; auto). assert (Hc : 0 < (rho + 1) / rho) by (apply Rmult_lt_0_compat; lra).
  assert (G : forall i, (i < n)%nat -> 0 <= (fun j => if (j <? k)%nat then (if (e j <? r0)%nat then (rho + 1) / rho else 0) else (if (e j <? r0)%nat then 0 else 1 / rho)) i).
  { intros i Hi'. cbv beta. destruct (_ <? k)%nat, (_ <? r0)%nat; unfold Rdiv in *; lra. }
  pose proof (RS_zero_all n _ G H j Hj) as E. cbv beta in E. destruct (Nat.ltb_spec j k), (Nat.ltb_spec (nth j ind 0%nat) r0); unfold Rdiv in *; split; intro; auto; try lia; lra.
Qed.

Lemma rl_loop_ok m : forall k K, (k + m = K)%nat -> (S K < n)%nat -> rl_a (S K) <> 0 -> 0 <= bal (nth K p 0) -> bal (nth (S K) p 0) <= 0 ->
  exists s, rl_loop rho r0 ys p (skipn k ind) k (rl_a k) (rl_b k) = Ok (Some s) /\ bal s = 0.
Proof.
  induction m as [|m IH]; intros k K HK Hn Ha Hb1 Hb2.
  all: assert (Hsk : skipn k ind = e k :: skipn (S k) ind).
  1,3: assert (Hki : (k < length ind)%nat) by (rewrite rl_ind_length; lia); clearbody ind; revert Hki; clear; revert k; induction ind as [|x l IHl]; intros k Hk; [simpl in Hk; lia|];
       destruct k; [reflexivity|]; cbn [skipn nth]; apply IHl; simpl in Hk; lia.
  all: rewrite Hsk; cbn [rl_loop]; cbv beta; rewrite <- (rl_a_step k), <- (rl_b_step k) by lia; clear Hsk.
  all: destruct (nth_error p (S k)) as [q|] eqn:Eq; [|apply nth_error_None in Eq; rewrite rl_p_length in Eq; lia].
  all: apply (nth_error_nth _ _ 0) in Eq; subst q; pose proof (rl_a_nonneg (S k)) as Hnn.
  all: pose proof (rl_p_sorted k (S k) ltac:(lia)) as Hpp.
  - assert (EK : K = k) by lia. clear HK. subst K. destruct (Reqb_spec (rl_a (S k)) 0) as [[? _]|[_ ->]]; [contradiction|]. assert (Hap : 0 < rl_a (S k)) by lra.
    set (s := rl_b (S k) / rl_a (S k)). assert (Es : rl_b (S k) = rl_a (S k) * s) by (unfold s; field; lra).
    rewrite (rl_bal k) in Hb1, Hb2 by (auto; lra). rewrite Es in Hb1, Hb2.
    replace (rho * (rl_a (S k) * s - rl_a (S k) * nth k p 0)) with ((rho * rl_a (S k)) * (s - nth k p 0)) in Hb1 by ring.
    replace (rho * (rl_a (S k) * s - rl_a (S k) * nth (S k) p 0)) with (- ((rho * rl_a (S k)) * (nth (S k) p 0 - s))) in Hb2 by ring.
    assert (Hra : 0 < rho * rl_a (S k)) by (apply Rmult_lt_0_compat; auto).
    assert (A1 : nth k p 0 <= s). { apply Rnot_lt_le. intro Hc. assert (0 < rho * rl_a (S k) * (nth k p 0 - s)) by (apply Rmult_lt_0_compat; lra). lra. }
    assert (A2 : s <= nth (S k) p 0). { apply Rnot_lt_le. intro Hc. assert (0 < rho * rl_a (S k) * (s - nth (S k) p 0)) by (apply Rmult_lt_0_compat; lra). lra. }
    destruct (Rleb_spec (nth k p 0) s) as [[_ ->]|[? _]]; [|lra]. destruct (Rleb_spec s (nth (S k) p 0)) as [[_ ->]|[? _]]; [|lra].
    exists s. split; [reflexivity|]. rewrite (rl_bal k) by (auto; lra). rewrite Es. ring.
  - destruct (Reqb_spec (rl_a (S k)) 0) as [[_ ->]|[Hne ->]]; [apply (IH (S k) K); auto; lia|].
    set (s := rl_b (S k) / rl_a (S k)). assert (Es : rl_b (S k) = rl_a (S k) * s) by (unfold s; field; auto).
    destruct (Rleb_spec (nth k p 0) s) as [[A1 ->]|[A1 ->]]; [|apply (IH (S k) K); auto; lia].
    destruct (Rleb_spec s (nth (S k) p 0)) as [[A2 ->]|[A2 ->]]; [|apply (IH (S k) K); auto; lia].
    exists s. split; [reflexivity|]. rewrite (rl_bal k) by (auto; lia). rewrite Es. ring.
Qed.

Lemma bal_mono s t : s <= t -> bal t <= bal s.
Proof.
  intro H. apply RS_le. intros j Hj. destruct (_ <? r0)%nat.
  - assert (Rmax 0 (s - nth j ys 0) <= Rmax 0 (t - nth j ys 0)) by (apply Rle_max_compat_l; lra). apply Ropp_le_contravar, Rmult_le_compat_l; lra.
  - apply Rle_max_compat_l. lra.
Qed.
Lemma discrete_ivt (f : nat -> R) m : 0 <= f 0%nat -> f (S m) <= 0 -> exists K, (K <= m)%nat /\ 0 <= f K /\ f (S K) <= 0.
Proof.
  intros H0. induction m as [|m IH]; intro H1; [exists 0%nat; auto|]. destruct (Rle_dec (f (S m)) 0) as [H|H].
  - destruct (IH H) as [K [A [B C]]]. exists K. split; [lia|auto].
  - exists (S m). split; [lia|]. split; [lra|auto].
Qed.
(** at a level where every reduced value is below and every kept value above, the balance is zero *)
Lemma bal_sep t : (forall j, (j < r0)%nat -> t <= nth j ys 0) -> (forall j, (r0 <= j < n)%nat -> (1 + rho) * nth j ys 0 <= t) -> bal t = 0.
Proof.
  intros H1 H2. unfold P_QE2.bal. rewrite (RS_ext n _ (fun _ => 0)); [apply RS_zero|]. intros j Hj. destruct (Nat.ltb_spec j r0) as [H|H].
  - rewrite Rmax_left by (specialize (H1 j H); lra). ring.
  - rewrite Rmax_left by (specialize (H2 j ltac:(lia)); lra). ring.
Qed.
Lemma rl_pos_of i : (i < n)%nat -> exists j, (j < n)%nat /\ e j = i.
Proof.
  intro Hi. assert (HI : In i ind) by (apply (Permutation_in _ (Permutation_sym rl_perm)), in_seq; lia). apply (In_nth _ _ 0%nat) in HI as [j [Hj E]].
  exists j. rewrite rl_ind_length in Hj. auto.
Qed.

Lemma rl_bracket : (3 <= n)%nat \/ (n = 2%nat /\ (r0 = 2%nat \/ nth 0 ys 0 < (1 + rho) * nth 1 ys 0)) ->
  exists K, (S K < n)%nat /\ rl_a (S K) <> 0 /\ 0 <= bal (nth K p 0) /\ bal (nth (S K) p 0) <= 0.
Proof.
  intro Hn. assert (Hn2 : (2 <= n)%nat) by lia.
  assert (B0 : 0 <= bal (nth 0 p 0)).
  { apply RS_nonneg. intros j Hj. destruct (Nat.ltb_spec j r0) as [H|H]; [|apply Rmax_l].
    destruct (rl_pos_of j Hj) as [q [Hq Eq]]. pose proof (rl_p_sorted 0 q ltac:(lia)) as Hle. rewrite (rl_p_nth q Hq), Eq, rl_r_top in Hle by auto.
    rewrite Rmax_left by lra. lra. }
  assert (B1 : bal (nth (S (n - 2)) p 0) <= 0).
  { replace (S (n - 2)) with (n - 1)%nat by lia. apply Rle_trans with (RS n (fun _ => 0)); [|rewrite RS_zero; lra]. apply RS_le. intros j Hj. destruct (Nat.ltb_spec j r0) as [H|H].
    - match goal with |- - (_ * ?m) <= 0 => assert (0 <= (1 + rho) * m) by (apply Rmult_le_pos; [lra|apply Rmax_l]) end. lra.
    - destruct (rl_pos_of j Hj) as [q [Hq Eq]]. pose proof (rl_p_sorted q (n - 1) ltac:(lia)) as Hle. rewrite (rl_p_nth q Hq), Eq, rl_r_bot in Hle by lia.
      rewrite Rmax_left by lra. lra. }
  destruct (discrete_ivt (fun k => bal (nth k p 0)) (n - 2) B0 B1) as [K [HK [HK1 HK2]]].
  destruct (Req_dec (rl_a (S K)) 0) as [Ha|Ha]; [|exists K; split; [lia|auto]].
  pose proof (rl_a_zero (S K) Ha) as HZ.
  assert (Htop : forall i, (i < r0)%nat -> nth (S K) p 0 <= nth i ys 0).
  { intros i Hi. destruct (rl_pos_of i ltac:(lia)) as [q [Hq Eq]]. destruct (HZ q Hq) as [Z1 Z2]. cbv beta in Z1, Eq. rewrite Eq in Z1. destruct (Nat.lt_ge_cases q (S K)) as [H|H]; [specialize (Z1 H); lia|].
    pose proof (rl_p_sorted (S K) q ltac:(lia)) as Hle. rewrite (rl_p_nth q Hq), Eq, rl_r_top in Hle by auto. exact Hle. }
  assert (Hbot : forall i, (r0 <= i < n)%nat -> (1 + rho) * nth i ys 0 <= nth K p 0).
  { intros i Hi. destruct (rl_pos_of i ltac:(lia)) as [q [Hq Eq]]. destruct (HZ q Hq) as [Z1 Z2]. cbv beta in Z2, Eq. rewrite Eq in Z2. destruct (Nat.lt_ge_cases q (S K)) as [H|H]; [|specialize (Z2 H); lia].
    pose proof (rl_p_sorted q K ltac:(lia)) as Hle. rewrite (rl_p_nth q Hq), Eq, rl_r_bot in Hle by lia. exact Hle. }
  pose proof (rl_p_sorted K (S K) ltac:(lia)) as Hpp.
  assert (E1 : bal (nth K p 0) = 0) by (apply bal_sep; intros i Hi; [specialize (Htop i Hi); lra|apply Hbot; auto]).
  assert (E2 : bal (nth (S K) p 0) = 0) by (apply bal_sep; intros i Hi; [apply Htop; auto|specialize (Hbot i Hi); lra]).
  destruct K as [|K].
  - destruct (Nat.lt_ge_cases 2 n) as [H3|H3].
    + exists 1%nat. split; [lia|]. split.
      * intro Ha2. pose proof (rl_a_zero 2 Ha2 1%nat ltac:(lia)) as [Z1 _]. destruct (HZ 1%nat ltac:(lia)) as [_ Z2]. specialize (Z1 ltac:(lia)). specialize (Z2 ltac:(lia)). cbv beta in Z1, Z2. lia.
      * split; [rewrite E2; lra|]. eapply Rle_trans; [apply bal_mono, (rl_p_sorted 1 2); lia|rewrite E2; lra].
    + exfalso. assert (n = 2%nat) by lia. destruct Hn as [Hn|[_ Hn]]; [lia|]. destruct (HZ 0%nat ltac:(lia)) as [Z1 _]. specialize (Z1 ltac:(lia)). pose proof (rl_e_lt 0 ltac:(lia)) as Hlt. cbv beta in Z1, Hlt.
      destruct Hn as [Hn|Hn]; [lia|]. assert (r0 = 1%nat) by lia. pose proof (Htop 0%nat ltac:(lia)). pose proof (Hbot 1%nat ltac:(lia)). lra.
  - exists K. split; [lia|]. split.
    + intro Ha2. pose proof (rl_a_zero (S K) Ha2 (S K) ltac:(lia)) as [_ Z1]. destruct (HZ (S K) ltac:(lia)) as [Z2 _]. specialize (Z1 ltac:(lia)). specialize (Z2 ltac:(lia)). cbv beta in Z1, Z2. lia.
    + split; [|rewrite E1; lra]. eapply Rle_trans; [|apply bal_mono, (rl_p_sorted K (S K)); lia]. rewrite E1; lra.
Qed.

Lemma rl_clip s : map (fun t => Rmax s t) (firstn r0 ys) ++ map (fun t => Rmin s ((1 + rho) * t)) (skipn r0 ys) = ci_clip r0 r s.
Proof.
  unfold ci_clip, ci_scale. rewrite firstn_app, skipn_app, firstn_firstn, firstn_length. replace (Nat.min r0 r0) with r0 by lia. replace (r0 - Nat.min r0 n)%nat with 0%nat by lia.
  cbn [firstn skipn]. rewrite app_nil_r. rewrite (skipn_all2 (firstn r0 ys)) by (rewrite firstn_length; lia). cbn [app]. rewrite map_map. f_equal; apply map_ext; intro; [apply Rmax_comm|apply Rmin_comm].
Qed.
Lemma rl_clip_top s j : (j < r0)%nat -> nth j (ci_clip r0 r s) 0 = Rmax (nth j ys 0) s.
Proof.
  intro H. rewrite <- rl_clip. rewrite app_nth1 by (rewrite map_length, firstn_length; lia).
  rewrite (map_nth_lt (fun a => Rmax s a) _ _ 0 0) by (rewrite firstn_length; lia). rewrite firstn_nth by auto. apply Rmax_comm.
Qed.
Lemma rl_clip_bot s j : (r0 <= j < n)%nat -> nth j (ci_clip r0 r s) 0 = Rmin ((1 + rho) * nth j ys 0) s.
Proof.
  intro H. rewrite <- rl_clip. rewrite app_nth2 by (rewrite map_length, firstn_length; lia). rewrite map_length, firstn_length.
  rewrite (map_nth_lt (fun a => Rmin s ((1 + rho) * a)) _ _ 0 0) by (rewrite skipn_length; lia). rewrite skipn_nth.
  replace (r0 + (j - Nat.min r0 n))%nat with j by lia. apply Rmin_comm.
Qed.
Lemma rl_clip_length s : length (ci_clip r0 r s) = n.
Proof. rewrite <- rl_clip, app_length, !map_length, firstn_length, skipn_length. lia. Qed.

Lemma rl_core_ok : (3 <= n)%nat \/ (n = 2%nat /\ (r0 = 2%nat \/ nth 0 ys 0 < (1 + rho) * nth 1 ys 0)) ->
  exists zl, rl_core argsort rho r0 ys = Ok zl /\ good (1 + rho) r0 ys zl /\ noninc n (nthr zl).
Proof.
  intro Hn. destruct (rl_bracket Hn) as [K [HK [Ha [Hb1 Hb2]]]]. destruct (rl_loop_ok K 0 K eq_refl HK Ha Hb1 Hb2) as [s [El Hb]].
  unfold rl_core. change (firstn r0 ys ++ map (Rmult (1 + rho)) (skipn r0 ys)) with r. fold ind. fold p.
  rewrite rl_a_0, rl_b_0 in El. cbn [skipn] in El. rewrite El. cbn [bind]. rewrite rl_clip. exists (ci_clip r0 r s). split; [reflexivity|].
  assert (HG : good (1 + rho) r0 ys (ci_clip r0 r s)).
  { destruct (Nat.eq_dec r0 n) as [Er|Er].
    - assert (Hall : forall j, (j < n)%nat -> s <= nth j ys 0).
      { intros j Hj. apply Rnot_lt_le. intro Hc. unfold P_QE2.bal in Hb. rewrite (RS_ext n _ (fun j => - ((1 + rho) * Rmax 0 (s - nth j ys 0)))) in Hb.
        2:{ intros i Hi. destruct (Nat.ltb_spec i r0); [reflexivity|lia]. }
        rewrite RS_opp in Hb. apply Ropp_eq_compat in Hb. rewrite Ropp_involutive, Ropp_0 in Hb.
        assert (G : forall i, (i < n)%nat -> 0 <= (fun j => (1 + rho) * Rmax 0 (s - nth j ys 0)) i) by (intros i Hi; apply Rmult_le_pos; [lra|apply Rmax_l]).
        pose proof (RS_zero_all n _ G Hb j Hj) as E. cbv beta in E. rewrite Rmax_right in E by lra. assert (0 < (1 + rho) * (s - nth j ys 0)) by (apply Rmult_lt_0_compat; lra). lra. }
      split; [apply rl_clip_length|]. exists (fun _ => 1), 0. split; [lra|]. split; [rewrite RS_const, Er; ring|]. intros j Hj. rewrite rl_clip_top by lia. specialize (Hall j Hj).
      rewrite Rmax_left by lra. pose proof (Hpos j Hj). split; [lra|]. split; [lra|]. split; [auto|]. split; [field; lra|]. split; [left; auto|right; lra].
    - assert (Hlt : (0 < r0 < n)%nat) by lia.
      assert (Hge : forall t, t < hi (1 + rho) r0 ys -> t < lo r0 ys -> bal t <> 0).
      { intros t H1 H2 E. assert (G : forall i, (i < n)%nat -> 0 <= (fun j => if (j <? r0)%nat then - ((1 + rho) * Rmax 0 (t - nth j ys 0)) else Rmax 0 ((1 + rho) * nth j ys 0 - t)) i).
        { intros i Hi. cbv beta. destruct (Nat.ltb_spec i r0); [|apply Rmax_l]. pose proof (Hsort i (r0 - 1)%nat ltac:(lia)). unfold lo in H2. rewrite Rmax_left by lra. lra. }
        pose proof (RS_zero_all n _ G E r0 ltac:(lia)) as E0. cbv beta in E0. destruct (Nat.ltb_spec r0 r0); [lia|]. unfold hi in H1. rewrite Rmax_right in E0 by lra. lra. }
      assert (Hle : forall t, hi (1 + rho) r0 ys < t -> lo r0 ys < t -> bal t <> 0).
      { intros t H1 H2 E. assert (G : forall i, (i < n)%nat -> 0 <= (fun j => - (if (j <? r0)%nat then - ((1 + rho) * Rmax 0 (t - nth j ys 0)) else Rmax 0 ((1 + rho) * nth j ys 0 - t))) i).
        { intros i Hi. cbv beta. destruct (Nat.ltb_spec i r0).
          - rewrite Ropp_involutive. apply Rmult_le_pos; [lra|apply Rmax_l].
          - pose proof (Hsort r0 i ltac:(lia)). unfold hi in H1. assert ((1 + rho) * nth i ys 0 <= (1 + rho) * nth r0 ys 0) by (apply Rmult_le_compat_l; lra). rewrite Rmax_left by lra. lra. }
        unfold P_QE2.bal in E. apply Ropp_eq_compat in E. rewrite Ropp_0, <- RS_opp in E.
        pose proof (RS_zero_all n _ G E (r0 - 1)%nat ltac:(lia)) as E0. cbv beta in E0. destruct (Nat.ltb_spec (r0 - 1) r0); [|lia]. unfold lo in H2. rewrite Rmax_right, Ropp_involutive in E0 by lra.
        assert (0 < (1 + rho) * (t - nth (r0 - 1) ys 0)) by (apply Rmult_lt_0_compat; lra). lra. }
      destruct (Rle_dec (lo r0 ys) (hi (1 + rho) r0 ys)) as [Hlh|Hlh].
      + apply clip_good; auto; [lra|]. split; apply Rnot_lt_le; intro Hc; [apply (Hge s)|apply (Hle s)]; auto; lra.
      + assert (Hs : hi (1 + rho) r0 ys <= s <= lo r0 ys) by (split; apply Rnot_lt_le; intro Hc; [apply (Hge s)|apply (Hle s)]; auto; lra).
        assert (Ec : ci_clip r0 r s = r).
        { apply (nth_ext _ _ 0 0); [rewrite rl_clip_length; symmetry; apply rl_r_length|]. intros j Hj. rewrite rl_clip_length in Hj. destruct (Nat.lt_ge_cases j r0) as [H|H].
          - rewrite rl_clip_top, rl_r_top by auto. pose proof (Hsort j (r0 - 1)%nat ltac:(lia)). unfold lo in Hs. apply Rmax_left. lra.
          - rewrite rl_clip_bot, rl_r_bot by lia. pose proof (Hsort r0 j ltac:(lia)). unfold hi in Hs. assert ((1 + rho) * nth j ys 0 <= (1 + rho) * nth r0 ys 0) by (apply Rmult_le_compat_l; lra). apply Rmin_left. lra. }
        rewrite Ec. apply sep_good; auto; lra. }
  split; auto. destruct HG as [_ [th [s' [_ [_ HG]]]]]. split; [|intros i Hi; apply HG; auto].
  intros i j Hij Hj. unfold nthr. destruct (Nat.lt_ge_cases j r0) as [H1|H1], (Nat.lt_ge_cases i r0) as [H2|H2]; try lia.
  - rewrite !rl_clip_top by auto. apply Rle_max_compat_r, Hsort. lia.
  - rewrite (rl_clip_top s i), (rl_clip_bot s j) by lia. eapply Rle_trans; [apply Rmin_r|apply Rmax_r].
  - rewrite !rl_clip_bot by lia. apply Rle_min_compat_r, Rmult_le_compat_l; [lra|]. apply Hsort. lia.
Qed.
End Loop.
