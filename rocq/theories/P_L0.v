(** * Proofs about the L0, L10 balls and the Hankel projection (M_L0.v) *)
From Coq Require Import ZArith Permutation Sorted Psatz.
From Verif Require Import Base Space Spec SpecOps ConvexFacts M_ProxOp MatFacts VSum M_Proj M_L0 P_Proj2.
From Verif Require Export S_L0.
Open Scope result_scope.

(** ** Specification *)

(** ** sums over lists of positions *)
Lemma RS_Rsum n h : RS n h = Rsum (map h (seq 0 n)).
Proof. induction n as [|n IH]; auto. rewrite seq_S, map_app, Rsum_app. cbn [RS]. rewrite IH. simpl. lra. Qed.
Lemma Rsum_perm l l' : Permutation l l' -> Rsum l = Rsum l'.
Proof. induction 1; simpl; lra. Qed.
Lemma filter_perm {A} (f : A -> bool) l l' : Permutation l l' -> Permutation (filter f l) (filter f l').
Proof. induction 1; simpl; [auto|destruct (f x); auto|destruct (f x), (f y); auto; apply perm_swap|eapply perm_trans; eauto]. Qed.
Lemma Rsum_filter {A} (f : A -> bool) (w : A -> R) l : Rsum (map w (filter f l)) = Rsum (map (fun i => if f i then w i else 0) l).
Proof. induction l as [|a l IH]; simpl; auto. destruct (f a); simpl; lra. Qed.
Lemma filter_split {A} (f : A -> bool) l : (length (filter f l) + length (filter (fun a => negb (f a)) l) = length l)%nat.
Proof. induction l as [|a l IH]; simpl; auto. destruct (f a); simpl; lia. Qed.
Lemma Rsum_split {A} (f : A -> bool) (w : A -> R) l : Rsum (map w l) = Rsum (map w (filter f l)) + Rsum (map w (filter (fun a => negb (f a)) l)).
Proof. induction l as [|a l IH]; simpl; [lra|]. destruct (f a); simpl; lra. Qed.
Lemma dom_sum (w : nat -> R) B : forall A, (length B <= length A)%nat -> (forall a, In a A -> 0 <= w a) -> (forall a b, In a A -> In b B -> w b <= w a) ->
  Rsum (map w B) <= Rsum (map w A).
Proof.
  induction B as [|b B IH]; intros A HL H0 H.
  - simpl. clear HL H. induction A as [|a A IH]; simpl; [lra|]. pose proof (H0 a (or_introl eq_refl)). assert (0 <= Rsum (map w A)) by (apply IH; intros; apply H0; right; auto). lra.
  - destruct A as [|a A]; [simpl in HL; lia|]. simpl in *. pose proof (H a b (or_introl eq_refl) (or_introl eq_refl)).
    assert (Rsum (map w B) <= Rsum (map w A)) by (apply IH; [lia|intros; apply H0; auto|intros; apply H; auto]). lra.
Qed.
Lemma sorted_app {A} (R : A -> A -> Prop) l1 l2 : StronglySorted R (l1 ++ l2) -> forall a b, In a l1 -> In b l2 -> R a b.
Proof.
  induction l1 as [|x l1 IH]; simpl; intros H a b Ha Hb; [contradiction|]. inversion H as [|? ? H1 H2]; subst. destruct Ha as [->|Ha].
  - rewrite Forall_forall in H2. apply H2. apply in_or_app; auto.
  - apply IH; auto.
Qed.

(** dropping all but the r largest keys loses the least weight *)
Lemma select_best (n r : nat) (key w : nat -> R) (idx : list nat) (S : nat -> bool) :
  Permutation idx (seq 0 n) -> StronglySorted (fun i j => key i <= key j) idx ->
  (forall i, (i < n)%nat -> 0 <= w i) -> (forall i j, (i < n)%nat -> (j < n)%nat -> key i <= key j -> w i <= w j) ->
  (length (filter S (seq 0 n)) <= r)%nat ->
  RS n (fun i => if mem i (firstn (n - r) idx) then w i else 0) <= RS n (fun i => if S i then 0 else w i).
Proof.
  intros HP HS H0 Hm HSr. set (D := firstn (n - r) idx). set (K := skipn (n - r) idx).
  assert (Hidx : idx = D ++ K) by (symmetry; apply firstn_skipn).
  assert (HL : length idx = n) by (rewrite (Permutation_length HP); apply seq_length).
  assert (ND : NoDup idx) by (apply (Permutation_NoDup (Permutation_sym HP)), seq_NoDup).
  assert (Hin : forall i, In i idx -> (i < n)%nat). { intros i Hi. apply (Permutation_in _ HP) in Hi. apply in_seq in Hi. lia. }
  assert (ED : RS n (fun i => if mem i D then w i else 0) = Rsum (map w D)).
  { rewrite RS_Rsum. rewrite <- (Rsum_perm _ _ (Permutation_map _ HP)). rewrite Hidx, map_app, Rsum_app.
    rewrite Hidx in ND. assert (HDK : forall i, In i D -> ~ In i K). { intros i H1 H2. clear -ND H1 H2. induction D as [|a D IH]; [contradiction|]. simpl in ND. inversion ND; subst. destruct H1 as [->|H1]; [apply H3, in_or_app; auto|auto]. }
    assert (E1 : map (fun i => if mem i D then w i else 0) D = map w D).
    { apply map_ext_in. intros i Hi. replace (mem i D) with true; auto. symmetry. apply existsb_exists. exists i. split; auto. apply Nat.eqb_refl. }
    assert (E2 : forall i, In i K -> mem i D = false).
    { intros i Hi. destruct (mem i D) eqn:E; auto. apply existsb_exists in E as [j [Hj Hj2]]. apply Nat.eqb_eq in Hj2. subst j. elim (HDK i Hj Hi). }
    assert (E3 : map (fun i => if mem i D then w i else 0) K = map (fun _ => 0) K).
    { apply map_ext_in. intros i Hi. rewrite (E2 i Hi). reflexivity. }
    rewrite E1, E3. assert (forall l : list nat, Rsum (map (fun _ => 0) l) = 0) as -> by (induction l; simpl; lra). lra. }
  assert (ES : RS n (fun i => if S i then 0 else w i) = Rsum (map w (filter (fun i => negb (S i)) idx))).
  { rewrite RS_Rsum, <- (Rsum_perm _ _ (Permutation_map _ HP)), Rsum_filter. f_equal. apply map_ext. intro i. destruct (S i); reflexivity. }
  rewrite ED, ES. rewrite Hidx, filter_app, map_app, Rsum_app. rewrite (Rsum_split S w D).
  assert (Rsum (map w (filter S D)) <= Rsum (map w (filter (fun i => negb (S i)) K))); [|lra].
  apply dom_sum.
  - pose proof (Permutation_length (filter_perm S _ _ HP)) as HF. rewrite Hidx, filter_app, app_length in HF.
    pose proof (filter_split S K) as HK. destruct (Nat.le_gt_cases n r) as [Hnr|Hnr].
    + assert (ED0 : D = []) by (unfold D; replace (n - r)%nat with 0%nat by lia; reflexivity). rewrite ED0. simpl. lia.
    + assert (length K = r) by (unfold K; rewrite skipn_length; lia). lia.
  - intros a Ha. apply filter_In in Ha as [Ha _]. apply H0, Hin. rewrite Hidx. apply in_or_app; auto.
  - intros a b Ha Hb. apply filter_In in Ha as [Ha _]. apply filter_In in Hb as [Hb _]. apply Hm.
    + apply Hin. rewrite Hidx. apply in_or_app; auto.
    + apply Hin. rewrite Hidx. apply in_or_app; auto.
    + rewrite Hidx in HS. apply (sorted_app _ _ _ HS); auto.
Qed.
Lemma drop_pos argsort (r : nat) keys : (0 < r)%nat -> l0_drop argsort (Z.of_nat r) keys = firstn (length (argsort keys) - r) (argsort keys).
Proof.
  intro Hr. unfold l0_drop, slice_to. replace (- Z.of_nat r <? 0)%Z with true by (symmetry; apply Z.ltb_lt; lia). rewrite Z.opp_involutive, Nat2Z.id. reflexivity.
Qed.
(** the kept positions are at most r *)
Lemma kept_count n r (idx : list nat) : Permutation idx (seq 0 n) -> (length (filter (fun i => negb (mem i (firstn (n - r) idx))) (seq 0 n)) <= r)%nat.
Proof.
  intro HP. rewrite <- (Permutation_length (filter_perm _ _ _ HP)). set (D := firstn (n - r) idx).
  assert (HL : length idx = n) by (rewrite (Permutation_length HP); apply seq_length).
  rewrite <- (firstn_skipn (n - r) idx) at 1. fold D. rewrite filter_app, app_length.
  assert (E : filter (fun i => negb (mem i D)) D = []).
  { assert (H : forall l, (forall i, In i l -> In i D) -> filter (fun i => negb (mem i D)) l = []); [|apply H; auto].
    induction l as [|a l IH]; simpl; intro H; auto. replace (mem a D) with true; [simpl; apply IH; auto|]. symmetry. apply existsb_exists. exists a. split; auto. apply Nat.eqb_refl. }
  rewrite E. simpl. pose proof (filter_split (fun i => negb (mem i D)) (skipn (n - r) idx)). rewrite skipn_length in H. lia.
Qed.
Lemma filter_le {A} (f g : A -> bool) l : (forall a, In a l -> f a = true -> g a = true) -> (length (filter f l) <= length (filter g l))%nat.
Proof. induction l as [|a l IH]; simpl; intro H; auto. pose proof (H a (or_introl eq_refl)). specialize (IH (fun b Hb => H b (or_intror Hb))). destruct (f a), (g a); simpl; lia. Qed.

Section Thm.
Context (argsort : list R -> list nat) (HA : argsort_ok argsort).
Lemma abs_keys n (x : Vec n) i : (i < n)%nat -> nth i (map Rabs (lst x)) 0 = Rabs (get x i).
Proof. intro Hi. rewrite (map_nth_lt Rabs (lst x) i 0 0) by (rewrite lst_length; auto). reflexivity. Qed.
Lemma sorted_weaken {A} (R S : A -> A -> Prop) l : (forall a b, In a l -> In b l -> R a b -> S a b) -> StronglySorted R l -> StronglySorted S l.
Proof.
  intro H. induction 1 as [|a l H1 IH H2]; constructor; [apply IH; intros; apply H; simpl; auto|]. rewrite Forall_forall in *. intros b Hb. apply H; simpl; auto.
Qed.
Lemma argsort_abs n (x : Vec n) : Permutation (argsort (map Rabs (lst x))) (seq 0 n) /\
  StronglySorted (fun i j => Rabs (get x i) <= Rabs (get x j)) (argsort (map Rabs (lst x))).
Proof.
  destruct (HA (map Rabs (lst x))) as [H1 H2]. rewrite map_length, lst_length in H1. split; auto.
  eapply sorted_weaken; [|exact H2]. cbv beta. intros i j Hi Hj. apply (Permutation_in _ H1), in_seq in Hi. apply (Permutation_in _ H1), in_seq in Hj.
  rewrite !abs_keys by lia. auto.
Qed.
Lemma l0_proj_exact n (r : nat) (x : Vec n) : (0 < r)%nat -> is_proj (l0_ball r) x (l0_proj argsort (Z.of_nat r) x).
Proof.
  intro Hr. destruct (argsort_abs n x) as [H1 H2]. set (idx := argsort (map Rabs (lst x))) in *.
  assert (HL : length idx = n) by (rewrite (Permutation_length H1); apply seq_length).
  assert (Eg : forall i, (i < n)%nat -> get (l0_proj argsort (Z.of_nat r) x) i = if mem i (firstn (n - r) idx) then 0 else get x i).
  { intros i Hi. unfold l0_proj. rewrite get_vtab by auto. rewrite drop_pos by auto. fold idx. rewrite HL. reflexivity. }
  split.
  - unfold l0_ball, nnz. eapply Nat.le_trans; [|apply (kept_count n r idx H1)]. apply filter_le. intros i Hi. apply in_seq in Hi. rewrite Eg by lia.
    destruct (mem i _); auto. destruct (Reqb_spec 0 0) as [[_ ->]|[? ->]]; [auto|lra].
  - intros z Hz. apply norm_le_of_sq; [apply norm_nonneg|]. rewrite norm_sq, !vec_norm2.
    apply Rle_trans with (RS n (fun i => if mem i (firstn (n - r) idx) then get x i * get x i else 0)).
    { apply RS_le. intros i Hi. rewrite get_sub, Eg by auto. destruct (mem i _); nra. }
    eapply Rle_trans; [apply (select_best n r (fun i => Rabs (get x i)) (fun i => get x i * get x i) idx (fun i => negb (Reqb (get z i) 0))); auto|].
    + intros. apply Rle_0_sqr.
    + intros i j _ _ H. replace (get x i * get x i) with (Rabs (get x i) * Rabs (get x i)) by (rewrite <- Rabs_mult; apply Rabs_right, Rle_ge, Rle_0_sqr).
      replace (get x j * get x j) with (Rabs (get x j) * Rabs (get x j)) by (rewrite <- Rabs_mult; apply Rabs_right, Rle_ge, Rle_0_sqr).
      pose proof (Rabs_pos (get x i)). nra.
    + apply RS_le. intros i Hi. rewrite get_sub by auto. destruct (Reqb_spec (get z i) 0) as [[Hz0 ->]|[_ ->]]; simpl; [rewrite Hz0; nra|apply Rle_0_sqr].
Qed.

Lemma col_l1_nonneg r c (x : Vec (r * c)) j : 0 <= col_l1 x j.
Proof. apply RS_nonneg. intros. apply Rabs_pos. Qed.
Lemma col_l1_zero r c (x : Vec (r * c)) j : col_l1 x j = 0 <-> col_zero x j.
Proof.
  split.
  - intros H i Hi. pose proof (RS_zero_all r (fun i => Rabs (get x (i * c + j))) (fun _ _ => Rabs_pos _) H i Hi) as H'. cbv beta in H'.
    destruct (Req_dec (get x (i * c + j)) 0) as [E|E]; auto. elim (Rabs_no_R0 _ E H').
  - intro H. unfold col_l1. rewrite (RS_ext r _ (fun _ => 0)); [apply RS_zero|]. intros i Hi. rewrite H by auto. apply Rabs_R0.
Qed.
Lemma argsort_cols r c (x : Vec (r * c)) : let idx := argsort (map (fun j => Rabs (col_l1 x j)) (seq 0 c)) in
  Permutation idx (seq 0 c) /\ StronglySorted (fun i j => col_l1 x i <= col_l1 x j) idx.
Proof.
  intro idx. unfold idx. destruct (HA (map (fun j => Rabs (col_l1 x j)) (seq 0 c))) as [H1 H2]. rewrite map_length, seq_length in H1. split; auto.
  eapply sorted_weaken; [|exact H2]. cbv beta. intros i j Hi Hj. apply (Permutation_in _ H1), in_seq in Hi. apply (Permutation_in _ H1), in_seq in Hj.
  assert (E : forall k, (k < c)%nat -> nth k (map (fun j => Rabs (col_l1 x j)) (seq 0 c)) 0 = col_l1 x k).
  { intros k Hk. rewrite (map_nth_lt _ (seq 0 c) k 0%nat 0) by (rewrite seq_length; auto). rewrite seq_nth by auto. apply Rabs_right, Rle_ge, col_l1_nonneg. }
  rewrite !E by lia. auto.
Qed.
Lemma get_l10 r c (k : nat) (x : Vec (r * c)) i j : (0 < k)%nat -> (i < r)%nat -> (j < c)%nat ->
  get (l10_proj argsort (Z.of_nat k) x) (i * c + j) = if mem j (firstn (c - k) (argsort (map (fun j => Rabs (col_l1 x j)) (seq 0 c)))) then 0 else get x (i * c + j).
Proof.
  intros Hk Hi Hj. unfold l10_proj. rewrite get_vtab by (apply flat_lt; auto). rewrite drop_pos by auto. destruct (divmod_flat c i j Hj) as [_ ->].
  destruct (argsort_cols r c x) as [HP _]. rewrite (Permutation_length HP), seq_length. reflexivity.
Qed.
End Thm.

(*! C25_l0 : every positive radius (int or callable), length and input, whatever sorting permutation argsort picks among ties: L0Ball.prox at counter k uses
   radius(k+1), returns a Euclidean projection of x on {at most radius non-zeros}, and the next call accepts the result; tau <= 0 raises
   ValueError and still advances the counter *)
Lemma C25_l0_l : forall argsort, argsort_ok argsort -> forall n (rad : nat -> Z) count (x : Vec n) tau,
  (0 < tau -> (0 < rad (S count))%Z -> exists y, l0ball_prox argsort rad count x tau = (S count, Ok y) /\
    is_proj (l0_ball (Z.to_nat (rad (S count)))) x y /\ l0ball_call rad (S count) y = true) /\
  (tau <= 0 -> l0ball_prox argsort rad count x tau = (S count, Err ValueError)).
Proof.
  intros argsort HA n rad count x tau. unfold l0ball_prox. split.
  - intros Ht Hr. destruct (Rleb_spec tau 0) as [[? ->]|[_ ->]]; [lra|]. eexists. split; [reflexivity|].
    assert (HP : is_proj (l0_ball (Z.to_nat (rad (S count)))) x (l0_proj argsort (rad (S count)) x)).
    { rewrite <- (Z2Nat.id (rad (S count))) at 2 by lia. apply l0_proj_exact; auto. lia. }
    split; auto. unfold l0ball_call. apply Z.leb_le. destruct HP as [H _]. unfold l0_ball in H. lia.
  - intro Ht. destruct (Rleb_spec tau 0) as [[_ ->]|[? ->]]; [reflexivity|lra].
Qed.

(*! C25_radius_zero_refuted : with radius 0 the input is returned unchanged, so the result of any non-zero input is outside the ball and the operator's own call rejects it *)
Lemma C25_radius_zero_refuted_l : forall argsort n count (x : Vec n) tau, 0 < tau -> nnz x <> 0%nat ->
  l0ball_prox argsort (fun _ => 0%Z) count x tau = (S count, Ok x) /\ ~ l0_ball 0 x /\ l0ball_call (fun _ => 0%Z) (S count) x = false.
Proof.
  intros argsort n count x tau Ht Hx. unfold l0ball_prox. destruct (Rleb_spec tau 0) as [[? ->]|[_ ->]]; [lra|]. split; [|split].
  - do 2 f_equal. apply vec_ext. intros i Hi. unfold l0_proj. rewrite get_vtab by auto. reflexivity.
  - unfold l0_ball. lia.
  - unfold l0ball_call. apply Z.leb_gt. lia.
Qed.

(*! C25_l10_feasible : for every positive radius L10Ball.prox zeroes whole columns, keeps the other columns unchanged, leaves at most radius non-zero
   columns (so its next call accepts), and its result is nearest to x in the entrywise L1 distance among all such matrices *)
Lemma C25_l10_feasible_l : forall argsort, argsort_ok argsort -> forall r c (rad : nat -> Z) count (x : Vec (r * c)) tau, 0 < tau -> (0 < rad (S count))%Z ->
  exists y, l10ball_prox argsort rad count x tau = (S count, Ok y) /\
    (forall j, (j < c)%nat -> col_zero y j \/ forall i, (i < r)%nat -> get y (i * c + j) = get x (i * c + j)) /\
    l10ball_call rad (S count) y = true /\
    forall z : Vec (r * c), (nnz_cols z <= Z.to_nat (rad (S count)))%nat -> RS (r * c) (fun p => Rabs (get y p - get x p)) <= RS (r * c) (fun p => Rabs (get z p - get x p)).
Proof.
  intros argsort HA r c rad count x tau Ht Hr. unfold l10ball_prox. destruct (Rleb_spec tau 0) as [[? ->]|[_ ->]]; [lra|]. eexists. split; [reflexivity|].
  set (k := Z.to_nat (rad (S count))). assert (Hk : (0 < k)%nat) by (unfold k; lia). assert (Ek : rad (S count) = Z.of_nat k) by (unfold k; lia). unfold l10ball_call. rewrite Ek.
  set (y := l10_proj argsort (Z.of_nat k) x). destruct (argsort_cols argsort HA r c x) as [H1 H2]. set (idx := argsort (map (fun j => Rabs (col_l1 x j)) (seq 0 c))) in *.
  assert (Eg : forall i j, (i < r)%nat -> (j < c)%nat -> get y (i * c + j) = if mem j (firstn (c - k) idx) then 0 else get x (i * c + j)) by (intros; apply get_l10; auto).
  split; [|split].
  - intros j Hj. destruct (mem j (firstn (c - k) idx)) eqn:E; [left|right]; intros i Hi; rewrite Eg, E by auto; reflexivity.
  - apply Z.leb_le. apply inj_le. unfold nnz_cols. eapply Nat.le_trans; [|apply (kept_count c k idx H1)]. apply filter_le. intros j Hj. apply in_seq in Hj.
    destruct (mem j _) eqn:E; auto. intro HN. exfalso. assert (Z0 : col_l1 y j = 0). { apply col_l1_zero. intros i Hi. rewrite Eg, E by (auto; lia). reflexivity. }
    rewrite Z0 in HN. destruct (Reqb_spec 0 0) as [[_ Hb]|[? _]]; [rewrite Hb in HN; discriminate|lra].
  - intros z Hz. rewrite !RS_flat. rewrite !(RS_swap r c).
    apply Rle_trans with (RS c (fun j => if mem j (firstn (c - k) idx) then col_l1 x j else 0)).
    { apply RS_le. intros j Hj. destruct (mem j _) eqn:E.
      - apply RS_le. intros i Hi. rewrite Eg, E by auto. rewrite Rminus_0_l, Rabs_Ropp. lra.
      - rewrite (RS_ext r _ (fun _ => 0)); [rewrite RS_zero; lra|]. intros i Hi. rewrite Eg, E by auto. rewrite Rminus_diag_eq by auto. apply Rabs_R0. }
    eapply Rle_trans; [apply (select_best c k (col_l1 x) (col_l1 x) idx (fun j => negb (Reqb (col_l1 z j) 0))); auto; intros; apply col_l1_nonneg|].
    apply RS_le. intros j Hj. destruct (Reqb_spec (col_l1 z j) 0) as [[Hz0 ->]|[_ ->]]; simpl; [|apply RS_nonneg; intros; apply Rabs_pos].
    apply RS_le. intros i Hi. rewrite (proj1 (col_l1_zero r c z j) Hz0 i Hi). rewrite Rminus_0_l, Rabs_Ropp. lra.
Qed.

(** an executable argsort (insertion sort), so the assumption is met *)
Fixpoint ins (key : nat -> R) (i : nat) (l : list nat) : list nat :=
  match l with [] => [i] | j :: l' => if Rleb (key i) (key j) then i :: l else j :: ins key i l' end.
Definition isort (l : list R) : list nat := fold_right (ins (fun i => nth i l 0)) [] (seq 0 (length l)).
Lemma ins_perm key i l : Permutation (ins key i l) (i :: l).
Proof. induction l as [|j l IH]; simpl; auto. destruct (Rleb _ _); auto. eapply perm_trans; [apply perm_skip, IH|apply perm_swap]. Qed.
Lemma ins_sorted key i l : StronglySorted (fun i j => key i <= key j) l -> StronglySorted (fun i j => key i <= key j) (ins key i l).
Proof.
  induction 1 as [|j l H IH HF]; simpl; [constructor; constructor|]. destruct (Rleb_spec (key i) (key j)) as [[Hij ->]|[Hij ->]].
  - constructor; [constructor; auto|]. constructor; auto. rewrite Forall_forall in *. intros k Hk. specialize (HF k Hk). simpl in HF. lra.
  - constructor; auto. rewrite Forall_forall in *. intros k Hk. apply (Permutation_in _ (ins_perm key i l)) in Hk. destruct Hk as [<-|Hk]; [lra|auto].
Qed.
Lemma isort_ok : argsort_ok isort.
Proof.
  intro l. unfold isort. change (fun i j => nth i l 0 <= nth j l 0) with (fun i j => (fun i => nth i l 0) i <= (fun i => nth i l 0) j). generalize (fun i => nth i l 0) as key. intro key. generalize (seq 0 (length l)) as s. induction s as [|a s [IH1 IH2]]; simpl; [split; [auto|constructor]|].
  split; [eapply perm_trans; [apply ins_perm|auto]|apply ins_sorted; auto].
Qed.


(*! C25_l10_refuted : L10Ball.prox is not the Euclidean projection: for the 2x2 matrix with columns (1,1) and (1.9,0) and radius 1 every argsort
   makes it keep the first column although keeping the second is strictly closer *)
Lemma C25_l10_refuted_l : forall argsort, argsort_ok argsort -> forall count tau, 0 < tau -> exists y,
  l10ball_prox argsort (fun _ => 1%Z) count l10_x tau = (S count, Ok y) /\ nnz_cols l10_z = 1%nat /\ norm (l10_z [-] l10_x) < norm (y [-] l10_x).
Proof.
  intros argsort HA count tau Ht. unfold l10ball_prox. destruct (Rleb_spec tau 0) as [[? ->]|[_ ->]]; [lra|]. eexists. split; [reflexivity|].
  assert (G : forall p, (p < 4)%nat -> get l10_x p = nth p [1; 19/10; 1; 0] 0) by (intros p Hp; unfold l10_x; rewrite get_vtab by auto; reflexivity).
  assert (Gz : forall p, (p < 4)%nat -> get l10_z p = nth p [0; 19/10; 0; 0] 0) by (intros p Hp; unfold l10_z; rewrite get_vtab by auto; reflexivity).
  assert (C0 : col_l1 l10_x 0 = 2) by (unfold col_l1; cbn [RS Nat.mul Nat.add]; rewrite !G by lia; cbn [nth]; rewrite !Rabs_right by lra; lra).
  assert (C1 : col_l1 l10_x 1 = 19/10) by (unfold col_l1; cbn [RS Nat.mul Nat.add]; rewrite !G by lia; cbn [nth]; rewrite !Rabs_right by lra; lra).
  assert (Z0 : col_l1 l10_z 0 = 0) by (unfold col_l1; cbn [RS Nat.mul Nat.add]; rewrite !Gz by lia; cbn [nth]; rewrite !Rabs_right by lra; lra).
  assert (Z1 : col_l1 l10_z 1 = 19/10) by (unfold col_l1; cbn [RS Nat.mul Nat.add]; rewrite !Gz by lia; cbn [nth]; rewrite !Rabs_right by lra; lra).
  split.
  - unfold nnz_cols. cbn [seq filter]. rewrite Z0, Z1. destruct (Reqb_spec 0 0) as [[_ ->]|[? _]]; [|lra]. destruct (Reqb_spec (19/10) 0) as [[? _]|[_ ->]]; [lra|]. reflexivity.
  - destruct (argsort_cols argsort HA 2 2 l10_x) as [H1 H2]. set (idx := argsort _) in *.
    assert (E : idx = [1; 0]%nat).
    { apply Permutation_sym in H1. cbn [seq] in H1. apply Permutation_length_2_inv in H1 as [E|E]; auto. exfalso. rewrite E in H2. inversion H2 as [|? ? _ HF]; subst.
      inversion HF as [|? ? HF1 _]; subst. lra. }
    assert (Ey : forall i j, (i < 2)%nat -> (j < 2)%nat -> get (l10_proj argsort 1 l10_x) (i * 2 + j) = if mem j [1%nat] then 0 else get l10_x (i * 2 + j)).
    { intros i j Hi Hj. change 1%Z with (Z.of_nat 1). rewrite (get_l10 argsort HA 2 2 1 l10_x i j) by lia. fold idx. rewrite E. reflexivity. }
    assert (Y0 := Ey 0%nat 0%nat ltac:(lia) ltac:(lia)). assert (Y1 := Ey 0%nat 1%nat ltac:(lia) ltac:(lia)). assert (Y2 := Ey 1%nat 0%nat ltac:(lia) ltac:(lia)). assert (Y3 := Ey 1%nat 1%nat ltac:(lia) ltac:(lia)).
    cbn [Nat.mul Nat.add mem existsb Nat.eqb orb] in Y0, Y1, Y2, Y3.
    apply Rnot_le_lt. intro HN. apply (Rmult_le_compat _ _ _ _ (norm_nonneg _) (norm_nonneg _) HN) in HN. revert HN. rewrite !norm_sq, !vec_norm2. apply Rlt_not_le. change (2 * 2)%nat with 4%nat. cbn [RS].
    rewrite !get_sub by lia. rewrite Y0, Y1, Y2, Y3, !G, !Gz by lia. cbn [nth]. lra.
Qed.

(*!ex C25_example : an executable argsort meets the assumption, and (3,1,-2) with radius 2 projects to (3,0,-2) *)
Lemma C25_example_l : argsort_ok isort /\
  l0ball_prox isort (fun _ => 2%Z) 0 (vtab 3 (fun p => nth p [3; 1; -2] 0)) 1 = (1%nat, Ok (vtab 3 (fun p => nth p [3; 0; -2] 0))).
Proof.
  split; [apply isort_ok|]. unfold l0ball_prox. destruct (Rleb_spec 1 0) as [[? ->]|[_ ->]]; [lra|]. do 2 f_equal. apply vec_ext. intros i Hi. unfold l0_proj.
  rewrite !get_vtab by auto. unfold l0_drop. set (k := map Rabs _).
  assert (Ek : k = [3; 1; 2]). { unfold k, lst, vtab; cbn. rewrite (Rabs_right 3), (Rabs_right 1), (Rabs_left (-2)) by lra. repeat f_equal. lra. }
  assert (Es : isort k = [1; 2; 0]%nat).
  { rewrite Ek. unfold isort. cbn [length seq fold_right ins nth]. destruct (Rleb_spec 1 2) as [[_ ->]|[? _]]; [|lra]. cbn [ins nth]. destruct (Rleb_spec 3 1) as [[? _]|[_ ->]]; [lra|].
    cbn [ins nth]. destruct (Rleb_spec 3 2) as [[? _]|[_ ->]]; [lra|]. reflexivity. }
  rewrite Es. destruct i as [|[|[|i]]]; [reflexivity..|lia].
Qed.
