(** * QuadraticEnvelopeCardIndicator: values and proximal points (M_QE.v) *)
From Coq Require Import Permutation Sorting.
From Verif Require Import Base Space Spec SpecOps ConvexFacts Sep M_ProxOp M_L1 M_Pen P_L1 P_Pen MatFacts VSum M_Proj M_L0 P_L0 M_SVD M_QE P_QE P_QE2.

Lemma index_of_nth l j : NoDup l -> (j < length l)%nat -> index_of (nth j l 0%nat) l = j.
Proof.
  revert j. induction l as [|a l IH]; intros j HN Hj; simpl in Hj; [lia|]. inversion HN as [|? ? H1 H2]; subst. destruct j as [|j]; cbn [nth index_of].
  - rewrite Nat.eqb_refl. reflexivity.
  - destruct (Nat.eqb_spec (nth j l 0%nat) a) as [E|E]; [elim H1; rewrite <- E; apply nth_In; lia|]. rewrite IH by (auto; lia). reflexivity.
Qed.
Lemma nth_index_of l i : In i l -> nth (index_of i l) l 0%nat = i /\ (index_of i l < length l)%nat.
Proof.
  induction l as [|a l IH]; intros H; [contradiction|]. cbn [index_of]. destruct (Nat.eqb_spec i a) as [->|E].
  - simpl. split; auto; lia.
  - destruct H as [->|H]; [congruence|]. destruct (IH H) as [H1 H2]. simpl. split; auto; lia.
Qed.
Lemma perm_facts n idx : Permutation idx (seq 0 n) -> length idx = n /\ NoDup idx /\ (forall j, (j < n)%nat -> (nth j idx 0 < n)%nat) /\ forall i, (i < n)%nat -> In i idx.
Proof.
  intro HP. assert (HL : length idx = n) by (rewrite (Permutation_length HP); apply seq_length). split; auto.
  split; [apply (Permutation_NoDup (Permutation_sym HP)), seq_NoDup|]. split.
  - intros j Hj. assert (HI : In (nth j idx 0%nat) idx) by (apply nth_In; lia). apply (Permutation_in _ HP), in_seq in HI. lia.
  - intros i Hi. apply (Permutation_in _ (Permutation_sym HP)), in_seq. lia.
Qed.
Lemma abs_sgn a : Rabs (sgn a) = 1 \/ (a = 0 /\ sgn a = 0).
Proof. unfold sgn. destruct (Rltb_spec a 0) as [[H ->]|[H ->]]; [left; rewrite Rabs_left; lra|]. destruct (Rltb_spec 0 a) as [[H1 ->]|[H1 ->]]; [left; rewrite Rabs_right; lra|right; split; auto; lra]. Qed.

(** ** prox *)
Lemma ci_prox_ok argsort (HA : argsort_ok argsort) n r0 (hs hss Q : efun (Vec n)) (y : Vec n) tau : is_conj (sparse_sq r0) hs -> is_conj hs hss ->
  (forall x, edom Q x <-> edom hss x) -> (forall x, edom hss x -> eval Q x = eval hss x - / 2 * norm2 x) -> (0 < r0)%nat -> 0 < tau < 1 ->
  exists p, ci_prox argsort r0 y tau = Ok p /\ is_prox Q tau y p.
Proof.
  intros H1 H2 HD HE Hr Ht. unfold ci_prox. assert (Hrho : 1 < 1 / tau). { apply (Rmult_lt_reg_r tau); [lra|]. unfold Rdiv. rewrite Rmult_assoc, Rinv_l by lra. lra. }
  set (rho := 1 / tau) in *. assert (Etau : tau = 1 / rho) by (unfold rho; field; lra). clearbody rho.
  destruct (Rleb_spec rho 1) as [[? ->]|[_ ->]]; [lra|]. destruct (Nat.leb_spec n r0) as [Hn|Hn].
  - exists y. split; auto. assert (Hs : l0_ball r0 y). { unfold l0_ball, nnz. eapply Nat.le_trans; [|exact Hn]. rewrite <- (seq_length n 0) at 2. clear. generalize (seq 0 n) as l. induction l as [|a l IH]; simpl; auto. destruct (negb _); simpl; lia. }
    destruct (tight_hss hs hss H2 y y _ (sparse_tight _ hs H1 y Hs)) as [Hd [Ev _]]. split; [apply HD; auto|]. intros u Hu. apply HD in Hu. rewrite !HE, Ev by auto.
    pose proof (hss_ge _ hs hss H1 H2 u Hu). replace (y [-] y) with (vzero : Vec n) by vring. pose proof (inner_pos (u [-] y)) as Hp.
    assert (0 <= / (2 * tau) * norm2 (u [-] y)) by (apply Rmult_le_pos; [left; apply Rinv_0_lt_compat; lra|exact Hp]).
    replace (norm2 (vzero : Vec n)) with 0 by (unfold norm2; rewrite inner_zero_l; ring). lra.
  - set (r := map Rabs (lst y)). set (id := argsort (map Ropp r)).
    assert (Hrl : length r = n) by (unfold r; rewrite map_length; apply lst_length).
    destruct (HA (map Ropp r)) as [HP HS]. fold id in HP, HS. rewrite map_length, Hrl in HP. destruct (perm_facts n id HP) as [HL [ND [Hin Hall]]].
    assert (Hnth : forall j, (j < n)%nat -> nth j (take r id) 0 = Rabs (get y (nth j id 0%nat))).
    { intros j Hj. unfold take. rewrite (map_nth_lt (fun i => nth i r 0) id j 0%nat 0) by lia. unfold r. rewrite abs_keys by (apply Hin; auto). reflexivity. }
    assert (HLt : length (take r id) = n) by (unfold take; rewrite map_length; auto).
    destruct (core_ok argsort HA rho Hrho r0 (take r id)) as [zl [Ez HG]].
    + rewrite HLt. lia.
    + rewrite HLt. intros i j Hij. rewrite !Hnth by lia. destruct (Nat.eq_dec i j) as [->|Hne]; [lra|].
      pose proof (sorted_nth _ _ 0%nat i j HS ltac:(lia)) as Hle. cbv beta in Hle.
      rewrite !(map_nth_lt Ropp r _ 0 0) in Hle by (rewrite Hrl; apply Hin; lia). unfold r in Hle. rewrite !abs_keys in Hle by (apply Hin; lia). lra.
    + rewrite HLt. intros j Hj. rewrite Hnth by auto. apply Rabs_pos.
    + rewrite Ez. cbn [bind]. set (z := vtab n (fun i => nth (index_of i id) zl 0 * sgn (get y i))). eexists. split; [reflexivity|].
      destruct HG as [HzL [th [s [Hs0 [HT Hg]]]]]. rewrite HLt in HT, Hg.
      assert (Hi : forall i, (i < n)%nat -> let j := index_of i id in (j < n)%nat /\ nth j (take r id) 0 = Rabs (get y i)).
      { intros i Hi. destruct (nth_index_of id i (Hall i Hi)) as [E1 E2]. rewrite HL in E2. split; auto. rewrite Hnth, E1; auto. }
      assert (Hz : forall i, (i < n)%nat -> Rabs (get z i) = nth (index_of i id) zl 0).
      { intros i Hi'. destruct (Hi i Hi') as [Hj Ej]. destruct (Hg _ Hj) as [_ [Hp [H0 _]]]. unfold z. rewrite get_vtab by auto. rewrite Rabs_mult, (Rabs_right (nth _ zl 0)) by lra.
        destruct (abs_sgn (get y i)) as [->|[E ->]]; [ring|]. rewrite Rabs_R0, Rmult_0_r. symmetry. apply H0. rewrite Ej, E. apply Rabs_R0. }
      destruct (tight_hss hs hss H2 (/ (rho - 1) [*] (rho [*] y [-] z)) z (/ 2 * RS n (fun i => th (index_of i id) * (get z i * get z i)))) as [_ [_ Hsub]].
      * apply (key_tight r0 Hr hs H1 (fun i => th (index_of i id)) s).
        -- split; [|split; [|split; [auto|]]].
           ++ intros i Hi'. destruct (Hi i Hi') as [Hj _]. apply (Hg _ Hj).
           ++ rewrite (RS_perm n id _ HP). rewrite <- HT. apply RS_ext. intros j Hj. rewrite index_of_nth by (auto; lia). reflexivity.
           ++ intros i Hi'. destruct (Hi i Hi') as [Hj _]. rewrite (Hz i Hi'). apply (Hg _ Hj).
        -- intros i Hi'. destruct (Hi i Hi') as [Hj Ej]. destruct (Hg _ Hj) as [_ [_ [_ [E _]]]]. rewrite get_scal, get_sub, get_scal by auto.
           rewrite Ej in E. unfold z. rewrite get_vtab by auto. rewrite <- Rmult_assoc, <- E. rewrite <- (sgn_abs (get y i)) at 1. field. lra.
      * rewrite Etau. apply (env_prox hss Q rho y _ z HD HE Hrho Hsub). reflexivity.
Qed.

(** ** call *)
Lemma cumsum_nth l : forall acc k, (k < length l)%nat -> nth k (cumsum acc l) 0 = acc + Rsum (firstn (S k) l).
Proof.
  induction l as [|a l IH]; intros acc k Hk; simpl in Hk; [lia|]. cbn [cumsum]. destruct k as [|k]; [simpl; ring|]. cbn [nth].
  rewrite IH by lia. change (firstn (S (S k)) (a :: l)) with (a :: firstn (S k) l). cbn [Rsum]. ring.
Qed.
Lemma cumsum_length l : forall acc, length (cumsum acc l) = length l.
Proof. induction l; intros; simpl; auto. Qed.
Lemma Rsum_rev l : Rsum (rev l) = Rsum l.
Proof. apply Rsum_perm. apply Permutation_sym, Permutation_rev. Qed.
Lemma increases_length l : length (increases l) = (length l - 1)%nat.
Proof. induction l as [|a [|b l] IH]; auto. change (increases (a :: b :: l)) with (Rltb 0 (b - a) :: increases (b :: l)). cbn [length] in *. rewrite IH. lia. Qed.
Lemma increases_nth l : forall k, (S k < length l)%nat -> nth k (increases l) false = Rltb 0 (nth (S k) l 0 - nth k l 0).
Proof.
  induction l as [|a [|b l] IH]; intros k Hk; simpl in Hk; try lia. change (increases (a :: b :: l)) with (Rltb 0 (b - a) :: increases (b :: l)).
  destruct k as [|k]; auto. cbn [nth]. rewrite IH by (simpl; lia). reflexivity.
Qed.
Lemma first_true_some l : forall k, first_true l = Some k -> (k < length l)%nat /\ nth k l false = true /\ forall j, (j < k)%nat -> nth j l false = false.
Proof.
  induction l as [|[] l IH]; intros k H; simpl in H; [discriminate| |].
  - injection H as <-. simpl. repeat split; auto; intros; lia.
  - destruct (first_true l) as [q|] eqn:E; [|discriminate]. simpl in H. injection H as <-. destruct (IH q eq_refl) as [A [B C]]. simpl. split; [lia|]. split; auto.
    intros [|j] Hj; auto. apply C. lia.
Qed.
Lemma first_true_none l : first_true l = None -> forall j, nth j l false = false.
Proof.
  induction l as [|[] l IH]; intros H j; simpl in *; [destruct j; auto|discriminate|]. destruct (first_true l); [discriminate|]. destruct j; auto.
Qed.
(** line 177-179: the first k with tmp[k], or r0 - 1 *)
Lemma kstar_ok l : (2 <= length l)%nat -> exists k0, argmax (increases l) = Ok k0 /\
  let k := if Nat.eqb k0 0 && negb (nth k0 (increases l) false) then (length l - 1)%nat else k0 in
  (k < length l)%nat /\ (k = (length l - 1)%nat \/ nth k l 0 < nth (S k) l 0 /\ (S k < length l)%nat) /\ forall j, (j < k)%nat -> nth (S j) l 0 <= nth j l 0.
Proof.
  intro Hl. unfold argmax. destruct (increases l) as [|b t] eqn:E; [pose proof (increases_length l); rewrite E in *; simpl in *; lia|]. rewrite <- E. clear b t E.
  eexists. split; [reflexivity|]. destruct (first_true (increases l)) as [k|] eqn:F.
  - destruct (first_true_some _ _ F) as [A [B C]]. rewrite increases_length in A. rewrite B. rewrite andb_false_r. cbv zeta. split; [lia|]. split.
    + right. rewrite increases_nth in B by lia. apply Rltb_true in B. split; [lra|lia].
    + intros j Hj. specialize (C j Hj). rewrite increases_nth in C by lia. apply Rltb_false in C. lra.
  - pose proof (first_true_none _ F) as HN. rewrite HN. cbn [Nat.eqb negb andb]. split; [lia|]. split; [left; auto|]. intros j Hj. specialize (HN j). rewrite increases_nth in HN by lia.
    apply Rltb_false in HN. lra.
Qed.

Section Value.
Context {n : nat} (r0 : nat) (Hr : (0 < r0)%nat) (hs : efun (Vec n)) (H1 : is_conj (sparse_sq r0) hs).

(** the value at x from any k that satisfies the conditions of line 177-179; a is |x| in decreasing order *)
Lemma value_tight (x : Vec n) (idx : list nat) k (T : nat -> R) (s : R) : (r0 < n)%nat -> Permutation idx (seq 0 n) ->
  let a := fun j => Rabs (get x (nth j idx 0%nat)) in
  (forall i j, (i <= j < n)%nat -> a j <= a i) -> (k < r0)%nat -> 0 < s ->
  let q := (r0 - k - 1)%nat in
  (INR k + 1) * s = RS n (fun j => if (j <? q)%nat then 0 else a j) ->
  ((0 < q)%nat -> s <= a (q - 1)%nat) -> a q <= s ->
  exists z, tight hs x z (1 / 2 * ((INR k + 1) * (s * s) - RS n (fun j => if (j <? q)%nat then 0 else a j * a j)) + / 2 * norm2 x).
Proof.
  intros Hn HP a Hs Hk Hsp q Hsum Hq1 Hq2. destruct (perm_facts n idx HP) as [HL [ND [Hin Hall]]].
  set (zl := fun j => if (j <? q)%nat then a j else s). set (th := fun j => if (j <? q)%nat then 1 else a j / s).
  set (z := vtab n (fun i => zl (index_of i idx) * sgn (get x i))).
  assert (Ha : forall j, 0 <= a j) by (intro; apply Rabs_pos).
  assert (Hi : forall i, (i < n)%nat -> (index_of i idx < n)%nat /\ a (index_of i idx) = Rabs (get x i)).
  { intros i Hi. destruct (nth_index_of idx i (Hall i Hi)) as [E1 E2]. rewrite HL in E2. split; auto. unfold a. rewrite E1. reflexivity. }
  exists z. replace (1 / 2 * _ + _) with (/ 2 * RS n (fun i => th (index_of i idx) * (get z i * get z i))).
  - apply (key_tight r0 Hr hs H1 (fun i => th (index_of i idx)) s).
    + split; [|split; [|split; [lra|]]].
      * intros i Hi'. destruct (Hi i Hi') as [Hj _]. unfold th. destruct (Nat.ltb_spec (index_of i idx) q) as [Hlt|Hge]; [lra|]. pose proof (Hs q (index_of i idx) ltac:(lia)).
        split; [apply Rmult_le_pos; [apply Ha|left; apply Rinv_0_lt_compat; auto]|]. apply (Rmult_le_reg_r s); auto. unfold Rdiv. rewrite Rmult_assoc, Rinv_l by lra. lra.
      * rewrite (RS_perm n idx _ HP). rewrite (RS_ext n _ (fun j => (if (j <? q)%nat then 1 else 0) + / s * (if (j <? q)%nat then 0 else a j))).
        -- rewrite RS_add, RS_scal, <- Hsum, RS_head by lia. unfold q. rewrite !minus_INR by lia. simpl (INR 1). field. lra.
        -- intros j Hj. rewrite index_of_nth by (auto; lia). unfold th. destruct (_ <? _)%nat; [lra|field; lra].
      * intros i Hi'. destruct (Hi i Hi') as [Hj Ej]. unfold z. rewrite get_vtab by auto. unfold th, zl. destruct (Nat.ltb_spec (index_of i idx) q) as [Hlt|Hge].
        -- split; auto. right. pose proof (Hq1 ltac:(lia)). pose proof (Hs (index_of i idx) (q - 1)%nat ltac:(lia)). rewrite Rabs_mult, (Rabs_right (a _)) by (apply Rle_ge, Ha).
           destruct (abs_sgn (get x i)) as [->|[E _]]; [lra|]. rewrite Ej, E, Rabs_R0 in H0. lra.
        -- rewrite Rabs_mult, (Rabs_right s) by lra. destruct (abs_sgn (get x i)) as [->|[E Es]]; [split; right; lra|]. split; [right; rewrite Es, Rabs_R0; lra|]. left. rewrite Ej, E, Rabs_R0. unfold Rdiv. ring.
    + intros i Hi'. destruct (Hi i Hi') as [Hj Ej]. unfold z. rewrite get_vtab by auto. rewrite <- (sgn_abs (get x i)) at 1. rewrite <- Ej. unfold th, zl. destruct (_ <? _)%nat; [ring|field; lra].
  - rewrite vec_norm2. rewrite (RS_perm n idx _ HP), (RS_perm n idx (fun i => get x i * get x i) HP).
    rewrite (RS_ext n _ (fun j => (a j * a j - (if (j <? q)%nat then 0 else a j * a j)) + s * (if (j <? q)%nat then 0 else a j))).
    + rewrite RS_add, RS_sub, RS_scal, <- Hsum. rewrite (RS_ext n (fun j => get x (nth j idx 0%nat) * get x (nth j idx 0%nat)) (fun j => a j * a j)); [field|].
      intros j Hj. unfold a. pose proof (Rsqr_abs (get x (nth j idx 0%nat))) as Q. unfold Rsqr in Q. exact Q.
    + intros j Hj. rewrite index_of_nth by (auto; lia). unfold z. rewrite get_vtab by (apply Hin; auto). rewrite index_of_nth by (auto; lia). unfold th, zl.
      assert (Esg : a j * (sgn (get x (nth j idx 0%nat)) * sgn (get x (nth j idx 0%nat))) = a j).
      { unfold a. unfold sgn. destruct (Rltb_spec (get x (nth j idx 0%nat)) 0) as [[H ->]|[H ->]]; [ring|]. destruct (Rltb_spec 0 (get x (nth j idx 0%nat))) as [[H' ->]|[H' ->]]; [ring|].
        replace (get x (nth j idx 0%nat)) with 0 by lra. rewrite Rabs_R0. ring. }
      set (g := sgn _) in *. destruct (_ <? _)%nat.
      * transitivity (a j * (a j * (g * g))); [ring|]. rewrite Esg. ring.
      * transitivity (s * (a j * (g * g))); [field; lra|]. rewrite Esg. ring.
Qed.

Lemma call_tight argsort (HA : argsort_ok argsort) (x : Vec n) : (2 <= r0)%nat ->
  exists v z, ci_call argsort r0 x = Ok (VNum v) /\ tight hs x z (v + / 2 * norm2 x).
Proof.
  intro Hr2. unfold ci_call.
  destruct ((n <=? r0)%nat || (nnz x <=? r0)%nat) eqn:E0.
  - exists 0, x. split; auto. rewrite Rplus_0_l. apply (sparse_tight _ hs H1). unfold l0_ball. apply orb_true_iff in E0 as [E|E]; apply Nat.leb_le in E; auto.
    unfold nnz. eapply Nat.le_trans; [|exact E]. rewrite <- (seq_length n 0) at 2. clear. generalize (seq 0 n) as l. induction l as [|a l IH]; simpl; auto. destruct (negb _); simpl; lia.
  - apply orb_false_iff in E0 as [E1 E2]. apply Nat.leb_gt in E1, E2. destruct (Nat.eqb_spec r0 0) as [E|_]; [lia|].
    destruct (argsort_abs argsort HA n x) as [HP HS]. unfold np_sort. set (asc := argsort (map Rabs (lst x))) in *. set (idx := rev asc).
    assert (HPi : Permutation idx (seq 0 n)) by (eapply perm_trans; [apply Permutation_sym, Permutation_rev|exact HP]).
    destruct (perm_facts n idx HPi) as [HL [ND [Hin Hall]]].
    set (xs := rev (take (map Rabs (lst x)) asc)).
    assert (Exs : xs = take (map Rabs (lst x)) idx) by (unfold xs, idx, take; rewrite map_rev; reflexivity).
    assert (Hxl : length xs = n) by (rewrite Exs; unfold take; rewrite map_length; auto).
    set (a := fun j => Rabs (get x (nth j idx 0%nat))).
    assert (Hxn : forall j, (j < n)%nat -> nth j xs 0 = a j).
    { intros j Hj. rewrite Exs. unfold take. rewrite (map_nth_lt _ idx j 0%nat 0) by lia. rewrite abs_keys by (apply Hin; auto). reflexivity. }
    assert (Hsort : forall i j, (i <= j < n)%nat -> a j <= a i).
    { intros i j Hij. destruct (Nat.eq_dec i j) as [->|Hne]; [lra|]. pose proof (rev_sorted _ _ HS) as HSr. fold idx in HSr.
      exact (sorted_nth _ _ 0%nat i j HSr ltac:(lia)). }
    assert (Hskip : forall (f : R -> R) q, Rsum (map f (skipn q xs)) = RS n (fun j => if (j <? q)%nat then 0 else f (a j))).
    { intros f q. destruct (Nat.le_gt_cases q n) as [Hq|Hq].
      - rewrite Rsum_RS, map_length, skipn_length, Hxl. replace n with (q + (n - q))%nat at 2 by lia. rewrite RS_split. rewrite (RS_ext q _ (fun _ => 0)), RS_zero, Rplus_0_l.
        + apply RS_ext. intros j Hj. unfold nthr. rewrite (map_nth_lt f _ j 0 0) by (rewrite skipn_length, Hxl; lia). rewrite skipn_nth, Hxn by lia. destruct (Nat.ltb_spec (q + j) q); [lia|reflexivity].
        + intros j Hj. destruct (Nat.ltb_spec j q); [reflexivity|lia].
      - rewrite skipn_all2 by lia. simpl. symmetry. rewrite (RS_ext n _ (fun _ => 0)), RS_zero; auto. intros j Hj. destruct (Nat.ltb_spec j q); [reflexivity|lia]. }
    set (cs := cumsum 0 (rev xs)). set (sums := map2 Rdiv (skipn (length cs - r0) cs) (map INR (seq 1 r0))).
    assert (Hcl : length cs = n) by (unfold cs; rewrite cumsum_length, rev_length; auto).
    assert (Hsl : length sums = r0). { unfold sums. rewrite map2_length; rewrite skipn_length, ?map_length, ?seq_length; lia. }
    set (T := fun q => RS n (fun j => if (j <? q)%nat then 0 else a j)).
    assert (Hsum : forall k, (k < r0)%nat -> nth k sums 0 = T (r0 - k - 1)%nat / (INR k + 1)).
    { intros k Hk. unfold sums. rewrite (nth_map2 Rdiv _ _ k 0 0 0) by (rewrite skipn_length, ?map_length, ?seq_length; lia). rewrite skipn_nth, Hcl.
      rewrite (map_nth_lt INR _ k 0%nat 0) by (rewrite seq_length; auto). rewrite seq_nth by auto. unfold cs. rewrite cumsum_nth by (rewrite rev_length; lia).
      rewrite firstn_rev, Rsum_rev, Hxl. replace (n - S (n - r0 + k))%nat with (r0 - k - 1)%nat by lia. rewrite Rplus_0_l.
      rewrite <- (map_id (skipn _ xs)), (Hskip (fun t => t)). replace (1 + k)%nat with (S k) by lia. rewrite S_INR. reflexivity. }
    destruct (kstar_ok sums ltac:(lia)) as [k0 [Ek Hk]]. rewrite Ek. cbn [bind]. rewrite Hsl in Hk.
    set (k := if Nat.eqb k0 0 && negb (nth k0 (increases sums) false) then (r0 - 1)%nat else k0) in *. destruct Hk as [K1 [K2 K3]]. clearbody k. clear k0 Ek.
    assert (HT : forall q, (q < n)%nat -> T q = a q + T (S q)).
    { intros q Hq. unfold T. rewrite <- (RS_delta n q a Hq), <- RS_add. apply RS_ext. intros j Hj. destruct (Nat.eqb_spec q j) as [->|Hne].
      - destruct (Nat.ltb_spec j j); [lia|]. destruct (Nat.ltb_spec j (S j)); [ring|lia].
      - destruct (Nat.ltb_spec j q), (Nat.ltb_spec j (S q)); try lia; ring. }
    assert (HT0 : forall q, 0 <= T q) by (intro q; apply RS_nonneg; intros j Hj; destruct (_ <? _)%nat; [lra|apply Rabs_pos]).
    assert (Hk1 : 0 < INR k + 1) by (pose proof (pos_INR k); lra).
    (* the tail contains a non-zero entry: more than r0 entries are non-zero *)
    assert (Har : 0 < a r0).
    { destruct (Rle_lt_or_eq_dec 0 (a r0) (Rabs_pos _)) as [H|H]; auto. exfalso.
      assert (HI : INR (nnz x) <= INR r0); [|apply INR_le in HI; lia].
      unfold nnz. rewrite <- RS_count, (RS_perm n idx _ HPi). rewrite <- (RS_head n r0) by lia. apply RS_le. intros j Hj. destruct (Nat.ltb_spec j r0) as [Hjr|Hjr].
      - destruct (negb _); lra.
      - pose proof (Hsort r0 j ltac:(lia)) as Hl. assert (Ej : a j = 0) by (pose proof (Rabs_pos (get x (nth j idx 0%nat))); unfold a in *; lra). unfold a in Ej. assert (Ej0 : get x (nth j idx 0%nat) = 0) by (destruct (Req_dec (get x (nth j idx 0%nat)) 0) as [E|E]; auto; apply Rabs_no_R0 in E; lra). clear Ej. rename Ej0 into Ej.
        rewrite Ej. destruct (Reqb_spec 0 0) as [[_ ->]|[? _]]; [simpl; lra|lra]. }
    assert (HTpos : forall q, (q <= r0)%nat -> 0 < T q).
    { intros q Hq. apply Rlt_le_trans with (1 := Har). unfold T. rewrite <- (RS_delta n r0 a E1). apply RS_le. intros j Hj. destruct (Nat.eqb_spec r0 j) as [<-|Hne].
      - destruct (Nat.ltb_spec r0 q); [lia|]. lra.
      - rewrite Rmult_0_r. destruct (_ <? _)%nat; [lra|apply Rabs_pos]. }
    set (q := (r0 - k - 1)%nat). set (s := nth k sums 0). assert (Es : s = T q / (INR k + 1)) by (apply Hsum; auto).
    destruct (value_tight x idx k T s E1 HPi Hsort K1) as [z Hz].
    + rewrite Es. apply Rmult_lt_0_compat; [apply HTpos; unfold q; lia|apply Rinv_0_lt_compat; auto].
    + rewrite Es. fold q. change (RS n _) with (T q). field. lra.
    + intro Hq. fold q in Hq |- *. destruct K2 as [K2|[K2 K2']]; [unfold q in Hq; lia|]. rewrite !Hsum in K2 by lia. rewrite S_INR in K2.
      assert (EqS : (r0 - S k - 1)%nat = (q - 1)%nat) by (unfold q; lia). rewrite EqS in K2. fold q in K2. rewrite (HT (q - 1)%nat) in K2 by (unfold q; lia).
      replace (S (q - 1)) with q in K2 by lia. rewrite Es. fold (a (q - 1)%nat).
      apply (Rmult_lt_compat_r ((INR k + 1) * (INR k + 1 + 1))) in K2; [|apply Rmult_lt_0_compat; lra].
      replace (T q / (INR k + 1) * ((INR k + 1) * (INR k + 1 + 1))) with (T q * (INR k + 1 + 1)) in K2 by (field; lra).
      replace ((a (q - 1)%nat + T q) / (INR k + 1 + 1) * ((INR k + 1) * (INR k + 1 + 1))) with ((a (q - 1)%nat + T q) * (INR k + 1)) in K2 by (field; lra).
      apply (Rmult_le_reg_r (INR k + 1)); auto. unfold Rdiv. rewrite Rmult_assoc, Rinv_l by lra. lra.
    + fold q. rewrite Es. apply (Rmult_le_reg_r (INR k + 1)); auto. unfold Rdiv. rewrite Rmult_assoc, Rinv_l by lra. rewrite Rmult_1_r.
      change (a q * (INR k + 1) <= T q). destruct k as [|k].
      * simpl INR. rewrite (HT q) by (unfold q; lia). pose proof (HT0 (S q)). lra.
      * specialize (K3 k ltac:(lia)). rewrite !Hsum in K3 by lia. fold q in K3. replace (r0 - k - 1)%nat with (S q) in K3 by (unfold q; lia). rewrite (HT q) in * by (unfold q; lia).
        rewrite !S_INR in *. pose proof (pos_INR k).
        apply (Rmult_le_compat_r ((INR k + 1) * (INR k + 1 + 1))) in K3; [|apply Rmult_le_pos; lra].
        replace (T (S q) / (INR k + 1) * ((INR k + 1) * (INR k + 1 + 1))) with (T (S q) * (INR k + 1 + 1)) in K3 by (field; lra).
        replace ((a q + T (S q)) / (INR k + 1 + 1) * ((INR k + 1) * (INR k + 1 + 1))) with ((a q + T (S q)) * (INR k + 1)) in K3 by (field; lra). lra.
    + eexists. exists z. split; [reflexivity|]. rewrite (Hskip (fun t => t * t)). fold s. fold q in Hz |- *. exact Hz.
Qed.
End Value.
