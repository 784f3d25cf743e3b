(** * Proofs about the projection on pairwise distance constraints (M_Inter.v) *)
From Coq Require Import Psatz.
From Verif Require Import Base VSum MatFacts M_Loop LoopFacts LoopFacts2 SeqConv M_Inter.
From Verif Require Export S_Inter.
Open Scope result_scope.
Open Scope R_scope.

(** ** Specification, one column (a vector u of k entries) at a time *)
(** one step for the pair (i1, i2) of a column: u and the memory z of the pair become u' and z' *)
Definition col_step (s : R) (i1 i2 : nat) (u : nat -> R) (z : R) (u' : nat -> R) (z' : R) : Prop :=
  z' = xdtilde s (u i2 - u i1 + z) /\ u' i1 = u i1 + / 2 * (z' - z) /\ u' i2 = u i2 - / 2 * (z' - z) /\ forall i, i <> i1 -> i <> i2 -> u' i = u i.

Definition eps := / 10 ^ 10.
Lemma eps_pos : 0 < eps.
Proof. unfold eps. apply Rinv_0_lt_compat. apply pow_lt. lra. Qed.

Lemma abs_le a b : Rabs a <= b -> - b <= a <= b.
Proof. intro H. pose proof (Rle_abs a). pose proof (Rle_abs (- a)) as H2. rewrite Rabs_Ropp in H2. lra. Qed.

(** ** the shrinkage *)
Lemma xd_zero s t : Rabs t <= s -> xdtilde s t = 0.
Proof. intro H. unfold xdtilde. rewrite Rmax_left by lra. unfold Rdiv. ring. Qed.
Lemma xd_out s t : s < Rabs t -> xdtilde s t = (Rabs t - s) * t / (Rabs t + eps).
Proof. intro H. unfold xdtilde. rewrite Rmax_right by lra. reflexivity. Qed.
(** the new difference of the pair, and the sign of the memory *)
Lemma xd_gap s t : 0 <= s -> let d := xdtilde s t in
  (d = 0 /\ Rabs (t - d) <= s) \/ (s <= Rabs (t - d) <= s + eps /\ 0 <= d * (t - d) /\ (0 < s -> 0 < d * (t - d))).
Proof.
  intros Hs d. pose proof eps_pos as He. destruct (Rle_lt_dec (Rabs t) s) as [H|H].
  - left. unfold d. rewrite (xd_zero s t H). split; [reflexivity|]. replace (t - 0) with t by ring. exact H.
  - right. unfold d. rewrite (xd_out s t H). set (a := Rabs t) in *.
    assert (E : t - (a - s) * t / (a + eps) = t * ((s + eps) / (a + eps))) by (field; lra). rewrite E.
    assert (Hq : 0 < (s + eps) / (a + eps)) by (apply Rdiv_lt_0_compat; lra).
    assert (HA : Rabs (t * ((s + eps) / (a + eps))) = a * ((s + eps) / (a + eps))) by (rewrite Rabs_mult, (Rabs_right ((s + eps) / (a + eps))) by lra; reflexivity).
    rewrite HA. assert (Hd : a * ((s + eps) / (a + eps)) = (a * (s + eps)) / (a + eps)) by (field; lra).
    assert (H2 : (a - s) * t / (a + eps) * (t * ((s + eps) / (a + eps))) = (a - s) * (a * a) * ((s + eps) / ((a + eps) * (a + eps)))).
    { replace (a * a) with (t * t) by (unfold a; rewrite <- Rabs_mult; symmetry; apply Rabs_right; nra). field. lra. }
    assert (H3 : 0 < (s + eps) / ((a + eps) * (a + eps))) by (apply Rdiv_lt_0_compat; nra). split; [|rewrite H2; split].
    + rewrite Hd. split.
      * apply Rmult_le_reg_r with (a + eps); [lra|]. unfold Rdiv. rewrite Rmult_assoc, Rinv_l by lra. nra.
      * apply Rmult_le_reg_r with (a + eps); [lra|]. unfold Rdiv. rewrite (Rmult_assoc _ (/ _)), Rinv_l by lra. nra.
    + apply Rmult_le_pos; [|lra]. apply Rmult_le_pos; [lra|nra].
    + intros _. apply Rmult_lt_0_compat; [|lra]. apply Rmult_lt_0_compat; [lra|]. apply Rmult_lt_0_compat; lra.
Qed.
Lemma xd_near s t : 0 <= s -> s < t -> t - s - eps <= xdtilde s t <= t - s.
Proof.
  intros Hs H. pose proof eps_pos. rewrite xd_out by (rewrite Rabs_right; lra). rewrite Rabs_right by lra.
  assert (E : (t - s) * t / (t + eps) = t - s - eps * ((t - s) / (t + eps))) by (field; lra). rewrite E.
  assert (0 <= (t - s) / (t + eps) <= 1).
  { split; [apply Rmult_le_pos; [lra|left; apply Rinv_0_lt_compat; lra]|]. apply Rmult_le_reg_r with (t + eps); [lra|]. unfold Rdiv. rewrite Rmult_assoc, Rinv_l by lra. lra. }
  nra.
Qed.

(** ** sweeps *)
Definition pure_sweep (S : nat -> nat -> R) (ps : list (nat * nat)) (st : inter_state) : inter_state := fold_left (fun st p => pair_step (S (fst p) (snd p)) (fst p) (snd p) st) ps st.
Lemma in_pairs k p : In p (pairs k) <-> (fst p < snd p < k)%nat.
Proof.
  unfold pairs. rewrite in_flat_map. split.
  - intros [i [Hi H]]. apply in_map_iff in H as [i2 [<- H2]]. apply in_seq in H2, Hi. simpl. lia.
  - intro H. exists (fst p). split; [apply in_seq; lia|]. apply in_map_iff. exists (snd p). split; [destruct p; reflexivity|apply in_seq; lia].
Qed.
Lemma NoDup_flat_pairs (f : nat -> list nat) l : NoDup l -> (forall i, NoDup (f i)) -> NoDup (flat_map (fun i1 => map (fun i2 => (i1, i2)) (f i1)) l).
Proof.
  intros Hl Hf. induction Hl as [|a l Ha Hl IH]; simpl; [constructor|]. induction (Hf a) as [|b m Hb Hm IHm]; simpl; [exact IH|]. constructor; [|exact IHm].
  rewrite in_app_iff. intros [H|H].
  - apply in_map_iff in H as [x [E1 H1]]. injection E1 as ->. contradiction.
  - apply in_flat_map in H as [i [H1 H2]]. apply in_map_iff in H2 as [x [E1 H2]]. injection E1 as -> _. contradiction.
Qed.
Lemma pairs_nodup k : NoDup (pairs k).
Proof. apply NoDup_flat_pairs; [apply seq_NoDup|intro; apply seq_NoDup]. Qed.
Lemma pair_loop_pure k sg S ps : sig_is k sg S -> (forall p, In p ps -> (fst p < snd p < k)%nat) -> forall st, pair_loop k sg ps st = Ok (pure_sweep S ps st).
Proof.
  intro HS. induction ps as [|[i1 i2] ps IH]; intros H st; [reflexivity|]. cbn [pair_loop]. destruct (HS i1 i2 (H (i1, i2) (or_introl eq_refl))) as [-> _]. cbn [bind].
  rewrite IH by (intros p Hp; apply H; right; exact Hp). reflexivity.
Qed.
Definition zat (st : inter_state) (p : nat * nat) (j : nat) : R := is_z st (fst p) (snd p) j.
Definition col (st : inter_state) (j : nat) : nat -> R := fun i => is_x st i j.
Lemma pair_step_z s p st q j : zat (pair_step s (fst p) (snd p) st) q j = if andb (Nat.eqb (fst q) (fst p)) (Nat.eqb (snd q) (snd p)) then xdtilde s (is_x st (snd p) j - is_x st (fst p) j + zat st p j) else zat st q j.
Proof.
  unfold zat, pair_step, put. cbn [is_z is_x]. destruct (Nat.eqb_spec (fst q) (fst p)) as [E1|N1]; simpl; [|reflexivity].
  destruct (Nat.eqb_spec (snd q) (snd p)) as [E2|N2]; simpl; [reflexivity|]. rewrite E1. reflexivity.
Qed.
Lemma pair_step_col s p st j : (fst p < snd p)%nat -> col_step s (fst p) (snd p) (col st j) (zat st p j) (col (pair_step s (fst p) (snd p) st) j) (zat (pair_step s (fst p) (snd p) st) p j).
Proof.
  intro H. unfold col_step. rewrite pair_step_z, !Nat.eqb_refl. cbn [andb]. split; [reflexivity|]. unfold col, pair_step, put, zat. cbn [is_x is_z].
  rewrite !Nat.eqb_refl. destruct (Nat.eqb_spec (fst p) (snd p)); [lia|]. destruct (Nat.eqb_spec (snd p) (fst p)); [lia|]. split; [reflexivity|]. split; [reflexivity|].
  intros i H1 H2. destruct (Nat.eqb_spec i (snd p)); [contradiction|]. destruct (Nat.eqb_spec i (fst p)); [contradiction|]. reflexivity.
Qed.
Lemma RS_single k i a : (i < k)%nat -> RS k (fun l => if Nat.eqb l i then a else 0) = a.
Proof.
  intro H. assert (G : forall m, RS m (fun l => if Nat.eqb l i then a else 0) = if Nat.ltb i m then a else 0).
  { induction m as [|m IH]; cbn [RS]; [reflexivity|]. rewrite IH. destruct (Nat.eqb_spec m i), (Nat.ltb_spec i m), (Nat.ltb_spec i (S m)); try lia; lra. }
  rewrite G. destruct (Nat.ltb_spec i k); [reflexivity|lia].
Qed.
(** effect of a step on every linear functional of the column *)
Lemma col_step_lin k s i1 i2 u z u' z' (y : nat -> R) : (i1 < i2 < k)%nat -> col_step s i1 i2 u z u' z' -> RS k (fun i => u' i * y i) = RS k (fun i => u i * y i) - / 2 * (z' - z) * (y i2 - y i1).
Proof.
  intros Hi (_ & H1 & H2 & H3).
  rewrite (RS_ext k _ (fun i => u i * y i + ((if Nat.eqb i i1 then / 2 * (z' - z) * y i1 else 0) - (if Nat.eqb i i2 then / 2 * (z' - z) * y i2 else 0)))).
  - rewrite RS_add, RS_sub, !RS_single by lia. ring.
  - intros i _. destruct (Nat.eqb_spec i i1) as [->|N1]; [destruct (Nat.eqb_spec i1 i2); [lia|]; rewrite H1; ring|]. destruct (Nat.eqb_spec i i2) as [->|N2]; [rewrite H2; ring|]. rewrite H3 by auto. ring.
Qed.
Definition dual (st : inter_state) (ps : list (nat * nat)) (j : nat) (y : nat -> R) : R := Rsum (map (fun p => zat st p j * (y (snd p) - y (fst p))) ps).
Lemma other_pair (p q : nat * nat) : q <> p -> andb (Nat.eqb (fst q) (fst p)) (Nat.eqb (snd q) (snd p)) = false.
Proof. intro H. destruct p as [a b], q as [c d]. simpl. destruct (Nat.eqb_spec c a) as [->|]; simpl; [|reflexivity]. destruct (Nat.eqb_spec d b) as [->|]; [|reflexivity]. contradiction. Qed.
Lemma dual_step_out s p st ps j y : ~ In p ps -> dual (pair_step s (fst p) (snd p) st) ps j y = dual st ps j y.
Proof.
  intro H. unfold dual. f_equal. apply map_ext_in. intros q Hq. rewrite pair_step_z, other_pair; [reflexivity|]. intros ->. contradiction.
Qed.
Lemma dual_step s p st ps j y : NoDup ps -> In p ps -> dual (pair_step s (fst p) (snd p) st) ps j y = dual st ps j y + (zat (pair_step s (fst p) (snd p) st) p j - zat st p j) * (y (snd p) - y (fst p)).
Proof.
  intro HN. induction HN as [|q l Hq Hl IH]; intro HI; [contradiction|]. unfold dual. cbn [map Rsum]. fold (dual (pair_step s (fst p) (snd p) st) l j y). fold (dual st l j y).
  destruct HI as [->|HI].
  - rewrite dual_step_out by auto. ring.
  - rewrite IH by auto. rewrite (pair_step_z s p st q), other_pair by (intros ->; contradiction). ring.
Qed.

(** what a sequence of steps preserves: <u, y> + dual(y) / 2, for every vector y *)
Lemma sweep_lin k S ps qs j y : NoDup qs -> (forall p, In p qs -> (fst p < snd p < k)%nat) -> (forall p, In p ps -> In p qs) -> forall st,
  RS k (fun i => col (pure_sweep S ps st) j i * y i) + / 2 * dual (pure_sweep S ps st) qs j y = RS k (fun i => col st j i * y i) + / 2 * dual st qs j y.
Proof.
  intros HN Hk. induction ps as [|p ps IH]; intros Hps st; [reflexivity|]. unfold pure_sweep. cbn [fold_left]. fold (pure_sweep S ps (pair_step (S (fst p) (snd p)) (fst p) (snd p) st)).
  rewrite IH by (intros q Hq; apply Hps; right; exact Hq). assert (Hp : In p qs) by (apply Hps; left; reflexivity). pose proof (Hk p Hp) as Hlt.
  rewrite (col_step_lin k _ _ _ _ _ _ _ y Hlt (pair_step_col (S (fst p) (snd p)) p st j (proj1 Hlt))). rewrite dual_step by auto. ring.
Qed.

(** the states before each sweep *)
Definition sweeps (k : nat) (S : nat -> nat -> R) (st0 : inter_state) (m : nat) : inter_state := Base.iter m (pure_sweep S (pairs k)) st0.
Definition start (n : nat) (x : list R) : inter_state := IS (tab n x) (fun _ _ _ => 0).
Lemma sweeps_S k S st0 m : sweeps k S st0 (Datatypes.S m) = pure_sweep S (pairs k) (sweeps k S st0 m).
Proof. apply iter_S_out. Qed.
Lemma dual_start n x ps j y : dual (start n x) ps j y = 0.
Proof. unfold dual, zat, start. cbn [is_z]. induction ps as [|p ps IH]; cbn [map Rsum]; [reflexivity|]. rewrite IH. ring. Qed.
Lemma sweeps_lin k S n x m j y : RS k (fun i => col (sweeps k S (start n x) m) j i * y i) + / 2 * dual (sweeps k S (start n x) m) (pairs k) j y = RS k (fun i => tab n x i j * y i).
Proof.
  induction m as [|m IH].
  - unfold sweeps. cbn [Base.iter]. rewrite dual_start. unfold col, start. cbn [is_x]. ring.
  - rewrite sweeps_S. rewrite (sweep_lin k S (pairs k) (pairs k) j y (pairs_nodup k)); [exact IH|intros p; apply in_pairs|auto].
Qed.

(** ** flat arrays *)
Lemma flat_length k n t : length (flat k n t) = (k * n)%nat.
Proof. unfold flat. assert (G : forall i, length (flat_map (fun i => map (t i) (seq 0 n)) (seq i k)) = (k * n)%nat).
  { induction k as [|k IH]; intro i; simpl; [reflexivity|]. rewrite app_length, map_length, seq_length, IH. reflexivity. } apply G. Qed.
Lemma flat_get k n t i j : (i < k)%nat -> (j < n)%nat -> tab n (flat k n t) i j = t i j.
Proof.
  unfold tab, flat. intros Hi Hj.
  assert (G : forall a k i, (i < k)%nat -> nth (i * n + j) (flat_map (fun i => map (t i) (seq 0 n)) (seq a k)) 0 = t (a + i)%nat j).
  { intros a k'. revert a. induction k' as [|k' IH]; intros a i' Hi'; [lia|]. cbn [seq flat_map]. destruct i' as [|i'].
    - rewrite app_nth1 by (rewrite map_length, seq_length; lia). rewrite (map_nth_lt _ (seq 0 n) (0 * n + j) 0%nat 0) by (rewrite seq_length; lia). rewrite seq_nth by lia. f_equal; lia.
    - rewrite app_nth2 by (rewrite map_length, seq_length; nia). rewrite map_length, seq_length. replace (S i' * n + j - n)%nat with (i' * n + j)%nat by nia.
      rewrite IH by lia. f_equal. lia. }
  rewrite (G 0%nat k i Hi). reflexivity.
Qed.
Lemma flat_ext k n t t' : (forall i j, (i < k)%nat -> (j < n)%nat -> t i j = t' i j) -> flat k n t = flat k n t'.
Proof.
  intro H. unfold flat. rewrite !flat_map_concat_map. f_equal. apply map_ext_in. intros i Hi. apply map_ext_in. intros j Hj. apply in_seq in Hi, Hj. apply H; lia.
Qed.
Lemma flat_tab k n x : length x = (k * n)%nat -> flat k n (tab n x) = x.
Proof.
  intro H. apply (nth_ext _ _ 0 0); [rewrite flat_length; auto|]. intros a Ha. rewrite flat_length in Ha. destruct (Nat.eq_dec n 0) as [->|Hn]; [lia|].
  pose proof (Nat.div_mod a n Hn) as E. assert (Hm : (a mod n < n)%nat) by (apply Nat.mod_upper_bound; auto). assert (Hd : (a / n < k)%nat) by (apply Nat.div_lt_upper_bound; lia).
  replace a with (a / n * n + a mod n)%nat by lia. change (tab n (flat k n (tab n x)) (a / n) (a mod n) = tab n x (a / n) (a mod n)). apply flat_get; auto.
Qed.

(** ** the loop *)
Definition cols_small (k n : nat) (tol : R) (st : nat -> inter_state) (m : nat) : Prop :=
  forall j, (j < n)%nat -> RS k (fun i => Rabs (col (st m) j i - col (st (m - 1)%nat) j i)) < tol.
Lemma Rsum_seq f k : Rsum (map f (seq 0 k)) = RS k f.
Proof.
  rewrite Rsum_RS, map_length, seq_length. apply RS_ext. intros i Hi. unfold nthr. rewrite (map_nth_lt _ (seq 0 k) i 0%nat 0) by (rewrite seq_length; auto). rewrite seq_nth by auto. reflexivity.
Qed.
Lemma fold_max_lt l : forall a tol, fold_left Rmax l a < tol <-> a < tol /\ forall b, In b l -> b < tol.
Proof.
  induction l as [|b l IH]; intros a tol; simpl; [split; [intro; split; auto; intros ? []|intros [? _]; auto]|]. rewrite IH. split.
  - intros [H1 H2]. split; [eapply Rle_lt_trans; [apply Rmax_l|exact H1]|]. intros c [->|Hc]; [eapply Rle_lt_trans; [apply Rmax_r|exact H1]|auto].
  - intros [H1 H2]. split; [apply Rmax_lub_lt; auto|]. intros; apply H2; auto.
Qed.
Lemma inter_run k n sg S x niter tol : (0 < n)%nat -> length x = (k * n)%nat -> sig_is k sg S ->
  exists m, inter_proj k n sg niter tol x = Ok (flat k n (is_x (sweeps k S (start n x) m)), flat k n (is_x (sweeps k S (start n x) m))) /\
    stops_when (cols_small k n tol (sweeps k S (start n x))) niter m.
Proof.
  intros Hn HL HS. unfold inter_proj. rewrite HL, Nat.eqb_refl.
  set (test := fun st => match map (col_change k (is_x (pure_sweep S (pairs k) st)) (is_x st)) (seq 0 n) with [] => false | c :: l => Rltb (fold_left Rmax l c) tol end).
  destruct (loop_iter_brk (inter_body k n sg tol) (fun _ => True) (pure_sweep S (pairs k)) test (start n x) I) with (n := niter) as [m [E1 Hm]].
  - intros j st _. split; [|exact I]. unfold inter_body. rewrite (pair_loop_pure k sg S) by (auto; intro p; apply in_pairs). cbn [bind]. unfold test.
    destruct (map _ _) eqn:Em; [|reflexivity]. apply map_eq_nil in Em. destruct n; [lia|discriminate].
  - exists m. change (IS (tab n x) (fun _ _ _ => 0)) with (start n x). rewrite E1. cbn [bind fst]. split; [reflexivity|].
    assert (EQ : forall j, (1 <= j)%nat -> (test (sweeps k S (start n x) (j - 1)) = true <-> cols_small k n tol (sweeps k S (start n x)) j)).
    { intros j Hj. unfold test, cols_small. rewrite <- sweeps_S. replace (Datatypes.S (j - 1)) with j by lia.
      set (cc := col_change k (is_x (sweeps k S (start n x) j)) (is_x (sweeps k S (start n x) (j - 1)))).
      assert (EC : forall c, cc c = RS k (fun i => Rabs (col (sweeps k S (start n x) j) c i - col (sweeps k S (start n x) (j - 1)) c i))) by (intro c; unfold cc, col_change; apply Rsum_seq).
      destruct (map cc (seq 0 n)) as [|c l] eqn:Em; [apply map_eq_nil in Em; destruct n; [lia|discriminate]|]. rewrite Rltb_true, fold_max_lt. split.
      - intros [H1 H2] a Ha. rewrite <- EC. assert (HI : In (cc a) (c :: l)) by (rewrite <- Em; apply in_map, in_seq; lia). destruct HI as [<-|HI]; auto.
      - intro H. assert (HH : forall b, In b (c :: l) -> b < tol). { intros b Hb. rewrite <- Em in Hb. apply in_map_iff in Hb as [a [<- Ha]]. rewrite EC. apply H. apply in_seq in Ha. lia. }
        split; [apply HH; left; reflexivity|intros b Hb; apply HH; right; exact Hb]. }
    destruct Hm as [H1 [H2 H3]]. split; [exact H1|]. split.
    + intros j Hj HQ. apply (H2 j Hj). apply EQ; [lia|auto].
    + destruct H3 as [->|[H3 H4]]; [auto|right; split; auto; apply EQ; auto].
Qed.


(*! C37_sums : IntersectionProj terminates after at most niter sweeps, at the first one whose largest column change is below tol; the result has the shape of
   the input and every column keeps its sum, whatever niter, tol and the distances *)
Lemma C37_sums_l : forall k n sg S x, (0 < n)%nat -> length x = (k * n)%nat -> sig_is k sg S ->
  exists st : nat -> list R, st 0%nat = x /\ forall niter tol, exists m r, inter_proj k n sg niter tol x = Ok (r, r) /\ r = st m /\
    stops_when (fun a => forall j, (j < n)%nat -> RS k (fun i => Rabs (rcol n (st a) j i - rcol n (st (a - 1)%nat) j i)) < tol) niter m /\
    length r = length x /\ forall j, (j < n)%nat -> RS k (rcol n r j) = RS k (rcol n x j).
Proof.
  intros k n sg S x Hn HL HS. exists (fun m => flat k n (is_x (sweeps k S (start n x) m))). split; [apply flat_tab; exact HL|].
  intros niter tol. destruct (inter_run k n sg S x niter tol Hn HL HS) as [m [E1 H1]]. exists m, (flat k n (is_x (sweeps k S (start n x) m))). split; [exact E1|]. split; [reflexivity|].
  assert (EC : forall a j i, (j < n)%nat -> (i < k)%nat -> rcol n (flat k n (is_x (sweeps k S (start n x) a))) j i = col (sweeps k S (start n x) a) j i) by (intros; unfold rcol; rewrite flat_get by auto; reflexivity).
  split; [|split].
  - assert (EQ : forall a, cols_small k n tol (sweeps k S (start n x)) a <-> (forall j, (j < n)%nat -> RS k (fun i => Rabs (rcol n (flat k n (is_x (sweeps k S (start n x) a))) j i - rcol n (flat k n (is_x (sweeps k S (start n x) (a - 1)))) j i)) < tol)).
    { intro a. unfold cols_small. split; intros H j Hj; specialize (H j Hj); [erewrite RS_ext; [exact H|]|erewrite RS_ext in H; [exact H|]]; intros i Hi; cbv beta; rewrite !EC by auto; reflexivity. }
    destruct H1 as [Ha [Hb Hc]]. split; [exact Ha|]. split; [intros a Ha' HQ; apply (Hb a Ha'), EQ, HQ|]. destruct Hc as [->|[H2 H3]]; [auto|right; split; auto; apply EQ; auto].
  - rewrite flat_length; auto.
  - intros j Hj. rewrite (RS_ext k _ (fun i => col (sweeps k S (start n x) m) j i * 1)) by (intros i Hi; rewrite EC by auto; ring).
    pose proof (sweeps_lin k S n x m j (fun _ => 1)) as H. assert (E0 : dual (sweeps k S (start n x) m) (pairs k) j (fun _ => 1) = 0).
    { clear H. unfold dual. induction (pairs k) as [|p l IH]; cbn [map Rsum]; [reflexivity|]. rewrite IH. ring. }
    rewrite E0 in H. rewrite (RS_ext k (rcol n x j) (fun i => tab n x i j * 1)) by (intros; unfold rcol; ring). lra.
Qed.

(** ** feasible inputs *)
Lemma pair_step_idle s p st j : (fst p < snd p)%nat -> zat (pair_step s (fst p) (snd p) st) p j = zat st p j -> forall i, col (pair_step s (fst p) (snd p) st) j i = col st j i.
Proof.
  intros Hlt H i. destruct (pair_step_col s p st j Hlt) as (_ & H1 & H2 & H3). rewrite H in *. destruct (Nat.eq_dec i (fst p)) as [->|N1]; [rewrite H1; ring|]. destruct (Nat.eq_dec i (snd p)) as [->|N2]; [rewrite H2; ring|]. apply H3; auto.
Qed.
Lemma sweep_feasible k S j ps : (forall p, In p ps -> (fst p < snd p < k)%nat) -> forall st, (forall p, zat st p j = 0) -> Kset k S (col st j) ->
  (forall p, zat (pure_sweep S ps st) p j = 0) /\ forall i, col (pure_sweep S ps st) j i = col st j i.
Proof.
  induction ps as [|p ps IH]; intros Hps st Hz HK; [split; auto|]. unfold pure_sweep. cbn [fold_left]. set (st1 := pair_step (S (fst p) (snd p)) (fst p) (snd p) st). fold (pure_sweep S ps st1).
  pose proof (Hps p (or_introl eq_refl)) as Hlt. assert (Hz1 : forall q, zat st1 q j = 0).
  { intro q. unfold st1. rewrite pair_step_z. destruct (andb _ _); [|auto]. apply xd_zero. rewrite Hz, Rplus_0_r. apply (HK (fst p) (snd p) Hlt). }
  assert (Hc : forall i, col st1 j i = col st j i) by (apply pair_step_idle; [lia|rewrite Hz; apply Hz1]).
  destruct (IH (fun q Hq => Hps q (or_intror Hq)) st1 Hz1) as [Ha Hb]. { intros i1 i2 Hi. rewrite !Hc. apply HK; auto. }
  split; [exact Ha|]. intro i. rewrite Hb. apply Hc.
Qed.
(*! C37_feasible : an input satisfying every constraint is returned unchanged (and left unchanged), for every niter and tol *)
Lemma C37_feasible_l : forall k n sg S x niter tol, (0 < n)%nat -> length x = (k * n)%nat -> sig_is k sg S -> (forall j, (j < n)%nat -> Kset k S (rcol n x j)) ->
  inter_proj k n sg niter tol x = Ok (x, x).
Proof.
  intros k n sg S x niter tol Hn HL HS HK. destruct (inter_run k n sg S x niter tol Hn HL HS) as [m [E1 _]].
  assert (G : forall j, (j < n)%nat -> (forall p, zat (sweeps k S (start n x) m) p j = 0) /\ forall i, col (sweeps k S (start n x) m) j i = tab n x i j).
  { intros j Hj. clear E1. induction m as [|m IH]; [split; reflexivity|]. rewrite sweeps_S. destruct IH as [Ia Ib].
    destruct (sweep_feasible k S j (pairs k) (fun p => proj1 (in_pairs k p)) (sweeps k S (start n x) m) Ia) as [Ha Hb]; [intros i1 i2 Hi; rewrite !Ib; apply (HK j Hj i1 i2 Hi)|].
    split; [exact Ha|intro i; rewrite Hb; apply Ib]. }
  rewrite E1. assert (EF : flat k n (is_x (sweeps k S (start n x) m)) = x). { rewrite <- (flat_tab k n x HL) at 2. apply flat_ext. intros i j Hi Hj. apply (G j Hj). }
  rewrite EF. reflexivity.
Qed.

(** ** a sweep that changes no memory certifies the projection *)
Lemma sweep_z_out S ps : forall st q j, ~ In q ps -> zat (pure_sweep S ps st) q j = zat st q j.
Proof.
  induction ps as [|p ps IH]; intros st q j Hq; [reflexivity|]. unfold pure_sweep. cbn [fold_left]. fold (pure_sweep S ps (pair_step (S (fst p) (snd p)) (fst p) (snd p) st)).
  rewrite IH by (intro; apply Hq; right; auto). rewrite pair_step_z, other_pair; [reflexivity|]. intros ->. apply Hq. left; reflexivity.
Qed.
Lemma sweep_idle S j ps : NoDup ps -> (forall p, In p ps -> (fst p < snd p)%nat) -> forall st, (forall p, In p ps -> zat (pure_sweep S ps st) p j = zat st p j) ->
  (forall i, col (pure_sweep S ps st) j i = col st j i) /\ forall p, In p ps -> zat st p j = xdtilde (S (fst p) (snd p)) (col st j (snd p) - col st j (fst p) + zat st p j).
Proof.
  intros HN. induction HN as [|p ps Hp HN IH]; intros Hlt st Hz; [split; [reflexivity|intros ? []]|].
  unfold pure_sweep in Hz |- *. cbn [fold_left] in Hz |- *. set (st1 := pair_step (S (fst p) (snd p)) (fst p) (snd p) st) in *. fold (pure_sweep S ps st1) in Hz |- *.
  assert (Hz1 : zat st1 p j = zat st p j). { rewrite <- (Hz p (or_introl eq_refl)). symmetry. apply sweep_z_out. exact Hp. }
  assert (Hc : forall i, col st1 j i = col st j i) by (apply pair_step_idle; [apply Hlt; left; reflexivity|exact Hz1]).
  assert (Hzz : forall q, In q ps -> zat st1 q j = zat st q j). { intros q Hq. unfold st1. rewrite pair_step_z, other_pair; [reflexivity|]. intros ->. contradiction. }
  destruct (IH (fun q Hq => Hlt q (or_intror Hq)) st1) as [Ha Hb]. { intros q Hq. rewrite (Hz q (or_intror Hq)). symmetry. apply Hzz; auto. }
  split; [intro i; rewrite Ha; apply Hc|]. intros q [<-|Hq].
  - rewrite <- Hz1 at 1. destruct (pair_step_col (S (fst p) (snd p)) p st j (Hlt p (or_introl eq_refl))) as [H _]. exact H.
  - rewrite <- (Hzz q Hq) at 1. rewrite (Hb q Hq), !Hc, (Hzz q Hq). reflexivity.
Qed.
Lemma colproj_vi k (K : (nat -> R) -> Prop) u p : K p -> (forall q, K q -> RS k (fun i => (u i - p i) * (q i - p i)) <= 0) -> is_colproj k K u p.
Proof.
  intros Hp H. split; [exact Hp|]. intros q Hq. specialize (H q Hq). unfold sqdist.
  rewrite (RS_ext k (fun i => (u i - q i) * (u i - q i)) (fun i => (u i - p i) * (u i - p i) + (-2) * ((u i - p i) * (q i - p i)) + (q i - p i) * (q i - p i))) by (intros; ring).
  rewrite RS_add, RS_add, RS_scal. assert (0 <= RS k (fun i => (q i - p i) * (q i - p i))) by (apply RS_nonneg; intros; apply Rle_0_sqr). lra.
Qed.
Lemma dual_le0 st ps j y : (forall p, In p ps -> zat st p j * (y (snd p) - y (fst p)) <= 0) -> dual st ps j y <= 0.
Proof. unfold dual. induction ps as [|p l IH]; cbn [map Rsum]; intro H; [lra|]. pose proof (H p (or_introl eq_refl)). specialize (IH (fun q Hq => H q (or_intror Hq))). lra. Qed.
(*! C37_certificate : when the last sweep changes no memory x12 of a column, that column of the result is exactly the projection of the input column on the
   constraints |x_i2 - x_i1| <= S'(i1,i2) for some S' between S and S + 1e-10 *)
Lemma C37_certificate_l : forall k n sg S x, (0 < n)%nat -> length x = (k * n)%nat -> sig_is k sg S -> exists Z : nat -> nat -> nat -> nat -> R, forall niter tol, exists m r, inter_proj k n sg niter tol x = Ok (r, r) /\
    (m <= niter)%nat /\ forall j, (j < n)%nat -> (0 < m)%nat -> (forall i1 i2, (i1 < i2 < k)%nat -> Z m i1 i2 j = Z (m - 1)%nat i1 i2 j) ->
      exists S', (forall i1 i2, (i1 < i2 < k)%nat -> S i1 i2 <= S' i1 i2 <= S i1 i2 + / 10 ^ 10) /\ is_colproj k (Kset k S') (rcol n x j) (rcol n r j).
Proof.
  intros k n sg S x Hn HL HS. exists (fun m => is_z (sweeps k S (start n x) m)). intros niter tol. destruct (inter_run k n sg S x niter tol Hn HL HS) as [m [E1 [Hm _]]].
  exists m, (flat k n (is_x (sweeps k S (start n x) m))). split; [exact E1|]. split; [exact Hm|]. intros j Hj H0 HZ. pose proof eps_pos as He. change (/ 10 ^ 10) with eps.
  destruct m as [|m]; [lia|]. replace (Datatypes.S m - 1)%nat with m in HZ by lia. set (st := sweeps k S (start n x) m) in *. rewrite sweeps_S in *. fold st in HZ |- *.
  destruct (sweep_idle S j (pairs k) (pairs_nodup k) (fun p Hp => proj1 (proj1 (in_pairs k p) Hp)) st) as [Ha Hb]. { intros p Hp. apply (HZ (fst p) (snd p)), in_pairs, Hp. }
  set (u := col st j) in *. assert (Hu : forall i, (i < k)%nat -> rcol n (flat k n (is_x (pure_sweep S (pairs k) st))) j i = u i). { intros i Hi. unfold rcol. rewrite flat_get by auto. apply Ha. }
  assert (HG : forall i1 i2, (i1 < i2 < k)%nat -> let z := zat st (i1, i2) j in (z = 0 /\ Rabs (u i2 - u i1) <= S i1 i2) \/ (S i1 i2 <= Rabs (u i2 - u i1) <= S i1 i2 + eps /\ 0 <= z * (u i2 - u i1))).
  { intros i1 i2 Hi z. pose proof (Hb (i1, i2) (proj2 (in_pairs k (i1, i2)) Hi)) as Hz. cbn [fst snd] in Hz. fold z in Hz. destruct (xd_gap (S i1 i2) (u i2 - u i1 + z) (proj2 (HS i1 i2 Hi))) as [[H1 H2]|[H1 [H2 _]]]; rewrite <- Hz in *; replace (u i2 - u i1 + z - z) with (u i2 - u i1) in * by ring; auto. }
  exists (fun i1 i2 => Rmax (S i1 i2) (Rabs (u i2 - u i1))). split.
  - intros i1 i2 Hi. split; [apply Rmax_l|]. destruct (HG i1 i2 Hi) as [[_ H]|[[_ H] _]]; apply Rmax_lub; lra.
  - apply colproj_vi.
    + intros i1 i2 Hi. rewrite !Hu by lia. apply Rmax_r.
    + intros q Hq. pose proof (sweeps_lin k S n x m j (fun i => q i - u i)) as HD. fold st in HD.
      rewrite (RS_ext k _ (fun i => tab n x i j * (q i - u i) - col st j i * (q i - u i))) by (intros i Hi; unfold rcol at 1; rewrite !Hu by auto; fold u; unfold u; ring).
      rewrite RS_sub. assert (dual st (pairs k) j (fun i => q i - u i) <= 0); [|lra]. apply dual_le0. intros [i1 i2] Hp. apply in_pairs in Hp. cbn [fst snd] in *.
      specialize (Hq i1 i2 Hp). cbv beta in Hq. destruct (HG i1 i2 Hp) as [[H _]|[[H1 H2] H3]]; set (z := zat st (i1, i2) j) in *; [rewrite H; lra|].
      rewrite Rmax_right in Hq by lra. replace (q i2 - u i2 - (q i1 - u i1)) with ((q i2 - q i1) - (u i2 - u i1)) by ring. set (d := u i2 - u i1) in *. set (e := q i2 - q i1) in *.
      destruct (Req_dec z 0) as [->|Hz]; [lra|]. apply abs_le in Hq. destruct (Rle_lt_dec 0 z) as [Hz0|Hz0].
      * assert (0 <= d) by nra. rewrite Rabs_right in Hq by lra. nra.
      * assert (d <= 0) by nra. rewrite Rabs_left1 in Hq by lra. nra.
Qed.

(** ** the last pair, errors, the membership test *)
Lemma pairs_last k : (2 <= k)%nat -> exists ps, pairs k = ps ++ [((k - 2)%nat, (k - 1)%nat)].
Proof.
  intro H. unfold pairs. assert (ES : seq 0 (k - 1) = seq 0 (k - 2) ++ [(k - 2)%nat]) by (replace (k - 1)%nat with (S (k - 2)) by lia; rewrite seq_S; reflexivity). rewrite ES, flat_map_app. cbn [flat_map]. rewrite app_nil_r.
  replace (k - (k - 2 + 1))%nat with 1%nat by lia. cbn [seq map]. eexists. f_equal. do 2 f_equal; lia.
Qed.
(*! C37_last_pair : after at least one sweep, the last pair of rows of every column is at distance at most sigma + 1e-10 *)
Lemma C37_last_pair_l : forall k n sg S x niter tol, (0 < n)%nat -> (2 <= k)%nat -> (0 < niter)%nat -> length x = (k * n)%nat -> sig_is k sg S ->
  exists r, inter_proj k n sg niter tol x = Ok (r, r) /\ forall j, (j < n)%nat -> Rabs (rcol n r j (k - 1) - rcol n r j (k - 2)) <= S (k - 2)%nat (k - 1)%nat + / 10 ^ 10.
Proof.
  intros k n sg S x niter tol Hn Hk Hni HL HS. destruct (inter_run k n sg S x niter tol Hn HL HS) as [m [E1 [_ [_ Hm]]]]. eexists. split; [exact E1|]. intros j Hj.
  destruct m as [|m]; [lia|]. unfold rcol. rewrite !flat_get by lia. rewrite sweeps_S. destruct (pairs_last k Hk) as [ps ->]. unfold pure_sweep. rewrite fold_left_app. cbn [fold_left]. fold (pure_sweep S ps (sweeps k S (start n x) m)).
  set (st := pure_sweep S ps _). set (p := ((k - 2)%nat, (k - 1)%nat)). destruct (pair_step_col (S (fst p) (snd p)) p st j ltac:(simpl; lia)) as (H1 & H2 & H3 & _).
  set (st' := pair_step _ _ _ st) in *. change (is_x st' (k - 1)%nat j) with (col st' j (snd p)). change (is_x st' (k - 2)%nat j) with (col st' j (fst p)). rewrite H2, H3.
  set (z' := zat st' p j) in *. set (z := zat st p j) in *. set (a := col st j (fst p)) in *. set (b := col st j (snd p)) in *. replace (b - / 2 * (z' - z) - (a + / 2 * (z' - z))) with ((b - a + z) - z') by field.
  pose proof eps_pos as He. change (/ 10 ^ 10) with eps. rewrite H1. destruct (xd_gap (S (fst p) (snd p)) (b - a + z) (proj2 (HS (k - 2)%nat (k - 1)%nat ltac:(lia)))) as [[_ H]|[[_ H] _]]; unfold p in *; cbn [fst snd] in *; lra.
Qed.
(*! C37_errors : a wrong number of entries raises ValueError; no columns raise ValueError as soon as one sweep runs; a sigma matrix without the entry of a pair raises
   IndexError; a non-positive tau raises ValueError and a positive one has no influence *)
Lemma C37_errors_l : forall k n sg niter tol x,
  (length x <> (k * n)%nat -> inter_proj k n sg niter tol x = Err ValueError) /\
  (forall S, sig_is k sg S -> (0 < niter)%nat -> inter_proj k 0 sg niter tol [] = Err ValueError) /\
  (length x = (k * n)%nat -> (0 < niter)%nat -> sig_at k sg 0 1 = Err IndexError -> (2 <= k)%nat -> inter_proj k n sg niter tol x = Err IndexError) /\
  (forall tau, tau <= 0 -> inter_prox k n sg niter tol x tau = Err ValueError) /\ (forall tau, 0 < tau -> inter_prox k n sg niter tol x tau = inter_proj k n sg niter tol x).
Proof.
  intros k n sg niter tol x. split; [|split; [|split; [|split]]].
  - intro H. unfold inter_proj. destruct (Nat.eqb_spec (length x) (k * n)); [contradiction|reflexivity].
  - intros S HS Hn. unfold inter_proj. cbn [length]. rewrite Nat.mul_0_r. cbn [Nat.eqb]. destruct niter as [|niter]; [lia|]. cbn [for_loop]. unfold inter_body at 1. rewrite (pair_loop_pure k sg S) by (auto; intro p; apply in_pairs). reflexivity.
  - intros HL Hn Hs Hk. unfold inter_proj. rewrite HL, Nat.eqb_refl. destruct niter as [|niter]; [lia|]. cbn [for_loop]. unfold inter_body at 1.
    assert (EP : exists l, pairs k = (0%nat, 1%nat) :: l). { unfold pairs. destruct k as [|[|k]]; try lia. cbn [Nat.sub seq flat_map]. replace (S k - 0)%nat with (S k) by lia. cbn [Nat.add seq map app]. eexists. reflexivity. }
    destruct EP as [l ->]. cbn [pair_loop]. rewrite Hs. reflexivity.
  - intros tau Ht. unfold inter_prox. destruct (Rleb_spec tau 0) as [[_ ->]|[? _]]; [reflexivity|lra].
  - intros tau Ht. unfold inter_prox. destruct (Rleb_spec tau 0) as [[? _]|[_ ->]]; [lra|reflexivity].
Qed.
Lemma check_spec k sg S tolc u ps : sig_is k sg S -> (forall p, In p ps -> (fst p < snd p < k)%nat) -> exists b, inter_check k sg tolc u ps = Ok b /\ (b = true <-> forall p, In p ps -> Rabs (u (snd p) - u (fst p)) <= S (fst p) (snd p) + tolc).
Proof.
  intros HS. induction ps as [|[i1 i2] ps IH]; intro Hp; [exists true; split; [reflexivity|split; [intros _ ? []|reflexivity]]|]. cbn [inter_check].
  destruct (HS i1 i2 (Hp (i1, i2) (or_introl eq_refl))) as [-> _]. cbn [bind]. destruct (Rltb_spec (S i1 i2 + tolc) (Rabs (u i1 - u i2))) as [[H ->]|[H ->]].
  - exists false. split; [reflexivity|]. split; [discriminate|]. intro HH. specialize (HH (i1, i2) (or_introl eq_refl)). cbn [fst snd] in HH. rewrite Rabs_minus_sym in HH. lra.
  - destruct IH as [b [E1 H1]]; [intros p H2; apply Hp; right; exact H2|]. exists b. split; [exact E1|]. rewrite H1. split; [|intros HH p H2; apply HH; right; exact H2]. intros HH p [<-|H2]; [cbn [fst snd]; rewrite Rabs_minus_sym; exact H|auto].
Qed.
(*! C37_call : Intersection(x) with call=True is True exactly when every pair of rows of every column is within sigma plus the tolerance; with call=False it is always False *)
Lemma C37_call_l : forall k n sg S tolc x, length x = (k * n)%nat -> sig_is k sg S ->
  (exists b, inter_call true k n sg tolc x = Ok b /\ (b = true <-> forall j, (j < n)%nat -> Kset k (fun i1 i2 => S i1 i2 + tolc) (rcol n x j))) /\ inter_call false k n sg tolc x = Ok false.
Proof.
  intros k n sg S tolc x HL HS. split; [|reflexivity]. unfold inter_call. rewrite HL, Nat.eqb_refl.
  assert (G : forall js, exists b, inter_cols k sg tolc (tab n x) js = Ok b /\ (b = true <-> forall j, In j js -> Kset k (fun i1 i2 => S i1 i2 + tolc) (rcol n x j))).
  { induction js as [|j js [b [E1 H1]]]; [exists true; split; [reflexivity|split; [intros _ ? []|reflexivity]]|]. cbn [inter_cols].
    destruct (check_spec k sg S tolc (fun i => tab n x i j) (pairs k) HS (fun p => proj1 (in_pairs k p))) as [c [-> Hc]]. cbn [bind].
    assert (EK : c = true <-> Kset k (fun i1 i2 => S i1 i2 + tolc) (rcol n x j)). { rewrite Hc. split; [intros H i1 i2 Hi; apply (H (i1, i2)), in_pairs, Hi|intros H p Hp; apply H, in_pairs, Hp]. }
    destruct c.
    - exists b. split; [exact E1|]. rewrite H1. split; [intros H a [<-|Ha]; [apply EK; reflexivity|auto]|intros H a Ha; apply H; right; exact Ha].
    - exists false. split; [reflexivity|]. split; [discriminate|]. intro H. apply EK, H. left. reflexivity. }
  destruct (G (seq 0 n)) as [b [E1 H1]]. exists b. split; [exact E1|]. rewrite H1. split; intros H j Hj; apply H; [apply in_seq; lia|apply in_seq in Hj; lia].
Qed.

(** ** refutations *)
Lemma sig_num k s : 0 <= s -> sig_is k (SigNum s) (fun _ _ => s).
Proof. intros Hs i1 i2 Hi. split; [|exact Hs]. unfold sig_at. destruct (Nat.ltb_spec i1 k); [|lia]. destruct (Nat.ltb_spec i2 k); [reflexivity|lia]. Qed.
Lemma two_sweep m : (0 < m)%nat -> let d := / (1 + eps) in let st := sweeps 2 (fun _ _ => 0) (start 1 [0; 1]) m in is_x st 0%nat 0%nat = d / 2 /\ is_x st 1%nat 0%nat = 1 - d / 2 /\ is_z st 0%nat 1%nat 0%nat = d.
Proof.
  intros Hm d. pose proof eps_pos as He.
  assert (H1 : xdtilde 0 1 = d). { rewrite xd_out by (rewrite Rabs_R1; lra). rewrite Rabs_R1. unfold d. field. lra. }
  assert (HS : forall st, is_x st 1%nat 0%nat - is_x st 0%nat 0%nat + is_z st 0%nat 1%nat 0%nat = 1 -> is_x st 0%nat 0%nat - is_z st 0%nat 1%nat 0%nat / 2 = 0 -> is_x st 1%nat 0%nat + is_z st 0%nat 1%nat 0%nat / 2 = 1 -> let st' := pure_sweep (fun _ _ => 0) (pairs 2) st in is_x st' 0%nat 0%nat = d / 2 /\ is_x st' 1%nat 0%nat = 1 - d / 2 /\ is_z st' 0%nat 1%nat 0%nat = d).
  { intros st Ha Hb Hc. change (pairs 2) with [(0%nat, 1%nat)]. unfold pure_sweep, pair_step, put. cbn [fold_left fst snd is_x is_z Nat.eqb]. rewrite Ha, H1. split; [lra|]. split; [lra|reflexivity]. }
  destruct m as [|m]; [lia|]. clear Hm. induction m as [|m IH]; intro st; unfold st; rewrite sweeps_S; apply HS.
  1,2,3: unfold sweeps, start, tab; cbn; lra. all: destruct IH as (H2 & H3 & H4); rewrite ?H2, ?H3, ?H4; lra.
Qed.
(*! C37_exact_refuted : the result need not satisfy the constraints, even for one pair of rows: with sigma = 0 the two entries of (0, 1) never become equal, whatever the number of sweeps and the
   tolerance; and the array passed by the caller is overwritten *)
Lemma C37_exact_refuted_l : forall niter tol, (0 < niter)%nat -> exists r, inter_proj 2 1 (SigNum 0) niter tol [0; 1] = Ok (r, r) /\ rcol 1 r 0 1 - rcol 1 r 0 0 = / 10 ^ 10 / (1 + / 10 ^ 10) /\ ~ Kset 2 (fun _ _ => 0) (rcol 1 r 0) /\ r <> [0; 1].
Proof.
  intros niter tol Hn. destruct (inter_run 2 1 (SigNum 0) (fun _ _ => 0) [0; 1] niter tol ltac:(lia) eq_refl (sig_num 2 0 (Rle_refl 0))) as [m [E1 [_ [_ Hm]]]]. eexists. split; [exact E1|].
  destruct (two_sweep m ltac:(lia)) as (H2 & H3 & _). set (st := sweeps _ _ _ m) in *. pose proof eps_pos as He.
  assert (EX : rcol 1 (flat 2 1 (is_x st)) 0 1 - rcol 1 (flat 2 1 (is_x st)) 0 0 = eps / (1 + eps)). { unfold rcol. rewrite !flat_get by lia. rewrite H2, H3. field. lra. }
  split; [exact EX|]. assert (0 < eps / (1 + eps)) by (apply Rdiv_lt_0_compat; lra). split.
  - intro HK. specialize (HK 0%nat 1%nat ltac:(lia)). rewrite EX, Rabs_right in HK by lra. lra.
  - change (flat 2 1 (is_x st)) with [is_x st 0%nat 0%nat; is_x st 1%nat 0%nat]. rewrite H2. intro HH. injection HH as HH _. assert (0 < / (1 + eps)) by (apply Rinv_0_lt_compat; lra). lra.
Qed.

Definition stall_S (i1 i2 : nat) : R := match i1, i2 with 0%nat, 1%nat => 12 | 0%nat, 2%nat => 24 | _, _ => 0 end.
Lemma stall_is : sig_is 3 stall_sigma stall_S.
Proof. intros i1 i2 Hi. destruct i1 as [|[|[|i1]]], i2 as [|[|[|i2]]]; try lia; split; try reflexivity; simpl; lra. Qed.
(** one sweep of a single column with three rows *)
Lemma sweep3 S st x0 x1 x2 a b c : is_x st 0%nat 0%nat = x0 -> is_x st 1%nat 0%nat = x1 -> is_x st 2%nat 0%nat = x2 -> is_z st 0%nat 1%nat 0%nat = a -> is_z st 0%nat 2%nat 0%nat = b -> is_z st 1%nat 2%nat 0%nat = c ->
  exists a' b' c', a' = xdtilde (S 0%nat 1%nat) (x1 - x0 + a) /\ b' = xdtilde (S 0%nat 2%nat) (x2 - (x0 + / 2 * (a' - a)) + b) /\ c' = xdtilde (S 1%nat 2%nat) ((x2 - / 2 * (b' - b)) - (x1 - / 2 * (a' - a)) + c) /\
    let st' := pure_sweep S (pairs 3) st in is_x st' 0%nat 0%nat = x0 + / 2 * (a' - a) + / 2 * (b' - b) /\ is_x st' 1%nat 0%nat = x1 - / 2 * (a' - a) + / 2 * (c' - c) /\ is_x st' 2%nat 0%nat = x2 - / 2 * (b' - b) - / 2 * (c' - c) /\
      is_z st' 0%nat 1%nat 0%nat = a' /\ is_z st' 0%nat 2%nat 0%nat = b' /\ is_z st' 1%nat 2%nat 0%nat = c'.
Proof.
  intros <- <- <- <- <- <-. do 3 eexists. split; [reflexivity|]. split; [reflexivity|]. split; [reflexivity|]. change (pairs 3) with [(0%nat, 1%nat); (0%nat, 2%nat); (1%nat, 2%nat)].
  unfold pure_sweep, pair_step, put. cbn [fold_left fst snd is_x is_z Nat.eqb]. repeat split; reflexivity.
Qed.
(*! C37_stop_refuted : the stopping test can end the loop far from the projection: for the column (-10, -3, 44) with sigma_12 = 12, sigma_13 = 24 and sigma_23 = 0, and the default tolerance 1e-5,
   the loop stops after its third sweep, at a point where the first two rows differ by more than 19.9 although the constraint is 12 *)
Lemma C37_stop_refuted_l : forall niter, (3 <= niter)%nat -> exists r, inter_proj 3 1 stall_sigma niter (/ 10 ^ 5) [-10; -3; 44] = Ok (r, r) /\ 19.9 < rcol 1 r 0 1 - rcol 1 r 0 0 /\ sig_at 3 stall_sigma 0 1 = Ok 12.
Proof.
  intros niter Hn. destruct (inter_run 3 1 stall_sigma stall_S [-10; -3; 44] niter (/ 10 ^ 5) ltac:(lia) eq_refl stall_is) as [m [E1 Hm]]. eexists. split; [exact E1|]. split; [|reflexivity].
  set (st := sweeps 3 stall_S (start 1 [-10; -3; 44])) in *. pose proof eps_pos as He. assert (He2 : eps = / 10 ^ 10) by reflexivity.
  assert (He3 : eps < / 1000000000) by (rewrite He2; apply Rinv_lt_contravar; lra). clear He2.
  destruct (sweep3 stall_S (st 0%nat) (-10) (-3) 44 0 0 0 eq_refl eq_refl eq_refl eq_refl eq_refl eq_refl) as (a1 & b1 & c1 & Ea1 & Eb1 & Ec1 & X1 & Y1 & W1 & A1 & B1 & C1).
  unfold st in X1, Y1, W1, A1, B1, C1. rewrite <- sweeps_S in X1, Y1, W1, A1, B1, C1. fold st in X1, Y1, W1, A1, B1, C1.
  destruct (sweep3 stall_S (st 1%nat) _ _ _ _ _ _ X1 Y1 W1 A1 B1 C1) as (a2 & b2 & c2 & Ea2 & Eb2 & Ec2 & X2 & Y2 & W2 & A2 & B2 & C2).
  unfold st in X2, Y2, W2, A2, B2, C2. rewrite <- sweeps_S in X2, Y2, W2, A2, B2, C2. fold st in X2, Y2, W2, A2, B2, C2.
  destruct (sweep3 stall_S (st 2%nat) _ _ _ _ _ _ X2 Y2 W2 A2 B2 C2) as (a3 & b3 & c3 & Ea3 & Eb3 & Ec3 & X3 & Y3 & W3 & A3 & B3 & C3).
  unfold st in X3, Y3, W3, A3, B3, C3. rewrite <- sweeps_S in X3, Y3, W3, A3, B3, C3. fold st in X3, Y3, W3, A3, B3, C3.
  cbn [stall_S] in *.
  rewrite xd_zero in Ea1 by (rewrite Rabs_right; lra). subst a1.
  assert (N : forall s t d, d = xdtilde s t -> 0 <= s -> s < t -> t - s - eps <= d <= t - s) by (intros s t d -> H1 H2; apply xd_near; auto).
  apply N in Eb1; [|lra|lra]. apply N in Ec1; [|lra|lra].
  rewrite xd_zero in Ea2 by (rewrite Rabs_right; lra). subst a2. apply N in Eb2; [|lra|lra]. apply N in Ec2; [|lra|lra].
  apply N in Ea3; [|lra|lra]. apply N in Eb3; [|lra|lra]. apply N in Ec3; [|lra|lra].
  assert (HT : / 10 ^ 5 = 0.00001) by lra.
  assert (NS : forall j, (j = 1 \/ j = 2)%nat -> ~ cols_small 3 1 (/ 10 ^ 5) st j).
  { intros j Hj HC. specialize (HC 0%nat ltac:(lia)). unfold col in HC. cbn [RS] in HC. destruct Hj as [->| ->]; cbn [Nat.sub] in HC.
    - rewrite X1, Y1, W1 in HC. change (is_x (st 0%nat) 0%nat 0%nat) with (-10) in HC. change (is_x (st 0%nat) 1%nat 0%nat) with (-3) in HC. change (is_x (st 0%nat) 2%nat 0%nat) with 44 in HC.
      match type of HC with 0 + Rabs ?p + Rabs ?q + Rabs ?r < _ => pose proof (Rle_abs p); pose proof (Rabs_pos q); pose proof (Rabs_pos r) end. lra.
    - rewrite X1, Y1, W1, X2, Y2, W2 in HC. match type of HC with 0 + Rabs ?p + Rabs ?q + Rabs ?r < _ => pose proof (Rle_abs (- p)) as HP; rewrite Rabs_Ropp in HP; pose proof (Rabs_pos q); pose proof (Rabs_pos r) end. lra. }
  assert (YS : cols_small 3 1 (/ 10 ^ 5) st 3).
  { intros j Hj. replace j with 0%nat by lia. unfold col. cbn [RS Nat.sub]. rewrite X2, Y2, W2, X3, Y3, W3.
    assert (AB : forall v b, - b < v < b -> Rabs v < b) by (intros v b Hv; apply Rabs_def1; lra).
    match goal with |- 0 + Rabs ?p + Rabs ?q + Rabs ?r < _ => assert (Rabs p < 0.000002) by (apply AB; lra); assert (Rabs q < 0.000002) by (apply AB; lra); assert (Rabs r < 0.000002) by (apply AB; lra) end. lra. }
  assert (Em : m = 3%nat). { destruct Hm as [Hm1 [Hm2 Hm3]]. destruct (Nat.lt_ge_cases 3 m) as [H|H]; [exfalso; apply (Hm2 3%nat); auto; lia|]. destruct Hm3 as [->|[H1 H2]]; [lia|].
    destruct (Nat.eq_dec m 3); [auto|]. exfalso. apply (NS m); [lia|auto]. }
  subst m. unfold rcol. rewrite !flat_get by lia. rewrite X3, Y3. lra.
Qed.

(*!ex C37_example : three rows and two columns: the hypotheses hold, the input is infeasible and the column sums 6 and 2 are kept by any number of sweeps *)
Lemma C37_example_l : sig_is 3 (SigNum 1) (fun _ _ => 1) /\ ~ Kset 3 (fun _ _ => 1) (rcol 2 [1; 0; 5; 1; 0; 1] 0) /\
  forall niter tol, exists r, inter_proj 3 2 (SigNum 1) niter tol [1; 0; 5; 1; 0; 1] = Ok (r, r) /\ RS 3 (rcol 2 r 0) = 6 /\ RS 3 (rcol 2 r 1) = 2.
Proof.
  split; [apply sig_num; lra|]. split.
  - intro H. specialize (H 0%nat 1%nat ltac:(lia)). unfold rcol, tab in H. cbn in H. rewrite Rabs_right in H; lra.
  - intros niter tol. destruct (C37_sums_l 3 2 (SigNum 1) (fun _ _ => 1) [1; 0; 5; 1; 0; 1] ltac:(lia) eq_refl (sig_num 3 1 ltac:(lra))) as [st [_ H]].
    destruct (H niter tol) as (m & r & E1 & _ & _ & _ & HS). exists r. split; [exact E1|]. rewrite !HS by lia. unfold rcol, tab. cbn. split; lra.
Qed.
