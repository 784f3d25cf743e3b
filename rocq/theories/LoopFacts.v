(** * Induction principles for [for_loop] *)
From Verif Require Import Base Space M_ProxOp M_Loop.

Section L.
Context {S : Type} (body : nat -> S -> result (S * bool)).

(** An invariant indexed by the number of executed iterations is preserved. *)
Lemma for_loop_inv (P : nat -> S -> Prop) n : forall i s s' k,
  (forall j s s' b, P j s -> body j s = Ok (s', b) -> P (Datatypes.S j) s') ->
  P i s -> for_loop body n i s = Ok (s', k) ->
  P k s' /\ (i <= k <= i + n)%nat /\ (n <> 0%nat -> (i < k)%nat).
Proof.
  induction n as [|n IH]; intros i s s' k Hb Hi H; simpl in H.
  - inversion H; subst. repeat split; auto; try lia.
  - destruct (body i s) as [[s1 b]|e] eqn:Eb; simpl in H; [|discriminate].
    specialize (Hb i s s1 b Hi Eb) as H1.
    destruct b.
    + inversion H; subst. repeat split; auto; lia.
    + destruct (IH _ _ _ _ Hb H1 H) as [H2 [H3 _]]. repeat split; auto; lia.
Qed.

(** If every iteration succeeds from states satisfying P, the loop succeeds. *)
Lemma for_loop_total (P : nat -> S -> Prop) n : forall i s,
  (forall j s, (i <= j < i + n)%nat -> P j s -> exists s' b, body j s = Ok (s', b) /\ P (Datatypes.S j) s') ->
  P i s -> exists s' k, for_loop body n i s = Ok (s', k).
Proof.
  induction n as [|n IH]; intros i s Hb Hi; simpl; [eauto|].
  destruct (Hb i s ltac:(lia) Hi) as [s1 [b [E1 H1]]]. rewrite E1. simpl. destruct b; [eauto|].
  apply IH; auto. intros j s2 Hj. apply Hb. lia.
Qed.

(** Without a break the loop runs exactly n times. *)
Lemma for_loop_count n : forall i s s' k,
  (forall j s s' b, body j s = Ok (s', b) -> b = false) ->
  for_loop body n i s = Ok (s', k) -> k = (i + n)%nat.
Proof.
  induction n as [|n IH]; intros i s s' k Hb H; simpl in H; [inversion H; lia|].
  destruct (body i s) as [[s1 b]|e] eqn:Eb; simpl in H; [|discriminate].
  rewrite (Hb _ _ _ _ Eb) in H. apply IH in H; auto. lia.
Qed.

(** Characterisation of the exit: either all n iterations ran without a break,
    or the last executed one (and only it) requested the break. *)
Lemma for_loop_exit n : forall i s s' k,
  for_loop body n i s = Ok (s', k) ->
  exists states : nat -> S,
    states i = s /\ states k = s' /\ (i <= k <= i + n)%nat /\
    (forall j, (i <= j)%nat -> (Datatypes.S j < k)%nat -> body j (states j) = Ok (states (Datatypes.S j), false)) /\
    (n <> 0%nat -> exists j b, k = Datatypes.S j /\ (i <= j)%nat /\ body j (states j) = Ok (states k, b) /\ (b = false -> k = (i + n)%nat)).
Proof.
  induction n as [|n IH]; intros i s s' k H; simpl in H.
  - inversion H; subst. exists (fun _ => s'). repeat split; try lia; intros; lia.
  - destruct (body i s) as [[s1 b]|e] eqn:Eb; simpl in H; [|discriminate].
    destruct b.
    + inversion H; subst. exists (fun j => if Nat.eqb j i then s else s').
      rewrite Nat.eqb_refl. replace (Nat.eqb (Datatypes.S i) i) with false by (symmetry; apply Nat.eqb_neq; lia).
      repeat split; auto; try lia.
      intros _. exists i, true. rewrite Nat.eqb_refl. repeat split; auto; discriminate.
    + destruct (IH _ _ _ _ H) as [st [H1 [H2 [H3 [H4 H5]]]]].
      exists (fun j => if Nat.eqb j i then s else st j).
      rewrite Nat.eqb_refl. replace (Nat.eqb k i) with false by (symmetry; apply Nat.eqb_neq; lia).
      repeat split; auto; try lia.
      * intros j Hj Hk. replace (Nat.eqb (Datatypes.S j) i) with false by (symmetry; apply Nat.eqb_neq; lia).
        destruct (Nat.eqb_spec j i) as [->|Hne]; [rewrite Eb; congruence|]. apply H4; lia.
      * intros _. destruct n as [|n].
        -- simpl in H. inversion H; subst. exists i, false. rewrite Nat.eqb_refl. repeat split; auto; try lia.
        -- destruct H5 as [j [b [Hk [Hij [Hb Hx]]]]]; [discriminate|]. exists j, b.
           replace (Nat.eqb j i) with false by (symmetry; apply Nat.eqb_neq; lia). repeat split; auto; try lia.
           intro Hf; specialize (Hx Hf); lia.
Qed.
End L.

(** Without breaks and with a pure step the loop is the iterate of the step. *)
Lemma for_loop_iter {S} (body : nat -> S -> result (S * bool)) (step : S -> S) n : forall i s,
  (forall j s, body j s = Ok (step s, false)) ->
  for_loop body n i s = Ok (Base.iter n step s, (i + n)%nat).
Proof.
  induction n as [|n IH]; intros i s Hb; simpl.
  - do 2 f_equal. lia.
  - rewrite Hb. simpl. rewrite IH by auto. do 2 f_equal; try lia.
Qed.

(** Running principle: P holds before each iteration, Q after a break. *)
Lemma for_loop_run {S} (body : nat -> S -> result (S * bool)) (P Q : nat -> S -> Prop) n : forall i s,
  (forall j s, (i <= j < i + n)%nat -> P j s -> exists s' b, body j s = Ok (s', b) /\
     (b = false -> P (Datatypes.S j) s') /\ (b = true -> Q (Datatypes.S j) s')) ->
  P i s -> exists s' k, for_loop body n i s = Ok (s', k) /\ (i <= k <= i + n)%nat /\ (n <> 0%nat -> (i < k)%nat) /\
     ((k = (i + n)%nat /\ P k s') \/ Q k s').
Proof.
  induction n as [|n IH]; intros i s Hb Hi; simpl.
  - exists s, i. repeat split; auto; try lia.
  - destruct (Hb i s ltac:(lia) Hi) as [s1 [b [E1 [H1 H2]]]]. rewrite E1. simpl. destruct b.
    + exists s1, (Datatypes.S i). repeat split; auto; lia.
    + destruct (IH (Datatypes.S i) s1) as [s2 [k [E2 [H3 [_ H4]]]]]; auto.
      { intros j s2 Hj. apply Hb. lia. }
      exists s2, k. repeat split; auto; try lia. destruct H4 as [[H4 H5]|H4]; [left; split; auto; lia | right; auto].
Qed.

(** Runs without breaks, as sequences of states. *)
Lemma loop_states {S} (body : nat -> S -> result (S * bool)) (P : nat -> S -> Prop) (Rel : nat -> S -> S -> Prop) n s0 :
  P 0%nat s0 ->
  (forall j s, (j < n)%nat -> P j s -> exists s', body j s = Ok (s', false) /\ Rel j s s' /\ P (Datatypes.S j) s') ->
  exists st : nat -> S, for_loop body n 0 s0 = Ok (st n, n) /\ st 0%nat = s0 /\ (forall j, (j <= n)%nat -> P j (st j)) /\
    forall j, (j < n)%nat -> Rel j (st j) (st (Datatypes.S j)) /\ body j (st j) = Ok (st (Datatypes.S j), false).
Proof.
  intros H0 Hs.
  assert (G : forall m i s, (i + m <= n)%nat -> P i s -> exists st, for_loop body m i s = Ok (st (i + m)%nat, (i + m)%nat) /\ st i = s /\
     (forall j, (i <= j <= i + m)%nat -> P j (st j)) /\
     forall j, (i <= j < i + m)%nat -> Rel j (st j) (st (Datatypes.S j)) /\ body j (st j) = Ok (st (Datatypes.S j), false)).
  { induction m as [|m IH]; intros i s Hm Hi; simpl.
    - exists (fun _ => s). replace (i + 0)%nat with i by lia. split; [auto|]. split; auto. split; [intros j Hj; replace j with i by lia; auto|intros; lia].
    - destruct (Hs i s ltac:(lia) Hi) as [s1 [E1 [R1 P1]]]. rewrite E1. simpl.
      destruct (IH (Datatypes.S i) s1 ltac:(lia) P1) as [st [E2 [S1 [HP HR]]]].
      replace (Datatypes.S i + m)%nat with (i + Datatypes.S m)%nat in * by lia.
      exists (fun j => if Nat.eqb j i then s else st j).
      rewrite Nat.eqb_refl. replace (Nat.eqb (i + Datatypes.S m) i) with false by (symmetry; apply Nat.eqb_neq; lia).
      split; [exact E2|]. split; auto. split.
      + intros j Hj. destruct (Nat.eqb_spec j i) as [->|]; auto. apply HP; lia.
      + intros j Hj. replace (Nat.eqb (Datatypes.S j) i) with false by (symmetry; apply Nat.eqb_neq; lia).
        destruct (Nat.eqb_spec j i) as [->|]; [rewrite S1; auto|]. apply HR; lia. }
  destruct (G n 0%nat s0 ltac:(lia) H0) as [st [E1 [E2 [E3 E4]]]]. simpl in *. exists st. split; auto. split; auto. split.
  - intros; apply E3; lia.
  - intros; apply E4; lia.
Qed.

(** The trace recorded by appending one entry per iteration. *)
Lemma trace_states {S X} (st : nat -> S) (gettr : S -> list X) (entry : S -> X) n :
  gettr (st 0%nat) = [] -> (forall j, (j < n)%nat -> gettr (st (Datatypes.S j)) = gettr (st j) ++ [entry (st (Datatypes.S j))]) ->
  gettr (st n) = map (fun j => entry (st j)) (seq 1 n).
Proof.
  intros H0 Hs. assert (forall m, (m <= n)%nat -> gettr (st m) = map (fun j => entry (st j)) (seq 1 m)); [|apply H; lia].
  induction m as [|m IH]; intro Hm; [auto|]. rewrite Hs, IH by lia. rewrite seq_S, map_app. reflexivity.
Qed.
