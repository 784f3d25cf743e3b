(** * Loops with an early exit, as sequences of states *)
From Verif Require Import Base M_Loop LoopFacts.
Open Scope result_scope.

(** [k] is where a loop of at most n iterations stops when it stops after the
    first iteration j (counted from 1) for which Q j holds. *)
Definition stops_when (Q : nat -> Prop) (n k : nat) : Prop :=
  (k <= n)%nat /\ (forall j, (1 <= j < k)%nat -> ~ Q j) /\ (k = n \/ (1 <= k)%nat /\ Q k).

Lemma loop_states_brk {S} (body : nat -> S -> result (S * bool)) (P : nat -> S -> Prop) (Rel : nat -> S -> S -> bool -> Prop) n s0 :
  P 0%nat s0 ->
  (forall j s, (j < n)%nat -> P j s -> exists s' b, body j s = Ok (s', b) /\ Rel j s s' b /\ P (Datatypes.S j) s') ->
  exists (st : nat -> S) (bs : nat -> bool) k, for_loop body n 0 s0 = Ok (st k, k) /\ st 0%nat = s0 /\ (k <= n)%nat /\ (n <> 0%nat -> (0 < k)%nat) /\
    (forall j, (j <= k)%nat -> P j (st j)) /\
    (forall j, (j < k)%nat -> Rel j (st j) (st (Datatypes.S j)) (bs j)) /\
    (forall j, (Datatypes.S j < k)%nat -> bs j = false) /\
    (k = n \/ exists j, k = Datatypes.S j /\ bs j = true).
Proof.
  intros H0 Hs.
  assert (G : forall m i s, (i + m <= n)%nat -> P i s -> exists st bs k, for_loop body m i s = Ok (st k, k) /\ st i = s /\ (i <= k <= i + m)%nat /\
     (m <> 0%nat -> (i < k)%nat) /\
     (forall j, (i <= j <= k)%nat -> P j (st j)) /\
     (forall j, (i <= j < k)%nat -> Rel j (st j) (st (Datatypes.S j)) (bs j)) /\
     (forall j, (i <= j)%nat -> (Datatypes.S j < k)%nat -> bs j = false) /\
     (k = (i + m)%nat \/ exists j, (i <= j)%nat /\ k = Datatypes.S j /\ bs j = true)).
  { induction m as [|m IH]; intros i s Hm Hi.
    - exists (fun _ => s), (fun _ => false), i. split; [reflexivity|]. split; [reflexivity|]. split; [lia|]. split; [lia|].
      split; [intros j Hj; replace j with i by lia; auto|]. split; [intros; lia|]. split; [intros; lia|]. left; lia.
    - destruct (Hs i s ltac:(lia) Hi) as [s1 [b [E1 [R1 P1]]]]. cbn [for_loop]. rewrite E1. cbn [bind snd fst]. destruct b.
      + exists (fun j => if Nat.eqb j i then s else s1), (fun _ => true), (Datatypes.S i).
        assert (Hne : Nat.eqb (Datatypes.S i) i = false) by (apply Nat.eqb_neq; lia).
        split; [rewrite Hne; reflexivity|]. split; [rewrite Nat.eqb_refl; reflexivity|]. split; [lia|]. split; [lia|].
        split. { intros j Hj. destruct (Nat.eqb_spec j i) as [->|]; auto. replace j with (Datatypes.S i) by lia. auto. }
        split. { intros j Hj. replace j with i by lia. rewrite Nat.eqb_refl, Hne. auto. }
        split; [intros; lia|]. right. exists i. auto.
      + destruct (IH (Datatypes.S i) s1 ltac:(lia) P1) as [st [bs [k [E2 [S1 [Hk [Hk0 [HP [HR [Hf Hl]]]]]]]]]].
        exists (fun j => if Nat.eqb j i then s else st j), (fun j => if Nat.eqb j i then false else bs j), k.
        assert (Hki : Nat.eqb k i = false) by (apply Nat.eqb_neq; lia).
        split; [rewrite Hki; exact E2|]. split; [rewrite Nat.eqb_refl; reflexivity|]. split; [lia|]. split; [lia|].
        split. { intros j Hj. destruct (Nat.eqb_spec j i) as [->|]; auto. apply HP. lia. }
        split. { intros j Hj. destruct (Nat.eqb_spec (Datatypes.S j) i) as [?|_]; [lia|]. destruct (Nat.eqb_spec j i) as [->|]; [rewrite S1; auto|]. apply HR. lia. }
        split. { intros j Hj1 Hj2. destruct (Nat.eqb_spec j i) as [->|]; auto. apply Hf; lia. }
        destruct Hl as [Hl|[j [Hl0 [Hl1 Hl2]]]]; [left; lia|]. right. exists j. split; [lia|]. split; auto. destruct (Nat.eqb_spec j i) as [->|]; auto.
        lia. }
  destruct (G n 0%nat s0 ltac:(lia) H0) as [st [bs [k [E1 [S0 [Hk [Hk0 [HP [HR [Hf Hl]]]]]]]]]].
  exists st, bs, k. split; [exact E1|]. split; [exact S0|]. split; [lia|]. split; [exact Hk0|]. split; [intros; apply HP; lia|].
  split; [intros; apply HR; lia|]. split; [intros; apply Hf; lia|]. destruct Hl as [Hl|[j [_ Hl]]]; [left; exact Hl|right; exists j; exact Hl].
Qed.

Lemma stops_when_intro (Q : nat -> Prop) (bs : nat -> bool) n k :
  (k <= n)%nat -> (forall j, (j < k)%nat -> (bs j = true <-> Q (S j))) -> (forall j, (S j < k)%nat -> bs j = false) ->
  (k = n \/ exists j, k = S j /\ bs j = true) -> stops_when Q n k.
Proof.
  intros Hk Hq Hf Hl. split; auto. split.
  - intros j Hj HQ. destruct j as [|j]; [lia|]. apply (Hq j ltac:(lia)) in HQ. rewrite Hf in HQ by lia. discriminate.
  - destruct Hl as [Hl|[j [-> Hl]]]; auto. right. split; [lia|]. apply Hq; auto.
Qed.
