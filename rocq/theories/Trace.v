(** * Stopping rule and callback trace of the iterative solvers *)
From Coq Require Import Psatz.
From Verif Require Import Base Space M_ProxOp M_Loop LoopFacts.
Open Scope result_scope.
Open Scope R_scope.

(** ** Specification vocabulary for iterative methods *)

(** The relative-change test between consecutive objective values; the first
    value is compared with infinity, i.e. the relative change is 1.  A zero previous
    value gives no finite relative change. *)
Definition rel_small (tol : R) (F : nat -> R) (j : nat) : Prop :=
  match j with
  | O => False
  | S O => 1 < tol
  | S (S _ as p) => F p <> 0 /\ Rabs (1 - F (S p) / F p) < tol
  end.

(** [k] is where a run limited to niter iterations stops under a tolerance. *)
Definition stops_at (tol : option R) (F : nat -> R) (niter k : nat) : Prop :=
  match tol with
  | None => k = niter
  | Some tol =>
      (k <= niter)%nat /\ (forall j, (1 <= j < k)%nat -> ~ rel_small tol F j) /\
      (k = niter \/ rel_small tol F k)
  end.

(** What a run with callbacks [tr] and result [x] satisfies: at most niter
    callbacks, the last one received the returned vector, and there are objective values
    (vs (i+1) is the value of the vector given to callback i) under which the run stops
    exactly where the tolerance rule says. *)
Definition trace_ok {X} (tol : option R) (val : nat -> X -> R -> Prop) (niter : nat) (x0 x : X) (tr : list X) : Prop :=
  (List.length tr <= niter)%nat /\ last tr x0 = x /\
  exists vs : nat -> R, (tol <> None -> forall i y, nth_error tr i = Some y -> val i y (vs (S i))) /\
                        stops_at tol vs niter (List.length tr).

Lemma rel_stop_small zd tol F k pf old b :
  rel_stop zd tol pf old = Ok b ->
  (k = 0%nat -> old = None) -> (k <> 0%nat -> old = Some (F k)) -> pf = F (S k) ->
  (b = true <-> rel_small tol F (S k)).
Proof.
  intros H H0 H1 ->. destruct k as [|k].
  - rewrite H0 in H by auto. simpl in H. inversion H. simpl. apply Rltb_true.
  - rewrite H1 in H by auto. unfold rel_stop in H. simpl.
    destruct (Reqb_spec (F (S k)) 0) as [[Hz E]|[Hz E]]; rewrite E in H.
    + destruct zd; inversion H. split; [discriminate|]. intros [? _]; contradiction.
    + inversion H. rewrite Rltb_true. tauto.
Qed.


Lemma trace_run {S X} (body : nat -> S -> result (S * bool)) (getx : S -> X) (gettr : S -> list X) (getv : S -> option R)
  (val : nat -> X -> R -> Prop) (tol : option R) n s0 s k :
  (forall i s s' b, (i < n)%nat -> body i s = Ok (s', b) -> gettr s' = gettr s ++ [getx s'] /\
     match tol with
     | None => b = false
     | Some t => exists v zd, val i (getx s') v /\ getv s' = Some v /\ rel_stop zd t v (getv s) = Ok b
     end) ->
  gettr s0 = [] -> getv s0 = None -> for_loop body n 0 s0 = Ok (s, k) ->
  trace_ok tol val n (getx s0) (getx s) (gettr s) /\ k = List.length (gettr s).
Proof.
  intros Hb Ht0 Hv0 H. destruct (for_loop_exit body n 0 s0 s k H) as [st [S0 [Sk [Hk [Hrun Hlast]]]]].
  assert (Hall : forall j, (j < k)%nat -> exists b, body j (st j) = Ok (st (Datatypes.S j), b) /\
            (b = true -> Datatypes.S j = k) /\ (Datatypes.S j = k -> b = false -> k = n)).
  { intros j Hj. destruct (Nat.eq_dec (Datatypes.S j) k) as [He|He].
    - destruct Hlast as [j' [b [E1 [_ [E2 E3]]]]]; [lia|]. assert (j' = j) by lia. subst j'. exists b. rewrite He. split; [congruence|]. split; auto.
    - exists false. split; [apply Hrun; lia|]. split; [discriminate|]. intros; contradiction. }
  assert (Htr : forall j, (j <= k)%nat -> gettr (st j) = map (fun i => getx (st i)) (seq 1 j)).
  { induction j as [|j IH]; intro Hj; [rewrite S0; auto|]. destruct (Hall j Hj) as [b [E1 _]].
    destruct (Hb j _ _ _ ltac:(lia) E1) as [E2 _]. rewrite E2, IH by lia. rewrite seq_S, map_app. reflexivity. }
  assert (Hlen : List.length (gettr s) = k) by (rewrite <- Sk, Htr, map_length, seq_length by lia; auto).
  split; [|auto]. split; [lia|]. split.
  { rewrite <- Sk, <- S0, Htr by lia. destruct k as [|k]; [reflexivity|]. rewrite seq_S, map_app. simpl. apply last_last. }
  set (vs := fun j => match getv (st j) with Some v => v | None => 0 end). exists vs. rewrite Hlen.
  destruct tol as [t|].
  - assert (Hv : forall j, (j < k)%nat -> val j (getx (st (Datatypes.S j))) (vs (Datatypes.S j)) /\ getv (st (Datatypes.S j)) = Some (vs (Datatypes.S j))).
    { intros j Hj. destruct (Hall j Hj) as [b [E1 _]]. destruct (Hb j _ _ _ ltac:(lia) E1) as [_ [v [zd [E2 [E3 _]]]]].
      unfold vs. rewrite E3. auto. }
    assert (Hst : forall j, (j < k)%nat -> exists b, (b = true <-> rel_small t vs (Datatypes.S j)) /\
              (b = true -> Datatypes.S j = k) /\ (Datatypes.S j = k -> b = false -> k = n)).
    { intros j Hj. destruct (Hall j Hj) as [b [E1 E2]]. exists b. split; [|exact E2].
      destruct (Hb j _ _ _ ltac:(lia) E1) as [_ [v [zd [V1 [V2 V3]]]]]. apply (rel_stop_small zd t vs j v (getv (st j))); auto.
      - intros ->. rewrite S0; auto.
      - intro Hj0. destruct j; [lia|]. apply Hv; lia.
      - unfold vs. rewrite V2. auto. }
    split.
    + intros _ i y Hi. rewrite <- Sk, Htr in Hi by lia.
      assert (Hik : (i < k)%nat). { rewrite <- (seq_length k 1), <- (map_length (fun i => getx (st i))). apply nth_error_Some. congruence. }
      rewrite nth_error_map in Hi. rewrite (nth_error_nth' _ 0%nat), seq_nth in Hi by (rewrite ?seq_length; lia).
      simpl in Hi. injection Hi as <-. apply Hv; auto.
    + split; [lia|]. split.
      * intros j Hj Hr. destruct j; [lia|]. destruct (Hst j ltac:(lia)) as [b [B1 [B2 _]]]. apply B1 in Hr. specialize (B2 Hr). lia.
      * destruct k as [|k]; [left|]. { destruct n; auto. destruct Hlast as [? [? [? _]]]; discriminate. }
        destruct (Hst k ltac:(lia)) as [b [B1 [B2 B3]]]. destruct b; [right; apply B1; auto|left; apply B3; auto].
  - split; [congruence|]. simpl. destruct k as [|k]. { destruct n; auto. destruct Hlast as [? [? [? _]]]; discriminate. }
    destruct (Hall k ltac:(lia)) as [b [E1 [_ B3]]]. destruct (Hb k _ _ _ ltac:(lia) E1) as [_ ->]. apply B3; auto.
Qed.
