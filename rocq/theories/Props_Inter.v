(** Property theorems for Inter: statements only; every proof is [exact] a lemma of P_Inter.v.
    Generated from the tagged lemmas of that file. *)
From Coq Require Import Psatz.
From Verif Require Import Base VSum MatFacts M_Loop LoopFacts LoopFacts2 SeqConv M_Inter.
From Verif Require Import S_Inter.
From Verif Require Import P_Inter.
Open Scope result_scope.
Open Scope R_scope.


(** IntersectionProj terminates after at most niter sweeps, at the first one whose largest
    column change is below tol; the result has the shape of the input and every column keeps
    its sum, whatever niter, tol and the distances *)
Theorem C37_sums : forall k n sg S x, (0 < n)%nat -> length x = (k * n)%nat -> sig_is k sg S ->
  exists st : nat -> list R, st 0%nat = x /\ forall niter tol, exists m r, inter_proj k n sg niter tol x = Ok (r, r) /\ r = st m /\
    stops_when (fun a => forall j, (j < n)%nat -> RS k (fun i => Rabs (rcol n (st a) j i - rcol n (st (a - 1)%nat) j i)) < tol) niter m /\
    length r = length x /\ forall j, (j < n)%nat -> RS k (rcol n r j) = RS k (rcol n x j).
Proof. exact C37_sums_l. Qed.
Print Assumptions C37_sums.

(** an input satisfying every constraint is returned unchanged (and left unchanged), for every
    niter and tol *)
Theorem C37_feasible : forall k n sg S x niter tol, (0 < n)%nat -> length x = (k * n)%nat -> sig_is k sg S -> (forall j, (j < n)%nat -> Kset k S (rcol n x j)) ->
  inter_proj k n sg niter tol x = Ok (x, x).
Proof. exact C37_feasible_l. Qed.
Print Assumptions C37_feasible.

(** when the last sweep changes no memory x12 of a column, that column of the result is exactly
    the projection of the input column on the constraints |x_i2 - x_i1| <= S'(i1,i2) for
    some S' between S and S + 1e-10 *)
Theorem C37_certificate : forall k n sg S x, (0 < n)%nat -> length x = (k * n)%nat -> sig_is k sg S -> exists Z : nat -> nat -> nat -> nat -> R, forall niter tol, exists m r, inter_proj k n sg niter tol x = Ok (r, r) /\
    (m <= niter)%nat /\ forall j, (j < n)%nat -> (0 < m)%nat -> (forall i1 i2, (i1 < i2 < k)%nat -> Z m i1 i2 j = Z (m - 1)%nat i1 i2 j) ->
      exists S', (forall i1 i2, (i1 < i2 < k)%nat -> S i1 i2 <= S' i1 i2 <= S i1 i2 + / 10 ^ 10) /\ is_colproj k (Kset k S') (rcol n x j) (rcol n r j).
Proof. exact C37_certificate_l. Qed.
Print Assumptions C37_certificate.

(** after at least one sweep, the last pair of rows of every column is at distance at most sigma
    + 1e-10 *)
Theorem C37_last_pair : forall k n sg S x niter tol, (0 < n)%nat -> (2 <= k)%nat -> (0 < niter)%nat -> length x = (k * n)%nat -> sig_is k sg S ->
  exists r, inter_proj k n sg niter tol x = Ok (r, r) /\ forall j, (j < n)%nat -> Rabs (rcol n r j (k - 1) - rcol n r j (k - 2)) <= S (k - 2)%nat (k - 1)%nat + / 10 ^ 10.
Proof. exact C37_last_pair_l. Qed.
Print Assumptions C37_last_pair.

(** a wrong number of entries raises ValueError; no columns raise ValueError as soon as one
    sweep runs; a sigma matrix without the entry of a pair raises IndexError; a non-positive
    tau raises ValueError and a positive one has no influence *)
Theorem C37_errors : forall k n sg niter tol x,
  (length x <> (k * n)%nat -> inter_proj k n sg niter tol x = Err ValueError) /\
  (forall S, sig_is k sg S -> (0 < niter)%nat -> inter_proj k 0 sg niter tol [] = Err ValueError) /\
  (length x = (k * n)%nat -> (0 < niter)%nat -> sig_at k sg 0 1 = Err IndexError -> (2 <= k)%nat -> inter_proj k n sg niter tol x = Err IndexError) /\
  (forall tau, tau <= 0 -> inter_prox k n sg niter tol x tau = Err ValueError) /\ (forall tau, 0 < tau -> inter_prox k n sg niter tol x tau = inter_proj k n sg niter tol x).
Proof. exact C37_errors_l. Qed.
Print Assumptions C37_errors.

(** Intersection(x) with call=True is True exactly when every pair of rows of every column is
    within sigma plus the tolerance; with call=False it is always False *)
Theorem C37_call : forall k n sg S tolc x, length x = (k * n)%nat -> sig_is k sg S ->
  (exists b, inter_call true k n sg tolc x = Ok b /\ (b = true <-> forall j, (j < n)%nat -> Kset k (fun i1 i2 => S i1 i2 + tolc) (rcol n x j))) /\ inter_call false k n sg tolc x = Ok false.
Proof. exact C37_call_l. Qed.
Print Assumptions C37_call.

(** the result need not satisfy the constraints, even for one pair of rows: with sigma = 0 the
    two entries of (0, 1) never become equal, whatever the number of sweeps and the
    tolerance; and the array passed by the caller is overwritten *)
Theorem C37_exact_refuted : forall niter tol, (0 < niter)%nat -> exists r, inter_proj 2 1 (SigNum 0) niter tol [0; 1] = Ok (r, r) /\ rcol 1 r 0 1 - rcol 1 r 0 0 = / 10 ^ 10 / (1 + / 10 ^ 10) /\ ~ Kset 2 (fun _ _ => 0) (rcol 1 r 0) /\ r <> [0; 1].
Proof. exact C37_exact_refuted_l. Qed.
Print Assumptions C37_exact_refuted.

(** the stopping test can end the loop far from the projection: for the column (-10, -3, 44)
    with sigma_12 = 12, sigma_13 = 24 and sigma_23 = 0, and the default tolerance 1e-5, the
    loop stops after its third sweep, at a point where the first two rows differ by more
    than 19.9 although the constraint is 12 *)
Theorem C37_stop_refuted : forall niter, (3 <= niter)%nat -> exists r, inter_proj 3 1 stall_sigma niter (/ 10 ^ 5) [-10; -3; 44] = Ok (r, r) /\ 19.9 < rcol 1 r 0 1 - rcol 1 r 0 0 /\ sig_at 3 stall_sigma 0 1 = Ok 12.
Proof. exact C37_stop_refuted_l. Qed.
Print Assumptions C37_stop_refuted.

(** three rows and two columns: the hypotheses hold, the input is infeasible and the column sums
    6 and 2 are kept by any number of sweeps *)
Example C37_example : sig_is 3 (SigNum 1) (fun _ _ => 1) /\ ~ Kset 3 (fun _ _ => 1) (rcol 2 [1; 0; 5; 1; 0; 1] 0) /\
  forall niter tol, exists r, inter_proj 3 2 (SigNum 1) niter tol [1; 0; 5; 1; 0; 1] = Ok (r, r) /\ RS 3 (rcol 2 r 0) = 6 /\ RS 3 (rcol 2 r 1) = 2.
Proof. exact C37_example_l. Qed.
