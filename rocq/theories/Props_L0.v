(** Property theorems for L0: statements only; every proof is [exact] a lemma of P_L0.v.
    Generated from the tagged lemmas of that file. *)
From Coq Require Import ZArith Permutation Sorted Psatz.
From Verif Require Import Base Space Spec SpecOps ConvexFacts M_ProxOp MatFacts VSum M_Proj M_L0 P_Proj2.
From Verif Require Import S_L0.
From Verif Require Import P_L0.
Open Scope result_scope.


(** every positive radius (int or callable), length and input, whatever sorting permutation
    argsort picks among ties: L0Ball.prox at counter k uses radius(k+1), returns a Euclidean
    projection of x on {at most radius non-zeros}, and the next call accepts the result; tau
    <= 0 raises ValueError and still advances the counter *)
Theorem C25_l0 : forall argsort, argsort_ok argsort -> forall n (rad : nat -> Z) count (x : Vec n) tau,
  (0 < tau -> (0 < rad (S count))%Z -> exists y, l0ball_prox argsort rad count x tau = (S count, Ok y) /\
    is_proj (l0_ball (Z.to_nat (rad (S count)))) x y /\ l0ball_call rad (S count) y = true) /\
  (tau <= 0 -> l0ball_prox argsort rad count x tau = (S count, Err ValueError)).
Proof. exact C25_l0_l. Qed.
Print Assumptions C25_l0.

(** with radius 0 the input is returned unchanged, so the result of any non-zero input is
    outside the ball and the operator's own call rejects it *)
Theorem C25_radius_zero_refuted : forall argsort n count (x : Vec n) tau, 0 < tau -> nnz x <> 0%nat ->
  l0ball_prox argsort (fun _ => 0%Z) count x tau = (S count, Ok x) /\ ~ l0_ball 0 x /\ l0ball_call (fun _ => 0%Z) (S count) x = false.
Proof. exact C25_radius_zero_refuted_l. Qed.
Print Assumptions C25_radius_zero_refuted.

(** for every positive radius L10Ball.prox zeroes whole columns, keeps the other columns
    unchanged, leaves at most radius non-zero columns (so its next call accepts), and its
    result is nearest to x in the entrywise L1 distance among all such matrices *)
Theorem C25_l10_feasible : forall argsort, argsort_ok argsort -> forall r c (rad : nat -> Z) count (x : Vec (r * c)) tau, 0 < tau -> (0 < rad (S count))%Z ->
  exists y, l10ball_prox argsort rad count x tau = (S count, Ok y) /\
    (forall j, (j < c)%nat -> col_zero y j \/ forall i, (i < r)%nat -> get y (i * c + j) = get x (i * c + j)) /\
    l10ball_call rad (S count) y = true /\
    forall z : Vec (r * c), (nnz_cols z <= Z.to_nat (rad (S count)))%nat -> RS (r * c) (fun p => Rabs (get y p - get x p)) <= RS (r * c) (fun p => Rabs (get z p - get x p)).
Proof. exact C25_l10_feasible_l. Qed.
Print Assumptions C25_l10_feasible.

(** L10Ball.prox is not the Euclidean projection: for the 2x2 matrix with columns (1,1) and
    (1.9,0) and radius 1 every argsort makes it keep the first column although keeping the
    second is strictly closer *)
Theorem C25_l10_refuted : forall argsort, argsort_ok argsort -> forall count tau, 0 < tau -> exists y,
  l10ball_prox argsort (fun _ => 1%Z) count l10_x tau = (S count, Ok y) /\ nnz_cols l10_z = 1%nat /\ norm (l10_z [-] l10_x) < norm (y [-] l10_x).
Proof. exact C25_l10_refuted_l. Qed.
Print Assumptions C25_l10_refuted.

(** an executable argsort meets the assumption, and (3,1,-2) with radius 2 projects to (3,0,-2) *)
Example C25_example : argsort_ok isort /\
  l0ball_prox isort (fun _ => 2%Z) 0 (vtab 3 (fun p => nth p [3; 1; -2] 0)) 1 = (1%nat, Ok (vtab 3 (fun p => nth p [3; 0; -2] 0))).
Proof. exact C25_example_l. Qed.
