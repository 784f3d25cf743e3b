(** Property theorems for Cuda: statements only; every proof is [exact] a lemma of P_Cuda.v.
    Generated from the tagged lemmas of that file. *)
From Coq Require Import ZArith Psatz FunctionalExtensionality.
From Verif Require Import Base Space Spec SpecOps ConvexFacts M_ProxOp M_L1 P_L1 MatFacts VSum M_Proj P_Proj P_Proj2 M_Opts M_Cuda.
From Verif Require Import P_Cuda.
Open Scope result_scope.


(** dims = (r, c), any positive number of threads per block, 0 < ftol: whatever the order in
    which the threads store and whatever the output memory held before, y is a possible
    result of prox exactly when the sequential numba engine returns y, for axis = 1 or -1
    (rows) and 0 (columns); so the result exists exactly when the sequential one does, and
    is unique *)
Theorem C77_schedule : forall r c axis t radius maxiter ftol xtol fuel (x y : Vec (r * c)) tau y0, (0 < t)%nat -> 0 < ftol -> 0 < tau ->
  (axis = 1%Z \/ axis = (-1)%Z ->
     (cuda_prox axis t radius maxiter ftol xtol fuel x tau y0 y <-> simplex_prox_rows (simplex_jit radius maxiter ftol xtol fuel) x tau = Ok y)) /\
  (axis = 0%Z ->
     (cuda_prox axis t radius maxiter ftol xtol fuel x tau y0 y <-> simplex_prox_cols (simplex_jit radius maxiter ftol xtol fuel) x tau = Ok y)).
Proof. exact C77_schedule_l. Qed.
Print Assumptions C77_schedule.

(** for radius <= 1e10 and within brackets of width at most W, every row (axis = 1 or -1) or
    column (axis = 0) of every possible result is within max(ftol, sqrt n max(xtol,
    W/2^maxiter)) of the Euclidean projection of that row or column on the simplex, n its
    length *)
Theorem C77_exact : forall r c axis t radius maxiter ftol xtol fuel (x y : Vec (r * c)) tau y0 W, (0 < t)%nat -> 0 < ftol -> radius <= 10 ^ 10 ->
  cuda_prox axis t radius maxiter ftol xtol fuel x tau y0 y ->
  (axis = 1%Z \/ axis = (-1)%Z -> (forall i lo hi, (i < r)%nat -> hp_bracket (hp_fun (ones c) radius jit_bounds (rowv x i)) fuel = Ok (lo, hi) -> hi - lo <= W) ->
     forall i, (i < r)%nat -> exists p, is_proj (simplex_set radius) (rowv x i) p /\ norm (rowv y i [-] p) <= Rmax ftol (Rmax xtol (W / 2 ^ maxiter) * sqrt (INR c))) /\
  (axis = 0%Z -> (forall j lo hi, (j < c)%nat -> hp_bracket (hp_fun (ones r) radius jit_bounds (colv x j)) fuel = Ok (lo, hi) -> hi - lo <= W) ->
     forall j, (j < c)%nat -> exists p, is_proj (simplex_set radius) (colv x j) p /\ norm (colv y j [-] p) <= Rmax ftol (Rmax xtol (W / 2 ^ maxiter) * sqrt (INR r))).
Proof. exact C77_exact_l. Qed.
Print Assumptions C77_exact.

(** axis = -2 names the first of two dimensions but is not treated as 0: on a 1 x 2 matrix the
    kernel stores one entry of the row only, and the other entry of the result is whatever
    the output memory held *)
Theorem C77_axis_refuted : forall g, exists (x y : Vec (1 * 2)) y0, cuda_prox (-2)%Z 32 1 100 (/ 10 ^ 8) (/ 10 ^ 8) 10 x 1 y0 y /\ get y 1 = g.
Proof. exact C77_axis_refuted_l. Qed.
Print Assumptions C77_axis_refuted.

(** the rows (1, 1) and (1, 0), radius 1, axis 1, 32 threads per block: whatever the memory
    held, the result is the rows (1/2, 1/2) and (1, 0) and nothing else *)
Example C77_example : forall y0 (y : Vec (2 * 2)),
  cuda_prox 1%Z 32 1 100 (/ 10 ^ 8) (/ 10 ^ 8) 10 (vtab (2 * 2) (fun s => if Nat.eqb s 3 then 0 else 1) : Vec (2 * 2)) 1 y0 y <->
  get y 0 = / 2 /\ get y 1 = / 2 /\ get y 2 = 1 /\ get y 3 = 0.
Proof. exact C77_example_l. Qed.
