(** Property theorems for Proj2: statements only; every proof is [exact] a lemma of P_Proj2.v.
    Generated from the tagged lemmas of that file. *)
From Verif Require Import Base Space Spec SpecOps ConvexFacts M_ProxOp M_L1 P_L1 MatFacts VSum M_Proj P_Proj SeqFacts.
From Coq Require Import Psatz.
From Verif Require Import S_Proj2.
From Verif Require Import P_Proj2.
Open Scope result_scope.


(** Simplex projection, all lengths, inputs and radius: whenever it returns y, y_i = max(x_i -
    mu, 0) for one mu, so all entries are >= 0, and with p the Euclidean projection of x on
    {sum = radius, entries >= 0} and e = xtol + rtol max(1, 2 sum_i |p_i - x_i|), the sum is
    within n e of the radius and y is within sqrt n e of p *)
Theorem C23_simplex : forall n radius maxiter xtol fuel (x y : Vec n), simplex_proj radius maxiter xtol fuel x = Ok y ->
  exists p, is_proj (simplex_set radius) x p /\ (exists mu, forall i, (i < n)%nat -> get y i = Rmax (get x i - mu) 0) /\
    let e := xtol + bisect_rtol * Rmax 1 (2 * RS n (fun i => Rabs (get p i - get x i))) in
    Rabs (RS n (get y) - radius) <= INR n * e /\ norm (y [-] p) <= e * sqrt (INR n).
Proof. exact C23_simplex_l. Qed.
Print Assumptions C23_simplex.

(** for n >= 1 and radius >= 0 the Simplex projection returns for every x once maxiter covers
    the bracket; for radius < 0 it never returns *)
Theorem C23_simplex_runs : forall n radius (x : Vec n), (0 < n)%nat ->
  (0 <= radius -> exists N, forall fuel, (N <= fuel)%nat -> exists w, forall xtol maxiter, 0 < xtol -> (0 < maxiter)%nat -> w < xtol * 2 ^ maxiter ->
     exists y, simplex_proj radius maxiter xtol fuel x = Ok y) /\
  (radius < 0 -> forall maxiter xtol fuel, simplex_proj radius maxiter xtol fuel x = Err Diverges).
Proof. exact C23_simplex_runs_l. Qed.
Print Assumptions C23_simplex_runs.

(** the numba engine, any length, input, 0 < ftol and radius <= 1e10, within the bracket [lo,
    hi]: whenever it returns y, y is within max(ftol, sqrt n max(xtol, (hi - lo)/2^maxiter))
    of the Euclidean projection on the simplex *)
Theorem C23_simplex_numba : forall n radius maxiter ftol xtol fuel (x y : Vec n) lo hi, radius <= 10 ^ 10 -> 0 < ftol ->
  hp_bracket (hp_fun (ones n) radius jit_bounds x) fuel = Ok (lo, hi) -> simplex_jit radius maxiter ftol xtol fuel x = Ok y ->
  exists p, is_proj (simplex_set radius) x p /\ norm (y [-] p) <= Rmax ftol (Rmax xtol ((hi - lo) / 2 ^ maxiter) * sqrt (INR n)).
Proof. exact C23_simplex_numba_l. Qed.
Print Assumptions C23_simplex_numba.

(** the numba engine bounds the entries by 1e10, so for radius > n 1e10 it never returns
    although the simplex is not empty *)
Theorem C23_numba_large_radius_refuted : forall n radius (x : Vec n), (0 < n)%nat -> INR n * 10 ^ 10 < radius ->
  (exists z : Vec n, simplex_set radius z) /\ forall maxiter ftol xtol fuel, simplex_jit radius maxiter ftol xtol fuel x = Err Diverges.
Proof. exact C23_numba_large_radius_refuted_l. Qed.
Print Assumptions C23_numba_large_radius_refuted.

(** with dims = (r, c) and tau > 0, Simplex.prox returns y exactly when the one-vector
    projection returns each row of y (axis = 1 or -1) or each column of y (axis = 0) on the
    corresponding row or column of x: every vector is projected, independently, and lands in
    its own place *)
Theorem C23_dims : forall r c (x y : Vec (r * c)) tau, 0 < tau ->
  (forall P, simplex_prox_rows P x tau = Ok y <-> forall i, (i < r)%nat -> P (rowv x i) = Ok (rowv y i)) /\
  (forall P, simplex_prox_cols P x tau = Ok y <-> forall j, (j < c)%nat -> P (colv x j) = Ok (colv y j)).
Proof. exact C23_dims_l. Qed.
Print Assumptions C23_dims.

(** without dims the call of Simplex is membership up to tol *)
Theorem C23_call : forall n radius tol (x : Vec n), simplex_call1 radius tol x = true <-> Rabs (RS n (get x) - radius) <= tol /\ forall i, (i < n)%nat -> 0 <= get x i.
Proof. exact C23_call_l. Qed.
Print Assumptions C23_call.

(** with dims the call only tests the sum from above: the zero matrix is accepted for every
    radius >= 0, although its rows are not on the simplex of a positive radius *)
Theorem C23_call_dims_refuted : forall r c radius tol, (0 < r)%nat -> 0 <= tol -> 0 < radius ->
  simplex_call_rows (r:=r) (c:=c) radius tol vzero = true /\ simplex_call_cols (r:=r) (c:=c) radius tol vzero = true /\ ~ simplex_set radius (rowv (vzero : Vec (r * c)) 0).
Proof. exact C23_call_dims_refuted_l. Qed.
Print Assumptions C23_call_dims_refuted.
