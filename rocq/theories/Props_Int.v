(** Property theorems for Int: statements only; every proof is [exact] a lemma of P_Int.v.
    Generated from the tagged lemmas of that file. *)
From Coq Require Import String Psatz.
From Coq Require Import Rtrigo1 Ratan Rpower.
From Verif Require Import Base Space Spec SpecOps Sep VSum MatFacts ConvexFacts M_ProxOp P_ProxOp M_L1 P_L1 M_Pen P_Pen M_Proj M_Norms M_Loop LoopFacts M_PG M_Split M_Multi M_Dyk M_VStack P_VStack S_Seq Fejer P_Iter M_Int.
From Verif Require Import S_Int.
From Verif Require Import P_Int.
Open Scope result_scope.
Open Scope R_scope.


(** for float arrays the models of this file are the ones of the other properties *)
Theorem C83_float_arrays : forall n,
  (forall alpha, ihuber_body (n:=n) false alpha = sep_body (huber_elem alpha) (huber_pr alpha)) /\
  (forall sigma gamma, ilog_body (n:=n) false sigma gamma = sep_body (log_elem sigma gamma) (log_pr sigma gamma)) /\
  (forall sigma delta, ilog1_body (n:=n) false sigma delta = sep_body (log1_elem delta) (log1_pr sigma delta)) /\
  (forall sigma a, iscad_body (n:=n) false sigma a = sep_body (scad_elem sigma a) (scad_pr sigma a)) /\
  (forall mu, iqec_body (n:=n) false mu = sep_body (qec_elem mu) (qec_pr mu)) /\
  (forall W sigma gamma, ietp_body (n:=n) false W sigma gamma = sep_body (etp_elem sigma gamma) (etp_pr W sigma gamma)) /\
  (forall sigma gamma, igeman_body (n:=n) false sigma gamma = sep_body (geman_elem sigma gamma) (geman_pr sigma gamma)).
Proof. exact C83_float_arrays_l. Qed.
Print Assumptions C83_float_arrays.

(** Huber, Log, Log1, SCAD, QuadraticEnvelopeCard, ETP and Geman applied to an array of
    integers, for all their parameters and every tau > 0: prox returns the vector it returns
    for the same numbers stored as floats with the fractional part of every entry dropped *)
Theorem C83_truncated : forall n fuel,
  (forall alpha, truncates (obj (S fuel) (ihuber_body (n:=n) false alpha)) (obj (S fuel) (ihuber_body true alpha))) /\
  (forall sigma gamma, truncates (obj (S fuel) (ilog_body (n:=n) false sigma gamma)) (obj (S fuel) (ilog_body true sigma gamma))) /\
  (forall sigma delta, truncates (obj (S fuel) (ilog1_body (n:=n) false sigma delta)) (obj (S fuel) (ilog1_body true sigma delta))) /\
  (forall sigma a, truncates (obj (S fuel) (iscad_body (n:=n) false sigma a)) (obj (S fuel) (iscad_body true sigma a))) /\
  (forall mu, truncates (obj (S fuel) (iqec_body (n:=n) false mu)) (obj (S fuel) (iqec_body true mu))) /\
  (forall W sigma gamma, truncates (obj (S fuel) (ietp_body (n:=n) false W sigma gamma)) (obj (S fuel) (ietp_body true W sigma gamma))) /\
  (forall sigma gamma, truncates (obj (S fuel) (igeman_body (n:=n) false sigma gamma)) (obj (S fuel) (igeman_body true sigma gamma))).
Proof. exact C83_truncated_l. Qed.
Print Assumptions C83_truncated.

(** whenever the float version returns the only proximal point of a function, the integer
    version returns the proximal point exactly when that point has integer entries, and is
    less than 1 away from it in every entry otherwise *)
Theorem C83_exact_iff : forall n (f g : Op (Vec n)) phi x tau, truncates f g -> int_vec x -> 0 < tau ->
  (exists p, o_prox f x tau = Ok p /\ is_prox phi tau x p /\ forall p', is_prox phi tau x p' -> p' = p) ->
  exists p q, o_prox g x tau = Ok q /\ is_prox phi tau x p /\ (is_prox phi tau x q <-> int_vec p) /\ forall i, (i < n)%nat -> Rabs (get q i - get p i) < 1.
Proof. exact C83_exact_iff_l. Qed.
Print Assumptions C83_exact_iff.

(** QuadraticEnvelopeCard with mu = 9/2: the integer 2 with tau = 1/2 gives exactly 1, as for
    floats; with tau = 1/4 the float result 5/3 becomes 1 *)
Example C83_exact_example : int_vec (nl [2] : Vec 1) /\ (forall isint, iqec_pr isint (9/2) (1/2) 2 = 1) /\ iqec_pr false (9/2) (1/4) 2 = 5/3 /\ iqec_pr true (9/2) (1/4) 2 = 1.
Proof. exact C83_exact_example_l. Qed.

(** the point returned for integers need not be the best integer point, it can even have a
    larger objective than the input itself: Huber(alpha=1), x = 3, tau = 1/10 gives 2 (the
    proximal point is 29/10) and tau f(2) + (2-3)^2/2 = 13/20, while tau f(3) = 1/4 *)
Theorem C83_worse_than_input_refuted : forall fuel,
  o_prox (obj (S fuel) (ihuber_body (n:=1) true 1)) (nl [3] : Vec 1) (1/10) = Ok (nl [2] : Vec 1) /\
  is_prox (etot (E:=Vec 1) (fun v : Vec 1 => huber_elem 1 (get v 0))) (1/10) (nl [3] : Vec 1) (nl [29/10] : Vec 1) /\
  1/10 * huber_elem 1 2 + (2 - 3) * (2 - 3) / 2 = 13/20 /\ 1/10 * huber_elem 1 3 + (3 - 3) * (3 - 3) / 2 = 1/4.
Proof. exact C83_worse_than_input_refuted_l. Qed.
Print Assumptions C83_worse_than_input_refuted.

(** called on integers, Huber and SCAD add up the entries with their fractional parts dropped:
    Huber(1) of an array of ones is 0 (each term is 1/2), SCAD(1/2, 3) of an array of ones
    is 0 (each term is 7/16) *)
Theorem C83_huber_value_refuted : forall n fuel, let x : Vec n := vtab n (fun _ => 1) in
  o_call (obj fuel (ihuber_body true 1)) x = Ok (VNum 0) /\ o_call (obj fuel (ihuber_body false 1)) x = Ok (VNum (INR n / 2)) /\
  o_call (obj fuel (iscad_body true (1/2) 3)) x = Ok (VNum 0) /\ o_call (obj fuel (iscad_body false (1/2) 3)) x = Ok (VNum (INR n * (7/16))).
Proof. exact C83_huber_value_refuted_l. Qed.
Print Assumptions C83_huber_value_refuted.

(** ProximalPoint with Huber from an array of integers reaches the minimiser 0 exactly, after at
    most max_i |x_i| iterations, for all alpha, tau > 0 *)
Theorem C83_proximal_point_huber : forall n fuel alpha tau (x0 : Vec n) N niter, 0 < alpha -> 0 < tau -> int_vec x0 -> (forall i, (i < n)%nat -> Rabs (get x0 i) <= INR N) -> (N <= niter)%nat ->
  exists tr, ProximalPoint (obj (S fuel) (ihuber_body true alpha)) x0 tau niter None = Ok (vzero, tr).
Proof. exact C83_proximal_point_huber_l. Qed.
Print Assumptions C83_proximal_point_huber.

(** from the integers 3 and -2 with alpha = tau = 1, three iterations give 0 *)
Example C83_proximal_point_example : exists tr, ProximalPoint (obj 1 (ihuber_body true 1)) (nl [3; -2] : Vec 2) 1 3 None = Ok (vzero, tr).
Proof. exact C83_proximal_point_example_l. Qed.

(** Simplex with dims on integers, either axis: whatever the projection of the rows computes,
    the result is that matrix with the fractional parts dropped. In particular for radius 1
    (rows with non-negative entries of sum 1) every row is either returned exactly, and is
    then a vertex of the simplex, or is entirely zero, which is outside of the simplex *)
Theorem C83_simplex : forall r c tau, 0 < tau ->
  (forall (P : Vec c -> result (Vec c)) (x y : Vec (r * c)), simplex_prox_rows P x tau = Ok y -> exists q, isimplex_rows true P x tau = Ok q /\
    (forall p, (p < r * c)%nat -> toward_zero (get y p) (get q p)) /\
    forall i, (i < r)%nat -> (forall j, (j < c)%nat -> 0 <= get y (i * c + j)) -> RS c (fun j => get y (i * c + j)) = 1 ->
      (exists k, (k < c)%nat /\ forall j, (j < c)%nat -> get q (i * c + j) = get y (i * c + j) /\ get y (i * c + j) = if Nat.eqb j k then 1 else 0) \/
      (forall j, (j < c)%nat -> get q (i * c + j) = 0)) /\
  (forall (P : Vec r -> result (Vec r)) (x y : Vec (r * c)), simplex_prox_cols P x tau = Ok y -> exists q, isimplex_cols true P x tau = Ok q /\
    forall p, (p < r * c)%nat -> toward_zero (get y p) (get q p)).
Proof. exact C83_simplex_l. Qed.
Print Assumptions C83_simplex.

(** VStack with restrictions on integers returns the result for floats with the fractional parts
    dropped, whatever the operators are (they may return floats); with nn it returns the
    result of the operators unchanged *)
Theorem C83_vstack : forall v x tau p, vstack_prox v x tau = Ok p ->
  ivstack_prox true v x tau = Ok (match vs_blocks v with Restr _ => map trunc p | Sizes _ => p end) /\
  forall j, toward_zero (nth j p 0) (nth j (map trunc p) 0).
Proof. exact C83_vstack_l. Qed.
Print Assumptions C83_vstack.

(** GenericIntersectionProj (the Dykstra loop for three sets) from the integer 0 with the sets
    {x >= 1/2}, R, R: for every number of iterations >= 1 and every tol > 0 it stops after
    the first sweep and returns 0, which is outside of the intersection; from the float 0
    (tol <= 1/2) it returns 1/2, the projection *)
Theorem C83_dykstra_refuted : forall niter tol, (1 <= niter)%nat -> 0 < tol <= 1/2 ->
  let projs : list (R_IPS -> result R_IPS) := [(fun v : R_IPS => Ok (Rmax (1/2) v : R_IPS)); (fun v => Ok v); (fun v => Ok v)] in
  icyclic_dykstra (E:=R_IPS) Rabs trunc (0 : R_IPS) projs niter tol = Ok (0 : R_IPS) /\
  icyclic_dykstra (E:=R_IPS) Rabs (fun v => v) (0 : R_IPS) projs niter tol = Ok (1/2 : R_IPS) /\
  is_proj (E:=R_IPS) (fun v : R_IPS => 1/2 <= (v : R)) (0 : R_IPS) (1/2 : R_IPS) /\ ~ (1/2 <= 0).
Proof. exact C83_dykstra_refuted_l. Qed.
Print Assumptions C83_dykstra_refuted.
