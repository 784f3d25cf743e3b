(** Property theorems for SVD: statements only; every proof is [exact] a lemma of P_SVD.v.
    Generated from the tagged lemmas of that file. *)
From Verif Require Import Base Space Spec SpecOps ConvexFacts Sep M_ProxOp M_L1 P_L1 MatFacts VSum M_Proj P_Proj P_Proj2 P_Proj3 SVD SVD2 M_SVD.
From Coq Require Import Psatz.
From Verif Require Import S_SVD.
From Verif Require Import P_SVD.
Open Scope result_scope.


(** every real matrix X has exactly one list of singular values svals X in non-increasing order:
    X = sum_i s_i u_i v_i^T with orthonormal u, v holds for s = svals X and for no other s *)
Theorem C32_exists : forall m n (X : Vec (m * n)), sing_vals X (svals X) /\ forall s, sing_vals X s -> forall i, (i < Nat.min m n)%nat -> s i = svals X i.
Proof. exact C32_exists_l. Qed.
Print Assumptions C32_exists.

(** all shapes, all matrices X, tau > 0, sigma >= 0, whatever singular vectors numpy's svd
    returns: Nuclear.prox returns Y whose singular values are max(s_i - tau sigma, 0) and Y
    is the proximal point of sigma times the nuclear norm, over all matrices; the result
    does not depend on the singular vectors chosen *)
Theorem C32_nuclear_prox : forall m n svd sigma (X : Vec (m * n)) tau, 0 < tau -> 0 <= sigma -> svd_at svd X ->
  exists Y, nuclear_prox svd (WNum sigma) X tau = Ok Y /\ sing_vals Y (fun i => Rmax (svals X i - tau * sigma) 0) /\ is_prox (wnuclear (fun _ => sigma)) tau X Y /\
    forall svd', svd_at svd' X -> nuclear_prox svd' (WNum sigma) X tau = Ok Y.
Proof. exact C32_nuclear_prox_l. Qed.
Print Assumptions C32_nuclear_prox.

(** sigma >= 0 times the sum of the singular values is a convex function on matrices of every
    shape *)
Theorem C32_nuclear_convex : forall m n sigma, 0 <= sigma -> convex (wnuclear (m:=m) (n:=n) (fun _ => sigma)).
Proof. exact C32_nuclear_convex_l. Qed.
Print Assumptions C32_nuclear_convex.

(** an array of at least min(m, n) weights, non-negative and non-descending (the non-convex
    case): Nuclear.prox returns a global minimiser of sum_i w_i s_i(Y) + |Y - X|^2/(2 tau)
    over all matrices, with singular values max(s_i - tau w_i, 0) *)
Theorem C32_weighted : forall m n svd l (X : Vec (m * n)) tau, 0 < tau -> svd_at svd X -> (Nat.min m n <= length l)%nat ->
  (forall i, (i < Nat.min m n)%nat -> 0 <= nthr l i) -> (forall i j, (i <= j)%nat -> (j < Nat.min m n)%nat -> nthr l i <= nthr l j) ->
  exists Y, nuclear_prox svd (WArr l) X tau = Ok Y /\ sing_vals Y (fun i => Rmax (svals X i - tau * nthr l i) 0) /\ is_prox (wnuclear (nthr l)) tau X Y.
Proof. exact C32_weighted_l. Qed.
Print Assumptions C32_weighted.

(** for non-ascending weights, where the documentation calls the function convex, the returned
    matrix need not be the proximal point: 2 x 2 matrices with singular values 3 and 5/2,
    sigma = [2, 0], tau = 1, whatever the svd: the objective is 7 at the output and 4.5625
    at a matrix with both singular values 7/4 *)
Theorem C32_weighted_refuted : forall svd (X : Vec (2 * 2)), svd_at svd X -> svals X 0 = 3 -> svals X 1 = 5 / 2 ->
  exists Y, nuclear_prox (m:=2) (n:=2) svd (WArr [2; 0]) X 1 = Ok Y /\ ~ is_prox (wnuclear (nthr [2; 0])) 1 X Y.
Proof. exact C32_weighted_refuted_l. Qed.
Print Assumptions C32_weighted_refuted.

(** for every shape and X, when eigvalsh gives the eigenvalues of X^T X in ascending order:
    Nuclear(X) with a number (or an array of one number) sigma is sigma times the sum of the
    singular values, and with an array of n weights it is sum_i sigma_i s_i(X), largest
    singular value first *)
Theorem C32_nuclear_value : forall m n eig (X : Vec (m * n)), eig_at eig (gram X) ->
  (forall sigma, nuclear_call eig (WNum sigma) X = Ok (sigma * RS (Nat.min m n) (svals X))) /\
  (forall sigma, nuclear_call eig (WArr [sigma]) X = Ok (sigma * RS (Nat.min m n) (svals X))) /\
  (forall l, length l = n -> nuclear_call eig (WArr l) X = Ok (RS (Nat.min m n) (fun i => nthr l i * svals X i))).
Proof. exact C32_nuclear_value_l. Qed.
Print Assumptions C32_nuclear_value.

(** sigma given as one weight per singular value, 1 < min(m, n) = m < n: prox accepts it but
    evaluating the function raises ValueError for every matrix *)
Theorem C32_weights_size_refuted : forall m n svd eig l (X : Vec (m * n)) tau, (1 < m < n)%nat -> length l = Nat.min m n -> 0 < tau ->
  nuclear_call eig (WArr l) X = Err ValueError /\ exists Y, nuclear_prox svd (WArr l) X tau = Ok Y.
Proof. exact C32_weights_size_refuted_l. Qed.
Print Assumptions C32_weights_size_refuted.

(** matrices on or outside the nuclear-norm ball (sum s_i >= radius), all shapes: whenever
    NuclearBall.prox returns Y, Y is within sqrt k (xtol + rtol max(1, 2 sum_i |p_i - s_i|))
    of the Euclidean projection P of X on {sum of singular values <= radius}, k = min(m, n),
    p the singular values of P *)
Theorem C32_ball : forall m n svd radius maxiter xtol fuel (X Y : Vec (m * n)) tau, (0 < Nat.min m n)%nat -> svd_at svd X -> radius <= RS (Nat.min m n) (svals X) ->
  nball_prox svd radius maxiter xtol fuel X tau = Ok Y ->
  exists P, is_proj (nuclear_ball radius) X P /\ norm (Y [-] P) <= (xtol + bisect_rtol * Rmax 1 (2 * RS (Nat.min m n) (fun i => Rabs (svals P i - svals X i)))) * sqrt (INR (Nat.min m n)).
Proof. exact C32_ball_l. Qed.
Print Assumptions C32_ball.

(** NuclearBall.prox is not a projection inside the ball: every X with all singular values > 0,
    however small, is sent to a Y whose singular values sum to the radius, up to the
    accuracy k (xtol + rtol max(1, 2 sum_i |q_i - s_i|)) of the search (q the projection of
    s on the simplex) *)
Theorem C32_ball_inside_refuted : forall m n svd radius maxiter xtol fuel (X Y : Vec (m * n)) tau, svd_at svd X -> (forall i, (i < Nat.min m n)%nat -> 0 < svals X i) ->
  nball_prox svd radius maxiter xtol fuel X tau = Ok Y ->
  exists q, is_proj (simplex_set radius) (vtab (Nat.min m n) (svals X)) q /\
    Rabs (RS (Nat.min m n) (svals Y) - radius) <= INR (Nat.min m n) * (xtol + bisect_rtol * Rmax 1 (2 * RS (Nat.min m n) (fun i => Rabs (get q i - svals X i)))).
Proof. exact C32_ball_inside_refuted_l. Qed.
Print Assumptions C32_ball_inside_refuted.

(** NuclearBall(X) accepts X exactly when the sum of its singular values is < radius + tol *)
Theorem C32_ball_call : forall m n svd radius tol (X : Vec (m * n)), svd_at svd X -> nball_call svd radius tol X = true <-> RS (Nat.min m n) (svals X) < radius + tol.
Proof. exact C32_ball_call_l. Qed.
Print Assumptions C32_ball_call.

(** SingularValuePenalty with a penalty acting entrywise as a proximal map pr of an even
    function phi smallest at 0 (no convexity needed), tau > 0, all shapes, whatever the svd:
    prox returns a Y with singular values pr(s_i) which minimises sum_i phi(s_i(Y)) + |Y -
    X|^2/(2 tau) over all matrices *)
Theorem C32_penalty : forall m n svd phi pr pprox (X : Vec (m * n)) tau, 0 < tau -> svd_at svd X -> even_penalty phi ->
  (forall a, is_prox (E:=R_IPS) (etot (E:=R_IPS) phi) tau a (pr a)) -> (forall S, pprox S tau = Ok (vtab (Nat.min m n) (fun i => pr (get S i)))) ->
  exists Y, svp_prox svd pprox X tau = Ok Y /\ sing_vals Y (fun i => pr (svals X i)) /\ is_prox (spectral phi) tau X Y.
Proof. exact C32_penalty_l. Qed.
Print Assumptions C32_penalty.

(** SingularValuePenalty(X) with a penalty that sums phi over the entries is sum_(i<k) phi(s_i)
    + (n - k) phi(0), k = min(m, n): the right value when n <= m or phi(0) = 0, off by (n -
    m) phi(0) otherwise *)
Theorem C32_penalty_value : forall m n eig phi (X : Vec (m * n)), eig_at eig (gram X) ->
  svp_call eig (fun r => Ok (RS n (fun i => phi (get r i)))) X = Ok (eval (spectral phi) X + INR (n - Nat.min m n) * phi 0).
Proof. exact C32_penalty_value_l. Qed.
Print Assumptions C32_penalty_value.

(** a penalty that treats its entries differently is evaluated on the singular values in
    ascending order but its prox is applied to them in descending order: with L1(sigma=1,
    g=[2, 0]), tau = 1 and any 2 x 2 matrix X with singular values 2 and 0, prox returns X,
    where the value the object itself reports is 4, although another matrix has value 2 at
    squared distance 2 *)
Theorem C32_penalty_order_refuted : forall svd eig (X : Vec (2 * 2)), svd_at svd X -> svals X 0 = 2 -> svals X 1 = 0 -> (forall Z : Vec (2 * 2), eig_at eig (gram Z)) ->
  let sig := fun _ : nat => exist (fun l : list R => length l = 2%nat) [1; 1] eq_refl in let g := vtab 2 (pr2 2 0) in
  let value := svp_call (m:=2) (n:=2) eig (fun r => Ok (l1_call sig (Some g) 0 r)) in
  svp_prox (m:=2) (n:=2) svd (fun r tau => snd (l1_prox sig (Some g) 0 r tau)) X 1 = Ok X /\ value X = Ok 4 /\
  exists Z, value Z = Ok 2 /\ norm2 (Z [-] X) = 2.
Proof. exact C32_penalty_order_refuted_l. Qed.
Print Assumptions C32_penalty_order_refuted.

(** the hypotheses are met for every matrix: some svd satisfies the specification, one eigvalsh
    satisfies it on every X^T X, and diag(3, 5/2), diag(2, 0) have the singular values used
    above *)
Example C32_example : (forall m n (X : Vec (m * n)), (exists svd, svd_at svd X) /\ exists eig, forall Z : Vec (m * n), eig_at eig (gram Z)) /\
  svals (diag2 3 (5 / 2)) 0 = 3 /\ svals (diag2 3 (5 / 2)) 1 = 5 / 2 /\ svals (diag2 2 0) 0 = 2 /\ svals (diag2 2 0) 1 = 0.
Proof. exact C32_example_l. Qed.
