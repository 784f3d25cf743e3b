(** Property theorems for TV3: statements only; every proof is [exact] a lemma of P_TV3.v.
    Generated from the tagged lemmas of that file. *)
From Coq Require Import Psatz ZArith.
From Verif Require Import Base Space Spec SpecOps ConvexFacts VSum MatFacts M_ProxOp M_Loop M_Bilin M_TV DualTV Compact P_TV P_TV2 P_ProxOp.
From Verif Require Import S_TV3.
From Verif Require Import P_TV3.
Open Scope result_scope.
Open Scope R_scope.


(** calling TV on an array of 1 or more axes of length at least 2 gives sigma times its
    isotropic total variation; in 1-D this is sigma * sum |x_(i+1) - x_i|, in 2-D sigma *
    sum sqrt(dx^2 + dy^2) with zero differences at the far border *)
Theorem C66_value : forall sigma,
  (forall dims x, dims_ok dims -> (1 <= length dims <= 4)%nat -> length x = nprod dims -> tv_call sigma dims x = Ok (sigma * variation dims (fun i => nth i x 0))) /\
  (forall n x, (2 <= n)%nat -> length x = n -> tv_call sigma [n] x = Ok (sigma * RS (n - 1) (fun i => Rabs (nth (S i) x 0 - nth i x 0)))) /\
  (forall n m x, (2 <= n)%nat -> (2 <= m)%nat -> length x = (n * m)%nat -> let X i j := nth (i * m + j) x 0 in
    tv_call sigma [n; m] x = Ok (sigma * RS n (fun i => RS m (fun j => let dx := if Nat.ltb (S i) n then X (S i) j - X i j else 0 in let dy := if Nat.ltb (S j) m then X i (S j) - X i j else 0 in sqrt (dx * dx + dy * dy))))).
Proof. exact C66_value_l. Qed.
Print Assumptions C66_value.

(** for every shape of 1 to 4 axes of length at least 2, sigma > 0, tau > 0: one sequence of
    dual pairs, not depending on niter or rtol, such that every p_k lies in the dual ball
    (each pixel of Euclidean norm <= 1), p_(k+1) is the exact projection onto it of a
    gradient step on the dual objective from y_k, y is extrapolated with the weights (t_k -
    1) / t_(k+1), t_k = (k + 2) / 2, and prox returns x + gamma grad^T y_k for the first k
    where the tested quantity changes by less than rtol, or k = niter *)
Theorem C66_iterates : forall dims sigma tau ws (x : Vec (nprod dims)), dims_ok dims -> (1 <= length dims <= 4)%nat -> 0 < sigma -> 0 < tau -> 0 < tv_mt ws ->
  exists ps ys : nat -> Vec (length dims * nprod dims),
    let sol k := x [+] (sigma * tau) [*] gadj dims (ys k) in
    ps 0%nat = vzero /\ ys 0%nat = vzero /\ (forall k, pixball dims (ps k)) /\
    (forall k, is_proj (pixball dims) (ys k [-] / (INR (4 * length dims) * (sigma * tau) * (tv_mt ws * tv_mt ws)) [*] gapp dims (sol k)) (ps (S k))) /\
    (forall k, ys (S k) = ps (S k) [+] ((INR k + 2) / 2 - 1) / ((INR (S k) + 2) / 2) [*] (ps (S k) [-] ps k)) /\
    (forall rtol n, exists k, (k <= n)%nat /\ tv_run sigma rtol ws dims (Z.of_nat n) (lst x) tau = Ok (lst (sol k)) /\
      (forall j, (j < k)%nat -> ~ below rtol (tested_obj dims sigma tau x (sol j)) (match j with O => 0 | S i => tested_obj dims sigma tau x (sol i) end)) /\
      (k = n \/ below rtol (tested_obj dims sigma tau x (sol k)) (match k with O => 0 | S i => tested_obj dims sigma tau x (sol i) end))).
Proof. exact C66_iterates_l. Qed.
Print Assumptions C66_iterates.

(** with rtol = 0 (no early stop; a negative rtol would stop as soon as the tested quantity is
    at most 1e-10) and weights of maximum mt >= 1, the exact proximal point exists and niter
    iterations come within 12 sigma tau mt sqrt(axes * size) / niter of it *)
Theorem C66_converges : forall dims sigma tau ws (x : Vec (nprod dims)), dims_ok dims -> (1 <= length dims <= 4)%nat -> 0 < sigma -> 0 < tau -> 1 <= tv_mt ws ->
  exists p, tv_exact sigma dims tau x p /\
    forall niter, (1 <= niter)%nat -> exists v : Vec (nprod dims), tv_run sigma 0 ws dims (Z.of_nat niter) (lst x) tau = Ok (lst v) /\
      norm (v [-] p) <= 12 * (sigma * tau) * tv_mt ws * sqrt (INR (length dims * nprod dims)) / INR niter.
Proof. exact C66_converges_l. Qed.
Print Assumptions C66_converges.

(** whatever niter and rtol, prox keeps the sum (so the mean) of the entries of x *)
Theorem C66_sum_preserved : forall dims sigma tau ws rtol niter (x : Vec (nprod dims)), dims_ok dims -> (1 <= length dims <= 4)%nat -> 0 < sigma -> 0 < tau -> 0 < tv_mt ws ->
  exists v : Vec (nprod dims), tv_run sigma rtol ws dims (Z.of_nat niter) (lst x) tau = Ok (lst v) /\ RS (nprod dims) (get v) = RS (nprod dims) (get x).
Proof. exact C66_sum_preserved_l. Qed.
Print Assumptions C66_sum_preserved.

(** the momentum numbers do not follow the FISTA recursion t' = (1 + sqrt(1 + 4 t^2)) / 2 of the
    cited paper: every pass that does not stop gives t' = t + 1/2, strictly smaller *)
Theorem C66_momentum_refuted : forall sigma gamma rtol mt dims x s s', 0 <= ttold s -> tv_body sigma gamma rtol mt dims x s = Ok (s', false) ->
  ttold s' = ttold s + / 2 /\ ttold s' < (1 + sqrt (1 + 4 * (ttold s * ttold s))) / 2.
Proof. exact C66_momentum_refuted_l. Qed.
Print Assumptions C66_momentum_refuted.

(** every call to prox adds one to the counter, also a call that raises; the number of
    iterations of a call is niter, or niter(counter) with the counter already incremented *)
Theorem C66_count : forall dims sigma niter rtol ws c x tau, exists r, tv_prox (mkTV dims sigma niter rtol ws c) x tau = (r, mkTV dims sigma niter rtol ws (S c)) /\
  (tau <= 0 -> r = Err ValueError) /\ (0 < tau -> r = tv_run sigma rtol ws dims (match niter with inl n => n | inr f => f (S c) end) x tau).
Proof. exact C66_count_l. Qed.
Print Assumptions C66_count.

(** an array whose size is not the product of dims, an axis of length below 2 (with dims=None
    there is one axis of length 0), more than 4 axes, and sigma = 0 (with rtol >= 0) all
    raise; a negative niter returns x *)
Theorem C66_errors : forall sigma rtol ws dims niter x tau, (1 <= length dims)%nat ->
  (length x <> nprod dims -> tv_run sigma rtol ws dims niter x tau = Err ValueError) /\
  (length x = nprod dims -> (4 < length dims)%nat -> tv_run sigma rtol ws dims niter x tau = Err UnboundLocalError) /\
  (length x = nprod dims -> (length dims <= 4)%nat -> (0 <= niter)%Z -> ~ dims_ok dims -> tv_run sigma rtol ws dims niter x tau = Err IndexError) /\
  (length x = nprod dims -> (length dims <= 4)%nat -> (0 <= niter)%Z -> dims_ok dims -> sigma = 0 -> 0 <= rtol -> tv_run sigma rtol ws dims niter x tau = Err ZeroDivisionError) /\
  (length x = nprod dims -> (length dims <= 4)%nat -> (niter < 0)%Z -> tv_run sigma rtol ws dims niter x tau = Ok x).
Proof. exact C66_errors_l. Qed.
Print Assumptions C66_errors.

(** the stopping test can end the iteration far from the proximal point, for every niter >= 1
    and every rtol in (0, 1]: the tested quantity weighs the variation with sigma^2 tau
    instead of sigma tau, and for dims (2,), sigma = 1/4, tau = 1, x = (0, 1/2) it does not
    change in the first iteration; prox returns (1/8, 3/8) while the proximal point is (1/4,
    1/4) *)
Theorem C66_stop_refuted : forall niter rtol, (1 <= niter)%nat -> 0 < rtol <= 1 ->
  tv_run (1 / 4) rtol [] [2%nat] (Z.of_nat niter) [0; 1 / 2] 1 = Ok [1 / 8; 3 / 8] /\ tv_exact (1 / 4) [2%nat] 1 stop_x (ofl (nprod [2%nat]) [1 / 4; 1 / 4]) /\ [1 / 8; 3 / 8] <> [1 / 4; 1 / 4].
Proof. exact C66_stop_refuted_l. Qed.
Print Assumptions C66_stop_refuted.

(** the convergence bound applies to a 2 x 2 image with sigma = tau = 1, and 100 iterations
    without early stop are within 0.34 of the exact proximal point *)
Example C66_example : forall x : Vec (nprod [2%nat; 2%nat]), exists p, tv_exact 1 [2%nat; 2%nat] 1 x p /\ exists v : Vec (nprod [2%nat; 2%nat]), tv_run 1 0 [] [2%nat; 2%nat] (Z.of_nat 100) (lst x) 1 = Ok (lst v) /\ norm (v [-] p) <= 34 / 100.
Proof. exact C66_example_l. Qed.
