(** Property theorems for Split: statements only; every proof is [exact] a lemma of P_Split.v.
    Generated from the tagged lemmas of that file. *)
From Coq Require Import Psatz.
From Verif Require Import Base Space Spec ConvexFacts Smooth M_ProxOp SpecOps P_ProxOp M_Norms P_Norms M_Loop LoopFacts Trace SeqFacts M_PG M_Split SplitMath P_PG P_PG2 P_PG3.
From Verif Require Import P_Split.
Open Scope result_scope.
Open Scope R_scope.


(** f, g convex, 0 < eta < 2, tau > 0, niter >= 1, either order. The run never raises, follows
    the documented recursion, and with p_k the inner prox result: for every solution (xs, u)
    (u subgradient of f, -u of g at xs), yopt = xs -+ tau u: |y_k - yopt| never increases,
    sum |p_k - x_k|^2 <= |x0-yopt|^2/(eta(2-eta)), |p_k - x_k| never increases *)
Theorem C49_certificate : forall (E : IPS) (proxf proxg : Op E) f g tau eta x0 n (gfirst : bool),
  impl_prox proxf f -> impl_prox proxg g -> convex f -> convex g -> 0 < tau -> 0 < eta < 2 ->
  exists xs ps ys, DouglasRachford proxf proxg x0 tau eta (S n) gfirst = Ok (xs n, ys (S n), map (fun j => (xs j, ys (S j))) (seq 0 (S n))) /\
    ys 0%nat = x0 /\ (if gfirst then dr_doc f g tau eta xs ps ys (S n) else dr_doc g f tau eta xs ps ys (S n)) /\
    (forall j, (S j < S n)%nat -> norm2 (ps (S j) [-] xs (S j)) <= norm2 (ps j [-] xs j)) /\
    forall x u, kkt f g x u -> let y := if gfirst then x [-] tau [*] u else x [+] tau [*] u in
      (forall j, (j < S n)%nat -> norm2 (ys (S j) [-] y) + eta * (2 - eta) * norm2 (ps j [-] xs j) <= norm2 (ys j [-] y)) /\
      Rsum (map (fun i => norm2 (ps i [-] xs i)) (seq 0 (S n))) <= norm2 (x0 [-] y) / (eta * (2 - eta)) /\
      norm2 (ps n [-] xs n) <= norm2 (x0 [-] y) / (eta * (2 - eta) * INR (S n)).
Proof. exact C49_certificate_l. Qed.
Print Assumptions C49_certificate.

(** for 0 < eta <= 2 and every z in both domains (no solution assumed): the sum over the run of
    f(p_k)+g(x_k) - f(z)-g(z) is at most |x0-z|^2/(2 tau eta) (x_k the first, p_k the second
    prox; order by gfirst) *)
Theorem C49_gap : forall (E : IPS) (proxf proxg : Op E) f g tau eta x0 n (gfirst : bool),
  impl_prox proxf f -> impl_prox proxg g -> convex f -> convex g -> 0 < tau -> 0 < eta <= 2 ->
  exists xs ps ys, DouglasRachford proxf proxg x0 tau eta (S n) gfirst = Ok (xs n, ys (S n), map (fun j => (xs j, ys (S j))) (seq 0 (S n))) /\
    ys 0%nat = x0 /\ (forall j, (j < S n)%nat -> ys (S j) = ys j [+] eta [*] (ps j [-] xs j)) /\
    forall z, edom f z -> edom g z ->
      Rsum (map (fun i => (if gfirst then eval f (ps i) + eval g (xs i) else eval f (xs i) + eval g (ps i)) - (eval f z + eval g z)) (seq 0 (S n)))
      <= norm2 (x0 [-] z) / (2 * tau * eta).
Proof. exact C49_gap_l. Qed.
Print Assumptions C49_gap.

(** if an iteration leaves y unchanged then that iteration's x minimises f + g; conversely
    started at y0 = xs - tau u (gfirst) for a solution (xs, u), every callback receives (xs,
    y0) *)
Theorem C49_fixed_points : forall (E : IPS) (proxf proxg : Op E) f g tau eta x0 n (gfirst : bool),
  impl_prox proxf f -> impl_prox proxg g -> convex f -> convex g -> 0 < tau -> 0 < eta ->
  exists x y tr, DouglasRachford proxf proxg x0 tau eta (S n) gfirst = Ok (x, y, tr) /\
    (forall i a b yi, nth_error (x0 :: map snd tr) i = Some yi -> nth_error tr i = Some (a, b) -> b = yi -> is_min (eadd f g) a) /\
    (forall xs u, kkt f g xs u -> x0 = (if gfirst then xs [-] tau [*] u else xs [+] tau [*] u) -> tr = repeat (xs, x0) (S n)).
Proof. exact C49_fixed_points_l. Qed.
Print Assumptions C49_fixed_points.

(** niter = 0 raises UnboundLocalError instead of returning the initial guess *)
Theorem C49_no_iterations_refuted : forall (E : IPS) (proxf proxg : Op E) x0 tau eta gfirst,
  DouglasRachford proxf proxg x0 tau eta 0 gfirst = Err UnboundLocalError.
Proof. exact C49_no_iterations_refuted_l. Qed.
Print Assumptions C49_no_iterations_refuted.
