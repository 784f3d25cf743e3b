(** Property theorems for Iht: statements only; every proof is [exact] a lemma of P_Iht.v.
    Generated from the tagged lemmas of that file. *)
From Coq Require Import String ZArith Permutation Sorted Psatz.
From Verif Require Import Base Space Spec ConvexFacts Smooth VSum MatFacts M_ProxOp SpecOps P_ProxOp M_L2 P_L2 M_L0 S_L0 P_L0 P_QE S_Lasso P_Lasso M_Loop LoopFacts SeqFacts SeqConv M_PG S_PG2 P_PG P_PG2 S_Seq Fejer S_PGB P_Iter S_Noncvx P_Noncvx.
From Verif Require Import S_Iht.
From Verif Require Import P_Iht.
Open Scope result_scope.
Open Scope R_scope.


(** iterative hard thresholding: o = L2(A, b, sigma=s), pen = L0Ball(radius=r), b = A x* + e
    with x* and x0 having at most r non-zeros, A any linear operator whose scaled version
    sqrt(tau s) A has restricted isometry constant delta < 1/2 at 3r, any argsort, beta,
    epsg > 0, niterback, no acceleration: ProximalGradient returns for every niter, every
    iterate has at most r non-zeros, and the k-th is within (2 delta)^k |x0 - x*| + 2
    sqrt(tau s (1+delta)) |e| / (1 - 2 delta) of x*; without noise the iterates converge to
    x*, which is the only r-sparse solution of A x = b *)
Theorem C96_recovery : forall n (F : IPS) argsort (o : Op (Vec n)) (A : linop (Vec n) F) b e s r (xstar x0 : Vec n) tau eps delta beta niterback accel,
  argsort_ok argsort -> is_L2 o A b s -> 0 < s -> 0 < tau -> 0 < eps -> (0 < r)%nat -> 0 <= delta < 1 / 2 -> rip A (3 * r) (tau * s) delta ->
  b = A xstar [+] e -> sparse r xstar -> sparse r x0 -> no_accel accel ->
  exists xs, xs 0%nat = x0 /\
    (forall N, ProximalGradient o (l0ball_op argsort (Z.of_nat r)) x0 [eps] (Some tau) false beta 1 (S N) niterback accel None = Ok (xs (S N), map xs (seq 1 (S N)))) /\
    (forall k, sparse r (xs k)) /\
    (forall k, norm (xs k [-] xstar) <= (2 * delta) ^ k * norm (x0 [-] xstar) + 2 * sqrt (tau * s * (1 + delta)) * norm e / (1 - 2 * delta)) /\
    (e = vzero -> vcv xs xstar /\ forall y, sparse r y -> A y = b -> y = xstar).
Proof. exact C96_recovery_l. Qed.
Print Assumptions C96_recovery.

(** the same with any acceleration (None, vandenberghe, fista), as the library's own tutorial
    calls it: if the restricted isometry constant at 4r is below 1/6, the k-th iterate is
    within (6 delta)^ceil(k/2) |x0 - x*| + 2 sqrt(tau s (1+delta)) |e| / (1 - 6 delta) of
    x*, and every iterate has at most r non-zeros *)
Theorem C96_accelerated : forall n (F : IPS) argsort (o : Op (Vec n)) (A : linop (Vec n) F) b e s r (xstar x0 : Vec n) tau eps delta beta niterback accel,
  argsort_ok argsort -> is_L2 o A b s -> 0 < s -> 0 < tau -> 0 < eps -> (0 < r)%nat -> 0 <= delta < 1 / 6 -> rip A (4 * r) (tau * s) delta ->
  b = A xstar [+] e -> sparse r xstar -> sparse r x0 -> In accel [None; Some "None"; Some "vandenberghe"; Some "fista"]%string ->
  exists xs, xs 0%nat = x0 /\
    (forall N, ProximalGradient o (l0ball_op argsort (Z.of_nat r)) x0 [eps] (Some tau) false beta 1 (S N) niterback accel None = Ok (xs (S N), map xs (seq 1 (S N)))) /\
    (forall k, sparse r (xs k)) /\
    (forall k, norm (xs k [-] xstar) <= (6 * delta) ^ (S k / 2) * norm (x0 [-] xstar) + 2 * sqrt (tau * s * (1 + delta)) * norm e / (1 - 6 * delta)).
Proof. exact C96_accelerated_l. Qed.
Print Assumptions C96_accelerated.

(** exact data: if x* has exactly r non-zeros, all at least m > 0 in absolute value, then from
    the first k with (2 delta)^k |x0 - x*| < m on the iterates of C96_recovery have exactly
    the support of x* *)
Theorem C96_support : forall n (F : IPS) argsort (o : Op (Vec n)) (A : linop (Vec n) F) s r (xstar x0 : Vec n) tau eps delta beta niterback accel m N,
  argsort_ok argsort -> is_L2 o A (A xstar) s -> 0 < s -> 0 < tau -> 0 < eps -> (0 < r)%nat -> 0 <= delta < 1 / 2 -> rip A (3 * r) (tau * s) delta ->
  sparse r xstar -> ~ sparse (r - 1) xstar -> (forall i, (i < n)%nat -> get xstar i <> 0 -> m <= Rabs (get xstar i)) -> sparse r x0 -> no_accel accel ->
  (2 * delta) ^ S N * norm (x0 [-] xstar) < m ->
  exists y tr, ProximalGradient o (l0ball_op argsort (Z.of_nat r)) x0 [eps] (Some tau) false beta 1 (S N) niterback accel None = Ok (y, tr) /\
    forall i, (i < n)%nat -> (get y i = 0 <-> get xstar i = 0).
Proof. exact C96_support_l. Qed.
Print Assumptions C96_support.

(** with L10Ball in place of L0Ball the objective can go up: L2(Op=identity, b=[[1, 1.9], [1,
    0]]), L10Ball(radius=1), the admissible step tau = 1 = 1/L, started at the matrix with
    the single column (1.9, 0): for every argsort, epsg > 0 and niter >= 1 the result is
    strictly farther from b than the starting point, which lies in the ball *)
Theorem C96_group_refuted : forall argsort (o : Op (Vec (2 * 2))) (A : linop (Vec (2 * 2)) (Vec (2 * 2))) eps beta niterback N,
  argsort_ok argsort -> (forall x, A x = x) -> is_L2 o A l10_x 1 -> 0 < eps ->
  l10ball_call (fun _ => 1%Z) 0 l10_z = true /\
  exists y tr, ProximalGradient o (l10ball_op argsort 1) l10_z [eps] (Some 1) false beta 1 (S N) niterback None None = Ok (y, tr) /\
    norm (l10_z [-] l10_x) < norm (y [-] l10_x).
Proof. exact C96_group_refuted_l. Qed.
Print Assumptions C96_group_refuted.

(** 256 measurements x_i + x_256/16 of 257 unknowns: the restricted isometry constant is at most
    1/8 at 4 (and at 3), the operator has a kernel, an L2 object for it exists, x* = 5 at
    position 7 is 1-sparse, and so is x0 = 0 *)
Example C96_example : let A := wide 256 (/ 16) in let xstar := vtab 257 (fun i => if Nat.eqb i 7 then 5 else 0) : Vec 257 in
  rip A (4 * 1) (1 * 1) (1 / 8) /\ rip A (3 * 1) (1 * 1) (1 / 8) /\ (exists z, A z = vzero /\ z <> vzero) /\ (exists o, is_L2 o A (A xstar) 1) /\
  sparse 1 xstar /\ ~ sparse 0 xstar /\ (forall i, (i < 257)%nat -> get xstar i <> 0 -> 5 <= Rabs (get xstar i)) /\ sparse 1 (vzero : Vec 257) /\ argsort_ok isort.
Proof. exact C96_example_l. Qed.
