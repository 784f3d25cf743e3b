(** Property theorems for Sharp: statements only; every proof is [exact] a lemma of P_Sharp.v.
    Generated from the tagged lemmas of that file. *)
From Coq Require Import String Psatz.
From Verif Require Import Base Space Spec ConvexFacts Smooth VSum MatFacts Sep M_ProxOp SpecOps P_ProxOp M_Norms P_Norms M_L1 M_L2 P_L1 P_L2 P_L21 M_Objs S_L1 S_Lasso P_Lasso M_Loop LoopFacts SeqFacts M_PG SplitMath S_PG P_PG S_Sparse P_PG2 S_PG2 P_Pnp P_Proj2 P_Ident.
From Verif Require Import S_Sharp.
From Verif Require Import P_Sharp.
Open Scope result_scope.
Open Scope R_scope.


(** if the convex f grows at least with slope c > 0 around its minimiser xo, ProximalPoint comes
    nearer to xo by c tau in every iteration until it has reached it, so that any number of
    iterations from |x0 - xo|/(c tau) on returns xo exactly *)
Theorem C110_sharp : forall (E : IPS) (o : Op E) (f : efun E) c xo x0 tau k, impl_prox o f -> convex f -> 0 < tau -> 0 < c -> sharp_min f c xo ->
  exists x tr, ProximalPoint o x0 tau k None = Ok (x, tr) /\ norm (x [-] xo) <= Rmax 0 (norm (x0 [-] xo) - INR k * (c * tau)) /\ (norm (x0 [-] xo) <= INR k * (c * tau) -> x = xo).
Proof. exact C110_sharp_l. Qed.
Print Assumptions C110_sharp.

(** if every subgradient of the convex f stays one after a proximal step, a step s followed by a
    step t is one step s + t, and k iterations of ProximalPoint with tau return prox(x0, k
    tau) *)
Theorem C110_split : forall (E : IPS) (o : Op E) (f : efun E), impl_prox o f -> convex f -> keeps_subgrads f ->
  (forall x s t, 0 < s -> 0 < t -> exists p q, o_prox o x s = Ok p /\ o_prox o p t = Ok q /\ o_prox o x (s + t) = Ok q) /\
  (forall x0 tau k, 0 < tau -> exists x tr, ProximalPoint o x0 tau (S k) None = Ok (x, tr) /\ o_prox o x0 (INR (S k) * tau) = Ok x).
Proof. exact C110_split_l. Qed.
Print Assumptions C110_split.

(** the Euclidean norm, the L1 norm, every linear function and every indicator (Box, balls,
    half-spaces, ... ) have that property *)
Theorem C110_keeps : (forall (E : IPS) sigma, 0 < sigma -> keeps_subgrads (etot (fun x : E => sigma * norm x))) /\
  (forall n lam, 0 <= lam -> keeps_subgrads (etot (fun x : Vec n => lam * sum_abs x))) /\
  (forall (E : IPS) (a : E), keeps_subgrads (etot (fun x : E => << a, x >>))) /\
  (forall (E : IPS) (C : E -> Prop), keeps_subgrads (indic C)).
Proof. exact C110_keeps_l. Qed.
Print Assumptions C110_keeps.

(** k >= 1 iterations of ProximalPoint with L1(sigma=lam): entries of x0 of absolute value at
    most k tau lam are exactly 0, all others are moved towards 0 by exactly k tau lam *)
Theorem C110_l1 : forall n (o : Op (Vec n)) lam x0 tau k, is_L1 o lam -> 0 <= lam -> 0 < tau -> let T := INR (S k) * tau * lam in
  exists x tr, ProximalPoint o x0 tau (S k) None = Ok (x, tr) /\ forall i, (i < n)%nat ->
    (Rabs (get x0 i) <= T -> get x i = 0) /\ (T <= get x0 i -> get x i = get x0 i - T) /\ (get x0 i <= - T -> get x i = get x0 i + T).
Proof. exact C110_l1_l. Qed.
Print Assumptions C110_l1.

(** k iterations of ProximalPoint with Euclidean(sigma) return x0 shortened by exactly k tau
    sigma, and exactly 0 once |x0| <= k tau sigma *)
Theorem C110_euclidean : forall (E : IPS) fuel sigma x0 tau k, 0 < sigma -> 0 < tau -> let T := INR (S k) * tau * sigma in
  exists x tr, ProximalPoint (obj (S fuel) (euclid_body (E:=E) sigma)) x0 tau (S k) None = Ok (x, tr) /\
    (norm x0 <= T -> x = vzero) /\ (T < norm x0 -> x = (1 - T / norm x0) [*] x0).
Proof. exact C110_euclidean_l. Qed.
Print Assumptions C110_euclidean.

(** steps cannot be split for every convex function: with L2(Op=I, b=0, sigma=1), x = 12 and
    steps 1 and 1 two steps give 3, one step with 2 gives 4 *)
Theorem C110_split_refuted : exists (o : Op (Vec 1)) (x p q r : Vec 1), is_L2 o (id_linop (Vec 1)) vzero 1 /\ o_prox o x 1 = Ok p /\ o_prox o p 1 = Ok q /\ o_prox o x 2 = Ok r /\ get q 0 = 3 /\ get r 0 = 4.
Proof. exact C110_split_refuted_l. Qed.
Print Assumptions C110_split_refuted.

(** Euclidean(2) is convex with exact prox and a sharp minimum of slope 2 at the origin; from a
    point with |x0| = 3 and tau = 1/2 three iterations return exactly 0 *)
Example C110_example : let f : efun (Vec 2) := etot (fun x => 2 * norm x) in let o := obj 1 (euclid_body (E:=Vec 2) 2) in
  impl_prox o f /\ convex f /\ sharp_min f 2 vzero /\ keeps_subgrads f /\ forall x0, norm x0 = 3 -> exists tr, ProximalPoint o x0 (1 / 2) 3 None = Ok (vzero, tr).
Proof. exact C110_example_l. Qed.

(** the same for ProximalGradient: if f + e g (f smooth convex with L-Lipschitz gradient, g
    convex) grows at least with slope c > 0 around its minimiser xo, every iteration with 0
    < tau <= 2/L, without relaxation and acceleration, comes nearer to xo by c tau until it
    has reached it, and from |x0 - xo|/(c tau) iterations on the result is exactly xo *)
Theorem C110_gradient : forall (E : IPS) (of og : Op E) f df L (g : efun E) e c xo x0 tau beta niterback accel k,
  smooth_op of f df L -> impl_prox og g -> convex g -> 0 < e -> 0 < tau -> tau * L <= 2 -> accel = None \/ accel = Some "None"%string -> 0 < c -> sharp_min (eadd (etot f) (escal e g)) c xo ->
  exists x tr, ProximalGradient of og x0 [e] (Some tau) false beta 1 (S k) niterback accel None = Ok (x, tr) /\
    norm (x [-] xo) <= Rmax 0 (norm (x0 [-] xo) - INR (S k) * (c * tau)) /\ (norm (x0 [-] xo) <= INR (S k) * (c * tau) -> x = xo).
Proof. exact C110_gradient_l. Qed.
Print Assumptions C110_gradient.

(** LASSO with a weight above its largest useful value: if every entry of s A^T b is at most e
    lam - c in absolute value with c > 0, ProximalGradient with L2(Op=A, b, sigma=s) and
    L1(sigma=lam) returns exactly the zero vector from |x0|/(c tau) iterations on *)
Theorem C110_lasso_zero : forall n (F : IPS) (A : linop (Vec n) F) b s L lam e c (of og : Op (Vec n)) x0 tau beta niterback accel k,
  is_L2 of A b s -> is_L1 og lam -> 0 < s -> 0 < L -> (forall v, s * norm2 (A v) <= L * norm2 v) -> 0 <= lam -> 0 < e -> 0 < tau -> tau * L <= 2 -> accel = None \/ accel = Some "None"%string ->
  0 < c -> (forall i, (i < n)%nat -> Rabs (s * get (ladj A b) i) <= e * lam - c) -> norm x0 <= INR (S k) * (c * tau) ->
  exists tr, ProximalGradient of og x0 [e] (Some tau) false beta 1 (S k) niterback accel None = Ok (vzero, tr).
Proof. exact C110_lasso_zero_l. Qed.
Print Assumptions C110_lasso_zero.

(** A the identity on two entries, b = (3, -2), s = 1, L = 1, lam = 4, e = 1, c = 1, tau = 1
    meet the hypotheses, for instance from x0 with |x0| = 5 and 5 iterations *)
Example C110_lasso_example : exists (of og : Op (Vec 2)), let b := vtab 2 (fun i => if Nat.eqb i 0 then 3 else -2) in
  is_L2 of (id_linop (Vec 2)) b 1 /\ is_L1 og 4 /\ (forall v, 1 * norm2 (id_linop (Vec 2) v) <= 1 * norm2 v) /\
  (forall i, (i < 2)%nat -> Rabs (1 * get (ladj (id_linop (Vec 2)) b) i) <= 1 * 4 - 1) /\
  forall x0 : Vec 2, norm x0 = 5 -> exists tr, ProximalGradient of og x0 [1] (Some 1) false (1/2) 1 5 10 None None = Ok (vzero, tr).
Proof. exact C110_lasso_example_l. Qed.
