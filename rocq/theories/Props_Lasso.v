(** Property theorems for Lasso: statements only; every proof is [exact] a lemma of P_Lasso.v.
    Generated from the tagged lemmas of that file. *)
From Coq Require Import String Psatz.
From Verif Require Import Base Space Spec ConvexFacts Smooth VSum MatFacts M_ProxOp SpecOps P_ProxOp M_Norms P_Norms M_L1 P_L1 M_L2 P_L2 M_Loop LoopFacts SeqFacts M_PG M_Split M_PD SplitMath P_PG P_PG2 P_PG3 P_Split2 P_Split3 P_PD S_Seq SeqConv Compact Fejer P_Iter P_Iter2 Sep P_Conv2 ExactSolve M_Objs.
From Verif Require Import S_Lasso.
From Verif Require Import P_Lasso.
Open Scope result_scope.
Open Scope R_scope.


(** x solves the LASSO problem min s/2 |A x - b|^2 + lam sum_i |x_i| exactly when, with c = s
    A^T(b - A x), every |c_i| <= lam, c_i = lam where x_i > 0 and c_i = -lam where x_i < 0;
    in particular x = 0 is a solution exactly when lam is at least every |s (A^T b)_i| *)
Theorem C78_optimality : forall n (F : IPS) (A : linop (Vec n) F) b s lam, 0 < s -> 0 <= lam ->
  (forall x, is_min (etot (lasso A b s lam)) x <->
    forall i, (i < n)%nat -> let c := s * get (ladj A (b [-] A x)) i in Rabs c <= lam /\ (0 < get x i -> c = lam) /\ (get x i < 0 -> c = - lam)) /\
  (is_min (etot (lasso A b s lam)) vzero <-> forall i, (i < n)%nat -> Rabs (s * get (ladj A b) i) <= lam).
Proof. exact C78_optimality_l. Qed.
Print Assumptions C78_optimality.

(** for s > 0 and lam > 0 the LASSO problem has a solution, for every operator A on vectors and
    every b (however degenerate A is) *)
Theorem C78_solution : forall n (F : IPS) (A : linop (Vec n) F) b s lam, 0 < s -> 0 < lam -> exists x, is_min (etot (lasso A b s lam)) x.
Proof. exact C78_solution_l. Qed.
Print Assumptions C78_solution.

(** ProximalGradient applied to an L2(Op=A, b=b, sigma=s) object and an L1(sigma=lam) object,
    with epsg = [e] > 0, s|Av|^2 <= L|v|^2 and a fixed step 0 < tau < 2/L, without
    acceleration: the vectors returned with niter = 1, 2, ... never raise and converge to a
    solution of the LASSO with weight e lam; and when tau <= 1/L, after k iterations the
    objective exceeds its minimum by at most |x0 - z|^2/(2 tau k) for every solution z *)
Theorem C78_ista : forall n m (f g : Op (Vec n)) (A : linop (Vec n) (Vec m)) b s lam e L x0 tau beta niterback accel,
  is_L2 f A b s -> is_L1 g lam -> 0 < s -> 0 < lam -> 0 < e -> 0 < L -> (forall v, s * norm2 (A v) <= L * norm2 v) -> 0 < tau < 2 / L ->
  accel = None \/ accel = Some "None"%string ->
  exists xs l, xs 0%nat = x0 /\ (forall k, ProximalGradient f g x0 [e] (Some tau) false beta 1 (S k) niterback accel None = Ok (xs (S k), map xs (seq 1 (S k)))) /\
    is_min (etot (lasso A b s (e * lam))) l /\ vcv xs l /\
    (tau <= / L -> forall k z, is_min (etot (lasso A b s (e * lam))) z -> lasso A b s (e * lam) (xs (S k)) - lasso A b s (e * lam) z <= norm2 (x0 [-] z) / (2 * tau * INR (S k))).
Proof. exact C78_ista_l. Qed.
Print Assumptions C78_ista.

(** the same with acceleration='fista' or 'vandenberghe' and 0 < tau <= 1/L: after k iterations
    the returned vector's objective exceeds the minimum by at most 2|x0 - z|^2/(tau (k+1)^2)
    for every solution z (and solutions exist) *)
Theorem C78_fista : forall n m (f g : Op (Vec n)) (A : linop (Vec n) (Vec m)) b s lam e L x0 tau beta niterback accel k,
  is_L2 f A b s -> is_L1 g lam -> 0 < s -> 0 < lam -> 0 < e -> 0 < L -> (forall v, s * norm2 (A v) <= L * norm2 v) -> 0 < tau <= / L ->
  accel = Some "vandenberghe"%string \/ accel = Some "fista"%string -> (1 <= k)%nat ->
  exists x tr, ProximalGradient f g x0 [e] (Some tau) false beta 1 k niterback accel None = Ok (x, tr) /\
    forall z, is_min (etot (lasso A b s (e * lam))) z -> lasso A b s (e * lam) x - lasso A b s (e * lam) z <= 2 * norm2 (x0 [-] z) / (tau * (INR k + 1)^2).
Proof. exact C78_fista_l. Qed.
Print Assumptions C78_fista.

(** ADMM applied to the same two objects, with any tau > 0, any starting vectors and either
    order: the two returned vectors both converge to one and the same solution of the LASSO
    as niter grows *)
Theorem C78_admm : forall n m (f g : Op (Vec n)) (A : linop (Vec n) (Vec m)) b s lam x0 z0 x z tau (gfirst : bool),
  is_L2 f A b s -> is_L1 g lam -> 0 < s -> 0 < lam -> 0 < tau -> x0z0_init x0 z0 = Ok (x, z) ->
  exists xs zs l, (forall k, exists tr, ADMM f g x0 tau k z0 gfirst = Ok (xs k, zs k, tr)) /\ is_min (etot (lasso A b s lam)) l /\ vcv xs l /\ vcv zs l.
Proof. exact C78_admm_l. Qed.
Print Assumptions C78_admm.

(** the same for DouglasRachfordSplitting with any tau > 0 and 0 < eta < 2, either order *)
Theorem C78_douglas_rachford : forall n m (f g : Op (Vec n)) (A : linop (Vec n) (Vec m)) b s lam x0 tau eta (gfirst : bool),
  is_L2 f A b s -> is_L1 g lam -> 0 < s -> 0 < lam -> 0 < tau -> 0 < eta < 2 ->
  exists xs ys l, (forall k, exists tr, DouglasRachford f g x0 tau eta (S k) gfirst = Ok (xs k, ys k, tr)) /\ is_min (etot (lasso A b s lam)) l /\ vcv xs l.
Proof. exact C78_douglas_rachford_l. Qed.
Print Assumptions C78_douglas_rachford.

(** LinearizedADMM applied to an L1(sigma=lam) object, an L2(b=b, sigma=s) object and the
    operator A, with mu |Av|^2 <= kappa tau |v|^2 for some kappa <= 1: the returned x
    converges to a solution of the LASSO and the returned z to A times that solution *)
Theorem C78_linearized_admm : forall n m (g : Op (Vec n)) (f : Op (Vec m)) (A : linop (Vec n) (Vec m)) b s lam tau mu kappa x0 z0 x z,
  is_L1 g lam -> is_L2b f b s -> 0 < s -> 0 < lam -> 0 < tau -> 0 < mu -> 0 <= kappa <= 1 -> (forall a, mu * norm2 (A a) <= kappa * tau * norm2 a) ->
  x0z0_initA (lapp A) x0 z0 = Ok (x, z) ->
  exists xs zs l, (forall k, exists tr, LinearizedADMM g f A x0 tau mu k z0 = Ok (xs k, zs k, tr)) /\ is_min (etot (lasso A b s lam)) l /\ vcv xs l /\ vcv zs (A l).
Proof. exact C78_linearized_admm_l. Qed.
Print Assumptions C78_linearized_admm.

(** PrimalDual applied to an L1(sigma=lam) object, an L2(b=b, sigma=s) object and the operator
    A, with constant steps, theta = 1, and tau mu |Av|^2 <= kappa |v|^2 for some kappa <= 1,
    either order: the returned x converges to a solution l of the LASSO and the returned y
    to s(A l - b) *)
Theorem C78_primal_dual : forall n m (g : Op (Vec n)) (f : Op (Vec m)) (A : linop (Vec n) (Vec m)) b s lam alias x0 tau mu kappa y0 gfirst,
  is_L1 g lam -> is_L2b f b s -> 0 < s -> 0 < lam -> 0 < tau -> 0 < mu -> 0 <= kappa <= 1 -> (forall a, tau * mu * norm2 (A a) <= kappa * norm2 a) ->
  exists xs ys l, (forall k, exists tr, PrimalDual g f A alias x0 (Scalar tau) (Scalar mu) y0 None 1 k gfirst = Ok (xs k, ys k, tr)) /\
    is_min (etot (lasso A b s lam)) l /\ vcv xs l /\ vcv ys (s [*] (A l [-] b)).
Proof. exact C78_primal_dual_l. Qed.
Print Assumptions C78_primal_dual.

(** the operator (x1, x2) -> x1 + x2 with b = 3, s = lam = 1: L2 and L1 objects of the library
    with exact inner solvers exist for it, L = 2 meets the bound, (2, 0) and (1, 1) are both
    solutions and 0 is not; and exact inner solvers exist for vectors of every length *)
Example C78_example : let b : Vec 1 := vtab 1 (fun _ => 3) in
  (exists (f g : Op (Vec 2)), is_L2 f sumop b 1 /\ is_L1 g 1) /\ (exists f : Op (Vec 1), is_L2b f b 1) /\ (forall v, 1 * norm2 (sumop v) <= 2 * norm2 v) /\
  is_min (etot (lasso sumop b 1 1)) (vtab 2 (fun i => if Nat.eqb i 0 then 2 else 0)) /\ is_min (etot (lasso sumop b 1 1)) (vtab 2 (fun _ => 1)) /\ ~ is_min (etot (lasso sumop b 1 1)) vzero /\
  forall n (F : IPS), exists ext : L2Ext (Vec n) F, l2_exact ext.
Proof. exact C78_example_l. Qed.
