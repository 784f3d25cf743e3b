(** Property theorems for Int2: statements only; every proof is [exact] a lemma of P_Int2.v.
    Generated from the tagged lemmas of that file. *)
From Coq Require Import String Psatz.
From Verif Require Import Base Space Spec SpecOps Sep VSum MatFacts ConvexFacts M_ProxOp P_ProxOp M_L1 P_L1 M_Pen P_Pen M_Proj M_Norms M_Loop LoopFacts M_PG M_Split SplitMath M_Multi M_Dyk M_VStack LoopFacts2 S_Seq Fejer P_Iter S_PG3 P_PG3 P_Split2 M_Int P_Int.
From Verif Require Import P_Int2.
Open Scope result_scope.
Open Scope R_scope.


(** DouglasRachfordSplitting started from integers, the first prox steps being evaluated on
    integer arrays by operators that may return anything there: under the assumptions of the
    float case (exact proxes on float arrays, convex functions, a solution with a
    multiplier, 0 < eta < 2, finite dimension) the returned vectors still converge to a
    minimiser of f + g *)
Theorem C83_douglas_rachford : forall (E : IPS) (af ag : aop E) (proxf proxg : Op E) f g x0 tau eta (gfirst : bool), bw E ->
  on_floats proxf af -> on_floats proxg ag -> (forall x, exists p, ao_prox af x tau = Ok p) -> (forall x, exists p, ao_prox ag x tau = Ok p) ->
  impl_prox proxf f -> impl_prox proxg g -> convex f -> convex g -> 0 < tau -> 0 < eta < 2 -> (exists x u, kkt f g x u) ->
  exists xs ys l, (forall n, exists tr, aDouglasRachford af ag (Arr true x0) tau eta (S n) gfirst = Ok (xs n, ys n, tr)) /\
    is_min (eadd f g) l /\ vcv (fun n => a_val (xs n)) l.
Proof. exact C83_douglas_rachford_l. Qed.
Print Assumptions C83_douglas_rachford.

(** GeneralizedProximalGradient cannot be started from integers: with at least one non-smooth
    function and one iteration it never returns, and raises TypeError whenever the operators
    themselves do not raise (any smooth functions, weights that sum to 1, any acceleration) *)
Theorem C83_generalized_pg_refuted : forall (E : IPS) (proxfs proxgs : list (aop E)) (x0 : E) tau epsg weights eta niter accel, proxgs <> [] -> (1 <= niter)%nat ->
  (forall r, aGeneralizedProximalGradient proxfs proxgs (Arr true x0) tau epsg weights eta niter accel <> Ok r) /\
  ((forall o x, In o proxfs -> exists g, ao_grad o x = Ok g) -> (forall o x t, In o proxgs -> exists p, ao_prox o x t = Ok p) ->
   (exists e, epsg = [e]) -> (exists w, weights = Some w /\ length w = length proxgs /\ Rsum w = 1 /\ forall a, In a w -> a <> 0) -> accel_known accel = true ->
   aGeneralizedProximalGradient proxfs proxgs (Arr true x0) tau epsg weights eta niter accel = Err TypeError).
Proof. exact C83_generalized_pg_refuted_l. Qed.
Print Assumptions C83_generalized_pg_refuted.

(** started from floats the same code is the solver of the other properties: same vector, same
    callbacks, same exceptions *)
Theorem C83_generalized_pg_float : forall (E : IPS) (fs gs : list (Op E)) (afs ags : list (aop E)) x0 tau epsg weights eta niter accel,
  Forall2 on_floats fs afs -> Forall2 on_floats gs ags ->
  aGeneralizedProximalGradient afs ags (Arr false x0) tau epsg weights eta niter accel =
  (r <- GeneralizedProximalGradient fs gs x0 tau epsg weights eta niter accel ;; Ok (Arr false (fst r), map (Arr false) (snd r))).
Proof. exact C83_generalized_pg_float_l. Qed.
Print Assumptions C83_generalized_pg_float.

(** L2 without operator, sigma >= 0, tau > 0: on floats the result is the proximal point of
    sigma/2 |x - b|^2 + alpha <q, x>, and on integers it is the same point, except with q
    given and b missing, where it raises TypeError for every integer array *)
Theorem C83_l2 : forall (E : IPS) sigma alpha (b q : option E) isint (x : E) tau, 0 <= sigma -> 0 < tau ->
  (isint = true /\ b = None /\ q <> None /\ al2_prox sigma alpha b q (Arr isint x) tau = Err TypeError) \/
  ((isint = false \/ b <> None \/ q = None) /\ exists p, al2_prox sigma alpha b q (Arr isint x) tau = Ok (Arr false p) /\
    is_prox (etot (fun v => sigma / 2 * norm2 (v [-] match b with Some b => b | None => vzero end) + alpha * << match q with Some q => q | None => vzero end, v >>)) tau x p).
Proof. exact C83_l2_l. Qed.
Print Assumptions C83_l2.

(** calling Orthogonal raises TypeError whenever Q x is an integer array (for instance Q the
    identity and x integers), even without b, whatever f is; when Q x is a float array it is
    f(Q x + b) *)
Theorem C83_orthogonal_call_refuted : forall (E : IPS) A (Q : arr E -> arr E) b (f : arr E -> result A) x,
  (a_int (Q x) = true -> aorth_call Q b f x = Err TypeError) /\
  (a_int (Q x) = false -> aorth_call Q b f x = f (Arr false (a_val (Q x) [+] match b with Some b => b | None => vzero end))).
Proof. exact C83_orthogonal_call_refuted_l. Qed.
Print Assumptions C83_orthogonal_call_refuted.

(** Orthogonal(f, Identity) on the integer 1, for f returning the entry *)
Example C83_orthogonal_example : aorth_call (E:=R_IPS) (fun x => x) None (fun y => Ok (a_val y)) (Arr true (1 : R_IPS)) = Err TypeError /\
  aorth_call (E:=R_IPS) (fun x => x) None (fun y => Ok (a_val y)) (Arr false (1 : R_IPS)) = Ok (1 + 0 : R_IPS).
Proof. exact C83_orthogonal_example_l. Qed.

(** f = g = x^2/2 with integer-typed results, from the integer 3: the first returned x is 1 (not
    3/2), the limit is the minimiser 0 *)
Example C83_douglas_rachford_example : exists xs ys, (forall n, exists tr, aDouglasRachford iquad iquad (Arr true (3 : R_IPS)) 1 1 (S n) false = Ok (xs n, ys n, tr)) /\
  xs 0%nat = Arr true (1 : R_IPS) /\ vcv (fun n => a_val (xs n)) (0 : R_IPS).
Proof. exact C83_douglas_rachford_example_l. Qed.

(** one smooth and one non-smooth function x^2/2 from the integer 3 *)
Example C83_generalized_pg_example : aGeneralizedProximalGradient [iquad] [iquad] (Arr true (3 : R_IPS)) None [1] (Some [1]) 1 5 None = Err TypeError.
Proof. exact C83_generalized_pg_example_l. Qed.

(** Simplex with one row of two zeros and radius 1: the projection of the row computed by the
    code is [1/2, 1/2], the result for integers is [0, 0] *)
Example C83_simplex_example : let P := simplex_proj (n:=2) 1 100 (/ 10 ^ 8) 5 in let x : Vec (1 * 2) := vtab (1 * 2) (fun _ => 0) in
  (forall p, (p < 2)%nat -> exists y, simplex_prox_rows (r:=1) (c:=2) P x 1 = Ok y /\ get y p = 1/2) /\
  (forall p, (p < 2)%nat -> exists q, isimplex_rows (r:=1) (c:=2) true P x 1 = Ok q /\ get q p = 0).
Proof. exact C83_simplex_example_l. Qed.

(** for float arrays the remaining models of this file are the ones of the other properties:
    Dykstra's loop, Simplex with dims, VStack, and DouglasRachfordSplitting (same vectors) *)
Theorem C83_float_loops :
  (forall (E : IPS) amax (x0 : E) projs niter tol, icyclic_dykstra amax (fun v => v) x0 projs niter tol = cyclic_dykstra amax x0 projs niter tol) /\
  (forall r c (P : Vec c -> result (Vec c)) (x : Vec (r * c)) tau, isimplex_rows false P x tau = simplex_prox_rows P x tau) /\
  (forall r c (P : Vec r -> result (Vec r)) (x : Vec (r * c)) tau, isimplex_cols false P x tau = simplex_prox_cols P x tau) /\
  (forall v x tau, ivstack_prox false v x tau = vstack_prox v x tau) /\
  (forall (E : IPS) (af ag : aop E) (f g : Op E) x0 tau eta niter gfirst x y tr, on_floats f af -> on_floats g ag -> DouglasRachford f g x0 tau eta niter gfirst = Ok (x, y, tr) ->
     exists tr', aDouglasRachford af ag (Arr false x0) tau eta niter gfirst = Ok (Arr false x, Arr false y, tr')).
Proof. exact C83_float_loops_l. Qed.
Print Assumptions C83_float_loops.
