(** Property theorems for Sparse: statements only; every proof is [exact] a lemma of P_Sparse.v.
    Generated from the tagged lemmas of that file. *)
From Coq Require Import String Psatz.
From Verif Require Import Base Space Spec ConvexFacts Smooth VSum MatFacts M_ProxOp SpecOps P_ProxOp M_Norms P_Norms M_L1 M_L2 P_L1 P_L2 P_L21 M_Objs S_Lasso P_Lasso M_Loop LoopFacts SeqFacts M_PG M_Split M_PD M_Multi SplitMath P_PG P_PG2 P_PG3 P_Split P_Split2 P_Split3 P_PD P_PD2 S_Seq Compact Fejer P_Iter P_Iter2 P_Iter3 HahnBanach P_Qual M_Expr P_Expr P_Expr2 ExistMath P_Exist P_Exist2 P_Exist3.
From Verif Require Import S_Sparse.
From Verif Require Import P_Sparse.
Open Scope result_scope.
Open Scope R_scope.


(** basis pursuit min sum_i |x_i| s.t. A x = A xs has xs as its only solution for every xs that
    is zero outside S, if and only if A has the null space property on S; for any linear
    operator A on vectors and any set S of indices *)
Theorem C92_recovery : forall n (F : IPS) (A : linop (Vec n) F) S,
  (forall xs, supported S xs -> forall y, is_min (basis_pursuit A (A xs)) y <-> y = xs) <-> null_space A S.
Proof. exact C92_recovery_l. Qed.
Print Assumptions C92_recovery.

(** A with the quantitative null space property on S (rho < 1): every solution x of min sum_i
    |x_i| s.t. |A x - b| <= r is close to every feasible vector xs: sum_i |x_i - xs_i| <= (2
    (1 + rho) sum_(i not in S) |xs_i| + 4 gamma r) / (1 - rho): the error is at most a
    multiple of what xs has outside S plus a multiple of the noise level *)
Theorem C92_stable : forall n (F : IPS) (A : linop (Vec n) F) S rho gamma b r xs x, 0 <= rho < 1 -> 0 <= gamma -> robust_null_space A S rho gamma ->
  norm (A xs [-] b) <= r -> is_min (basis_pursuit_noise A b r) x ->
  sum_abs (x [-] xs) <= (2 * (1 + rho) * sum_out S xs + 4 * gamma * r) / (1 - rho).
Proof. exact C92_stable_l. Qed.
Print Assumptions C92_stable.

(** f = AffineSet(A, b) (inner solver exact), g = L1(sigma), sigma > 0, tau > 0, 0 < eta < 2,
    any start, either order, real vectors: ADMM and DouglasRachfordSplitting never raise,
    basis pursuit has a solution, the x and z of ADMM and the x of DouglasRachfordSplitting
    converge to solutions, and the x of ADMM satisfies A x = b exactly after every
    iteration. If b = A xs with xs zero outside S and A has the null space property on S,
    all of them converge to xs *)
Theorem C92_basis_pursuit : forall n (F : IPS) (A : linop (Vec n) F) b lam (f g : Op (Vec n)) x0 tau eta (gfirst : bool),
  is_affine f A b -> is_L1 g lam -> 0 < lam -> 0 < tau -> 0 < eta < 2 ->
  exists xs zs xd yd l l', (forall k, exists tr, ADMM f g (Some x0) tau k None gfirst = Ok (xs k, zs k, tr) /\ Forall (fun p => A (fst p) = b) tr) /\
    (forall k, A (xs (S k)) = b) /\ (forall k, exists tr, DouglasRachford f g x0 tau eta (S k) gfirst = Ok (xd k, yd k, tr)) /\
    is_min (basis_pursuit A b) l /\ is_min (basis_pursuit A b) l' /\ vcv xs l /\ vcv zs l /\ vcv xd l' /\
    forall S x, supported S x -> null_space A S -> b = A x -> l = x /\ l' = x.
Proof. exact C92_basis_pursuit_l. Qed.
Print Assumptions C92_basis_pursuit.

(** x solves basis pursuit exactly when A x = b and for some v the vector c = A^T v has |c_i| <=
    1 everywhere, c_i = 1 where x_i > 0 and c_i = -1 where x_i < 0 (whenever (A A^T) v = A z
    is solvable for every z, as the AffineSet object needs) *)
Theorem C92_certificate : forall n (F : IPS) (A : linop (Vec n) F) b x, (forall z, exists v, A (ladj A v) = A z) ->
  is_min (basis_pursuit A b) x <-> A x = b /\ exists v, forall i, (i < n)%nat -> let c := get (ladj A v) i in Rabs c <= 1 /\ (0 < get x i -> c = 1) /\ (get x i < 0 -> c = - 1).
Proof. exact C92_certificate_l. Qed.
Print Assumptions C92_certificate.

(** f = L1(sigma), g = EuclideanBall(b, r) on real vectors, sigma, r > 0, some x has |A x - b| <
    r, theta = 1, steps with tau mu |A a|^2 <= |a|^2, any start, either order: PrimalDual
    never raises and its x converges to a solution l of min sum_i |x_i| s.t. |A x - b| <= r;
    so does LinearizedADMM when mu |A a|^2 <= tau |a|^2. If A has the quantitative null
    space property on S, every solution, hence each limit, is within (2 (1 + rho) sum_(i not
    in S) |xs_i| + 4 gamma r) / (1 - rho) of every xs with |A xs - b| <= r *)
Theorem C92_noise : forall n m (A : linop (Vec n) (Vec m)) b r lam (f : Op (Vec n)) (g : Op (Vec m)) x0 tau mu (gfirst : bool),
  is_L1 f lam -> is_ball g b r -> 0 < lam -> 0 < r -> 0 < tau -> 0 < mu -> (exists x, norm (A x [-] b) < r) ->
  ((forall a, tau * mu * norm2 (A a) <= norm2 a) ->
    exists xs ys l, (forall k, exists tr, PrimalDual f g A None x0 (Scalar tau) (Scalar mu) None None 1 k gfirst = Ok (xs k, ys k, tr)) /\ vcv xs l /\ is_min (basis_pursuit_noise A b r) l /\
      forall S rho gamma z, 0 <= rho < 1 -> 0 <= gamma -> robust_null_space A S rho gamma -> norm (A z [-] b) <= r -> sum_abs (l [-] z) <= (2 * (1 + rho) * sum_out S z + 4 * gamma * r) / (1 - rho)) /\
  ((forall a, mu * norm2 (A a) <= tau * norm2 a) ->
    exists xs zs l, (forall k, exists tr, LinearizedADMM f g A (Some x0) tau mu k None = Ok (xs k, zs k, tr)) /\ vcv xs l /\ vcv zs (A l) /\ (forall k, norm (zs (S k) [-] b) <= r) /\ is_min (basis_pursuit_noise A b r) l /\
      forall S rho gamma z, 0 <= rho < 1 -> 0 <= gamma -> robust_null_space A S rho gamma -> norm (A z [-] b) <= r -> sum_abs (l [-] z) <= (2 * (1 + rho) * sum_out S z + 4 * gamma * r) / (1 - rho)).
Proof. exact C92_noise_l. Qed.
Print Assumptions C92_noise.

(** x minimises s/2 |A x - b|^2 subject to lower_i <= x_i <= upper_i (each bound optional)
    exactly when x satisfies the bounds and, with c = s A^T(b - A x), c_i > 0 only where x_i
    is at its upper bound and c_i < 0 only where x_i is at its lower bound *)
Theorem C92_box_optimality : forall n (F : IPS) (A : linop (Vec n) F) b s (lu : nlist bounds n) x, 0 < s ->
  is_min (bounded_ls A b s lu) x <-> edom (bounded_ls A b s lu) x /\
    forall i, (i < n)%nat -> let c := s * get (ladj A (b [-] A x)) i in (0 < c -> upper_of lu i = Some (get x i)) /\ (c < 0 -> lower_of lu i = Some (get x i)).
Proof. exact C92_box_optimality_l. Qed.
Print Assumptions C92_box_optimality.

(** f = L2(Op=A, b=b, sigma=s), g = Box(lower, upper) with lower <= upper, epsg > 0, s |A v|^2
    <= L |v|^2: if all the bounds are given, or more generally if the bounded least-squares
    problem has a solution, ProximalGradient with 0 < tau < 2/L and no acceleration never
    raises, every returned vector satisfies the bounds, they converge to a solution, and for
    tau <= 1/L the misfit after k iterations exceeds that of any vector z within the bounds
    by at most |x0 - z|^2/(2 tau k); with acceleration the excess over a solution z is at
    most 2 |x0 - z|^2/(tau (k+1)^2) *)
Theorem C92_box : forall n m (A : linop (Vec n) (Vec m)) b s (lu : nlist bounds n) (f g : Op (Vec n)) e L x0 tau beta niterback,
  is_L2 f A b s -> is_box g lu -> Forall bounds_ok (proj1_sig lu) -> 0 < s -> 0 < e -> 0 < L -> (forall v, s * norm2 (A v) <= L * norm2 v) -> 0 < tau < 2 / L ->
  ((forall i, (i < n)%nat -> lower_of lu i <> None /\ upper_of lu i <> None) -> exists z, is_min (bounded_ls A b s lu) z) /\
  ((exists z, is_min (bounded_ls A b s lu) z) -> forall accel, accel = None \/ accel = Some "None"%string ->
    exists xs l, xs 0%nat = x0 /\ (forall k, ProximalGradient f g x0 [e] (Some tau) false beta 1 (S k) niterback accel None = Ok (xs (S k), map xs (seq 1 (S k)))) /\
    (forall k, edom (bounded_ls A b s lu) (xs (S k))) /\ is_min (bounded_ls A b s lu) l /\ vcv xs l /\
    (tau <= / L -> forall k z, edom (bounded_ls A b s lu) z -> eval (bounded_ls A b s lu) (xs (S k)) - eval (bounded_ls A b s lu) z <= norm2 (x0 [-] z) / (2 * tau * INR (S k)))) /\
  (tau <= / L -> forall accel k, accel = Some "vandenberghe"%string \/ accel = Some "fista"%string -> (1 <= k)%nat ->
    exists x tr, ProximalGradient f g x0 [e] (Some tau) false beta 1 k niterback accel None = Ok (x, tr) /\ edom (bounded_ls A b s lu) x /\
    forall z, is_min (bounded_ls A b s lu) z -> eval (bounded_ls A b s lu) x - eval (bounded_ls A b s lu) z <= 2 * norm2 (x0 [-] z) / (tau * (INR k + 1)^2)).
Proof. exact C92_box_l. Qed.
Print Assumptions C92_box.

(** A x = x_0 + 2 x_1 on vectors of length 2: A has the null space property on {1} (also
    quantitatively with rho = gamma = 1/2) but not on {0}; the vector (0, 1) is zero outside
    {1}, AffineSet(A, 2), L2(A, 2), L1(1), EuclideanBall(2, 1) and Box([0,0],[1,1]) objects
    meet the hypotheses, and the step conditions hold with tau mu = 1/5 (PrimalDual), mu =
    1, tau = 5 (LinearizedADMM) and L = 5 *)
Example C92_example : let A := row12 in let one := fun i => Nat.eqb i 1 in let zero := fun i => Nat.eqb i 0 in let xs := vtab 2 (fun i => if Nat.eqb i 1 then 1 else 0) in
  let lu : nlist bounds 2 := exist _ [(Some 0, Some 1); (Some 0, Some 1)] eq_refl in
  null_space A one /\ robust_null_space A one (1 / 2) (1 / 2) /\ ~ null_space A zero /\ supported one xs /\ A xs = vtab 1 (fun _ => 2) /\
  (exists f, is_affine f A (A xs)) /\ (exists f, is_L2 f A (A xs) 1) /\ (exists g : Op (Vec 2), is_L1 g 1) /\ (exists g, is_ball g (A xs) 1) /\ (exists g, is_box g lu) /\ norm (A xs [-] A xs) < 1 /\ Forall bounds_ok (proj1_sig lu) /\
  (forall i, (i < 2)%nat -> lower_of lu i <> None /\ upper_of lu i <> None) /\ edom (bounded_ls A (A xs) 1 lu) xs /\
  (forall a, 1 / 5 * 1 * norm2 (A a) <= norm2 a) /\ (forall a, 1 * norm2 (A a) <= 5 * norm2 a) /\ (forall z, exists v, A (ladj A v) = A z).
Proof. exact C92_example_l. Qed.
