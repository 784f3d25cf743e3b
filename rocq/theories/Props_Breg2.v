(** Property theorems for Breg2: statements only; every proof is [exact] a lemma of P_Breg2.v.
    Generated from the tagged lemmas of that file. *)
From Coq Require Import String Psatz Classical ConstructiveEpsilon.
From Verif Require Import Base Space Spec ConvexFacts Smooth VSum MatFacts M_ProxOp SpecOps P_ProxOp M_Norms P_Norms M_L1 M_L2 P_L1 P_L2 P_L21 M_Objs S_Lasso P_Lasso M_Loop LoopFacts LoopFacts2 SeqFacts M_PG M_Split M_PD M_Multi SplitMath P_PG P_PG2 P_PG3 P_Split P_Split2 P_Split3 P_PD P_PD2 M_Breg P_Breg S_Seq Compact Fejer P_Iter P_Iter2 P_Iter3 P_Iter4 HahnBanach P_Qual M_Expr P_Expr P_Expr2 ExistMath P_Exist P_Exist2 P_Exist3 P_Sparse.
From Verif Require Import S_Breg2.
From Verif Require Import P_Breg2.
Open Scope result_scope.
Open Scope R_scope.


(** for every L2(Op=B, b=b, sigma=s) object with bounded B, every g with g(A .) convex and every
    proxg that is correct for g, alpha > 0, if the problems s/2 |B x - c|^2 + alpha g(A x)
    have minimisers and the solver returns one whenever one exists: Bregman never raises; it
    stops after the first iteration j with |x_j - x_(j-1)| < tolx or s/2 |B x_j - b|^2 <
    tolf (else after niterouter); x_(j+1) minimises s/2 |B x - b_j|^2 + alpha g(A x), where
    b_j is the data with the residuals b - B x_i of all earlier iterations added back; and
    if B x_j = b for some j >= 1 then x_j already minimises g(A x) subject to B x = b *)
Theorem C93_add_back : forall (E F D : IPS) (fuel : nat) (proxf : Op E) (proxg : Op F) (B : linop E D) b s g (A : E -> F) solver alpha x0 n warm tolx tolf C,
  0 < s -> 0 < alpha -> is_L2 proxf B b s -> 0 <= C -> (forall v, norm2 (B v) <= C * norm2 v) -> impl_prox proxg g -> impl_call proxg g -> convex (epre g A) ->
  (forall c, exists x, is_min (penalised g A B s alpha c) x) -> good_solver (fun x => s / 2 * norm2 (B x [-] b)) g A alpha solver ->
  exists xs k, Bregman (S fuel) proxf proxg x0 solver (PFloat alpha) n warm tolx tolf = Ok (xs k, map xs (seq 1 k)) /\ xs 0%nat = x0 /\
    stops_when (fun j => norm (xs j [-] xs (j - 1)%nat) < tolx \/ s / 2 * norm2 (B (xs j) [-] b) < tolf) n k /\
    (forall j, (j < k)%nat -> is_min (penalised g A B s alpha (b [+] VS j (fun i => b [-] B (xs (S i))))) (xs (S j))) /\
    (forall j, (1 <= j <= k)%nat -> B (xs j) = b -> is_min (constrained g A B b) (xs j)).
Proof. exact C93_add_back_l. Qed.
Print Assumptions C93_add_back.

(** under the same hypotheses, for every feasible x* (B x* = b) with a multiplier v (B^T v is a
    subgradient of g(A .) at x*; x* then solves the constrained problem): after j iterations
    |B x_j - b| <= (alpha / s) |v| / sqrt j, and the value g(A x_j) is above the optimal one
    by at most 2 |v| |B x_j - b| and below it by at most |v| |B x_j - b| *)
Theorem C93_rate : forall (E F D : IPS) (fuel : nat) (proxf : Op E) (proxg : Op F) (B : linop E D) b s g (A : E -> F) solver alpha x0 n warm tolx tolf C xo vo,
  0 < s -> 0 < alpha -> is_L2 proxf B b s -> 0 <= C -> (forall v, norm2 (B v) <= C * norm2 v) -> impl_prox proxg g -> impl_call proxg g -> convex (epre g A) ->
  (forall c, exists x, is_min (penalised g A B s alpha c) x) -> good_solver (fun x => s / 2 * norm2 (B x [-] b)) g A alpha solver ->
  B xo = b -> multiplier_at g A B xo vo ->
  is_min (constrained g A B b) xo /\
  exists xs k, Bregman (S fuel) proxf proxg x0 solver (PFloat alpha) n warm tolx tolf = Ok (xs k, map xs (seq 1 k)) /\
    stops_when (fun j => norm (xs j [-] xs (j - 1)%nat) < tolx \/ s / 2 * norm2 (B (xs j) [-] b) < tolf) n k /\
    forall j, (1 <= j <= k)%nat -> edom g (A (xs j)) /\ norm (B (xs j) [-] b) <= alpha / s * norm vo / sqrt (INR j) /\
      - (norm vo * norm (B (xs j) [-] b)) <= eval g (A (xs j)) - eval g (A xo) <= 2 * norm vo * norm (B (xs j) [-] b).
Proof. exact C93_rate_l. Qed.
Print Assumptions C93_rate.

(** in addition, on a space where bounded sequences have convergent subsequences, with g(A .)
    closed and its level sets bounded, a solution with a multiplier and tolx, tolf <= 0: the
    vectors returned for niterouter = 0, 1, 2, ... come arbitrarily close to the set of
    solutions of: minimise g(A x) subject to B x = b; and they converge to the solution if
    it is unique *)
Theorem C93_converges : forall (E F D : IPS) (fuel : nat) (proxf : Op E) (proxg : Op F) (B : linop E D) b s g (A : E -> F) solver alpha x0 warm tolx tolf C xo vo,
  bw E -> closed (epre g A) -> level_bounded (epre g A) ->
  0 < s -> 0 < alpha -> is_L2 proxf B b s -> 0 <= C -> (forall v, norm2 (B v) <= C * norm2 v) -> impl_prox proxg g -> impl_call proxg g -> convex (epre g A) ->
  (forall c, exists x, is_min (penalised g A B s alpha c) x) -> good_solver (fun x => s / 2 * norm2 (B x [-] b)) g A alpha solver ->
  B xo = b -> multiplier_at g A B xo vo -> tolx <= 0 -> tolf <= 0 ->
  exists xs, (forall n, exists tr, Bregman (S fuel) proxf proxg x0 solver (PFloat alpha) n warm tolx tolf = Ok (xs n, tr) /\ length tr = n) /\
    approaches (is_min (constrained g A B b)) xs /\
    forall l, (forall y, is_min (constrained g A B b) y <-> y = l) -> vcv xs l.
Proof. exact C93_converges_l. Qed.
Print Assumptions C93_converges.

(** for every L2(Op=B, b=b, sigma=s) and L1(sigma=lam) object on real vectors, s, lam, alpha >
    0, B x = b solvable, the equations B B^T v = B z solvable, and a solver that returns a
    minimiser of s/2 |B x - b|^2 + <v, x> + alpha lam sum_i |x_i| whenever one exists:
    Bregman with tolx, tolf <= 0 never raises and what it returns for niterouter = 0, 1, 2,
    ... comes arbitrarily close to the solutions of: minimise sum_i |x_i| subject to B x =
    b, for every alpha; if b = B xs for some xs that is zero outside S and B has the null
    space property on S, it converges to xs *)
Theorem C93_basis_pursuit : forall n (D : IPS) (fuel : nat) (proxf proxg : Op (Vec n)) (B : linop (Vec n) D) b s lam solver alpha x0 warm tolx tolf,
  0 < s -> 0 < lam -> 0 < alpha -> is_L2 proxf B b s -> is_L1 proxg lam -> (exists x, B x = b) -> (forall z, exists v, B (ladj B v) = B z) ->
  good_solver (fun x => s / 2 * norm2 (B x [-] b)) (etot (fun x : Vec n => lam * sum_abs x)) (fun x => x) alpha solver -> tolx <= 0 -> tolf <= 0 ->
  exists xs, (forall k, exists tr, Bregman (S fuel) proxf proxg x0 solver (PFloat alpha) k warm tolx tolf = Ok (xs k, tr) /\ length tr = k) /\
    approaches (is_min (basis_pursuit B b)) xs /\
    forall S x, supported S x -> null_space B S -> b = B x -> vcv xs x.
Proof. exact C93_basis_pursuit_l. Qed.
Print Assumptions C93_basis_pursuit.

(** B x = x_0 on vectors of length 2, b = 3, s = lam = alpha = 1 and an inner solver that soft-
    thresholds (in a closed form read off the gradient at zero) meet the hypotheses of the
    C93 theorems, although the inner problems have minimisers only for some v; (3, 0) is
    zero outside {0} and B has the null space property on {0} *)
Example C93_example : let B := first2 in let xs := vtab 2 (fun i => if Nat.eqb i 0 then 3 else 0) in let b := B xs in
  (exists f, is_L2 f B b 1) /\ (exists g : Op (Vec 2), is_L1 g 1) /\ (forall z, exists v, B (ladj B v) = B z) /\ (forall v, norm2 (B v) <= 1 * norm2 v) /\
  good_solver (fun x => 1 / 2 * norm2 (B x [-] b)) (etot (fun x : Vec 2 => 1 * sum_abs x)) (fun x => x) 1 first2_solver /\
  ~ exact_solver (fun x => 1 / 2 * norm2 (B x [-] b)) (etot (fun x : Vec 2 => 1 * sum_abs x)) (fun x => x) 1 first2_solver /\
  supported (fun i => Nat.eqb i 0) xs /\ null_space B (fun i => Nat.eqb i 0) /\ multiplier_at (etot (fun x : Vec 2 => 1 * sum_abs x)) (fun x => x) B xs (vtab 1 (fun _ => 1)).
Proof. exact C93_example_l. Qed.
