(** Property theorems for Path: statements only; every proof is [exact] a lemma of P_Path.v.
    Generated from the tagged lemmas of that file. *)
From Coq Require Import String Psatz Classical.
From Verif Require Import Base Space Spec VSum Sep ConvexFacts Smooth MatFacts M_ProxOp SpecOps P_ProxOp M_Loop LoopFacts SeqFacts M_PG P_PG P_PG2 P_PG3 S_Seq Compact Fejer IterMath IterMath2 IterMath3 S_Iter P_Iter S_Exist ExistMath CountMath M_L1 P_L1 M_L2 S_L2 P_L2 M_Objs S_Lasso P_Lasso S_PG2 S_Pnp PnpMath P_Pnp S_Noncvx NoncvxMath S_Breg2 P_Incons SeqConv P_Sparse S_Sparse.
From Verif Require Import S_Path.
From Verif Require Import P_Path.
Open Scope result_scope.
Open Scope R_scope.


(** f convex with L-Lipschitz gradient, g convex, eps > 0: the possible limits of
    ProximalGradient without backtracking and acceleration (over all starts, admissible
    steps and relaxations) are exactly the minimisers of f + eps g. No completeness or
    finite dimension is needed, and no assumption that minimisers exist *)
Theorem C103_limits : forall (E : IPS) (proxf proxg : Op E) f df L g eps l, smooth_op proxf f df L -> impl_prox proxg g -> convex g -> 0 < eps ->
  (pg_limit proxf proxg L eps l <-> is_min (eadd (etot f) (escal eps g)) l).
Proof. exact C103_limits_l. Qed.
Print Assumptions C103_limits.

(** limits l1, l2 for the weights eps1 < eps2: the larger weight never gives a smaller data term
    f nor a larger penalty g; the optimal value is a concave function of the weight, and a
    non-decreasing one when g >= 0 *)
Theorem C103_weight : forall (E : IPS) (proxf proxg : Op E) f df L g e1 e2 l1 l2, smooth_op proxf f df L -> impl_prox proxg g -> convex g -> 0 < e1 < e2 ->
  pg_limit proxf proxg L e1 l1 -> pg_limit proxf proxg L e2 l2 ->
  f l1 <= f l2 /\ eval g l2 <= eval g l1 /\
  (forall t l, 0 <= t <= 1 -> pg_limit proxf proxg L (t * e1 + (1 - t) * e2) l ->
     t * (f l1 + e1 * eval g l1) + (1 - t) * (f l2 + e2 * eval g l2) <= f l + (t * e1 + (1 - t) * e2) * eval g l) /\
  ((forall y, edom g y -> 0 <= eval g y) -> f l1 + e1 * eval g l1 <= f l2 + e2 * eval g l2).
Proof. exact C103_weight_l. Qed.
Print Assumptions C103_weight.

(** a limit l for the weight eps > 0 also solves the two constrained problems with its own
    values as bounds: it minimises the data term f among the vectors whose penalty is at
    most g(l), and the penalty g among the vectors whose data term is at most f(l) *)
Theorem C103_constrained : forall (E : IPS) (proxf proxg : Op E) f df L g eps l, smooth_op proxf f df L -> impl_prox proxg g -> convex g -> 0 < eps -> pg_limit proxf proxg L eps l ->
  edom g l /\ (forall y, edom g y -> eval g y <= eval g l -> f l <= f y) /\ (forall y, edom g y -> f y <= f l -> eval g l <= eval g y).
Proof. exact C103_constrained_l. Qed.
Print Assumptions C103_constrained.

(** L2(A, b, s) and L2(A, b', s) objects and a convex penalty g; l and l' limits for the data b
    and b' and the weights e and e'. Then s |A l' - A l|^2 <= s <b' - b, A l' - A l> + (e' -
    e)(g(l) - g(l')). In particular with the same weight the fit moves no more than the
    data, and with the same data and weight all limits (whatever the start and the step)
    have the same fit A l and the same penalty g(l) *)
Theorem C103_data : forall (E F : IPS) (A : linop E F) b b' s L (f f' proxg : Op E) g e e' l l', is_L2 f A b s -> is_L2 f' A b' s -> 0 < s -> 0 < L -> (forall v, s * norm2 (A v) <= L * norm2 v) ->
  impl_prox proxg g -> convex g -> 0 < e -> 0 < e' -> pg_limit f proxg L e l -> pg_limit f' proxg L e' l' ->
  s * norm2 (A l' [-] A l) <= s * << b' [-] b, A l' [-] A l >> + (e' - e) * (eval g l - eval g l') /\
  (e = e' -> norm (A l' [-] A l) <= norm (b' [-] b)) /\ (e = e' -> b = b' -> A l = A l' /\ eval g l = eval g l').
Proof. exact C103_data_l. Qed.
Print Assumptions C103_data.

(** limits l_k for weights eps_k -> 0 (g lower semicontinuous, and some minimiser of f over the
    domain of g exists): every cluster point of the l_k minimises f over the domain of g and
    has the least penalty g among these minimisers; if the l_k stay bounded (finite
    dimension) they approach the set of such points; and no l_k has a larger penalty than
    any of these minimisers *)
Theorem C103_vanishing : forall (E : IPS) (proxf proxg : Op E) f df L g eps l, smooth_op proxf f df L -> impl_prox proxg g -> convex g -> lsc g -> (forall k : nat, 0 < eps k) -> Un_cv eps 0 ->
  (forall k, pg_limit proxf proxg L (eps k) (l k)) -> (exists m, edom g m /\ forall y, edom g y -> f m <= f y) ->
  (forall p, cluster l p -> best_then (edom g) f (eval g) p) /\
  (bw E -> (exists M, forall k, norm (l k) <= M) -> approaches (best_then (edom g) f (eval g)) l) /\
  (forall k m, edom g m -> (forall y, edom g y -> f m <= f y) -> eval g (l k) <= eval g m).
Proof. exact C103_vanishing_l. Qed.
Print Assumptions C103_vanishing.

(** limits l_k for weights eps_k -> infinity (g lower semicontinuous with a minimiser): every
    cluster point of the l_k minimises g and has the least data term f among the minimisers
    of g; if the l_k stay bounded (finite dimension) they approach the set of such points;
    no l_k has a larger data term than any minimiser of g *)
Theorem C103_dominating : forall (E : IPS) (proxf proxg : Op E) f df L g eps l, smooth_op proxf f df L -> impl_prox proxg g -> convex g -> lsc g -> (forall k : nat, 0 < eps k) -> cv_infty eps ->
  (forall k, pg_limit proxf proxg L (eps k) (l k)) -> (exists m, is_min g m) ->
  (forall p, cluster l p -> best_then (edom g) (eval g) f p) /\
  (bw E -> (exists M, forall k, norm (l k) <= M) -> approaches (best_then (edom g) (eval g) f) l) /\
  (forall k m, is_min g m -> f (l k) <= f m).
Proof. exact C103_dominating_l. Qed.
Print Assumptions C103_dominating.

(** exact data b0 = A x for some x in the domain of g (lower semicontinuous), observed as b_k
    with |b_k - b0| <= d_k; l_k limits for L2(A, b_k, s) objects and weights eps_k. If d_k
    -> 0, eps_k -> 0 and d_k^2/eps_k -> 0, every cluster point of the l_k solves A p = b0
    with the least penalty g among all solutions, and bounded l_k (finite dimension)
    approach the set of such solutions; moreover g(l_k) <= g(m) + s d_k^2/(2 eps_k) for
    every solution m of A m = b0 *)
Theorem C103_noise : forall (E F : IPS) (A : linop E F) b0 b s L (of : nat -> Op E) proxg g eps d l, (forall k, is_L2 (of k) A (b k) s) -> 0 < s -> 0 < L -> (forall v, s * norm2 (A v) <= L * norm2 v) ->
  impl_prox proxg g -> convex g -> lsc g -> (forall k : nat, 0 < eps k) -> Un_cv eps 0 -> (forall k, norm (b k [-] b0) <= d k) -> Un_cv d 0 -> Un_cv (fun k => d k * d k / eps k) 0 ->
  (forall k, pg_limit (of k) proxg L (eps k) (l k)) -> (exists m, edom g m /\ A m = b0) ->
  (forall p, cluster l p -> is_min (eadd (indic (fun x => A x = b0)) g) p) /\
  (bw E -> (exists M, forall k, norm (l k) <= M) -> approaches (is_min (eadd (indic (fun x => A x = b0)) g)) l) /\
  (forall k m, edom g m -> A m = b0 -> eval g (l k) <= eval g m + s * (d k * d k) / (2 * eps k)).
Proof. exact C103_noise_l. Qed.
Print Assumptions C103_noise.

(** L2(A, b, s) and L1(lam) objects on vectors. For every weight e > 0 ProximalGradient has
    limits. For weights eps_k -> 0 its limits approach the set of the least squares
    solutions of A x = b with the least l1 norm, and all have at most that l1 norm; once e
    lam is at least every |s (A^T b)_i| the only limit is the zero vector *)
Theorem C103_lasso : forall n m (A : linop (Vec n) (Vec m)) b s lam L (f g : Op (Vec n)), is_L2 f A b s -> is_L1 g lam -> 0 < s -> 0 < lam -> 0 < L -> (forall v, s * norm2 (A v) <= L * norm2 v) ->
  (forall e, 0 < e -> exists l, pg_limit f g L e l) /\
  (forall eps l, (forall k : nat, 0 < eps k) -> Un_cv eps 0 -> (forall k, pg_limit f g L (eps k) (l k)) -> (exists x, ladj A (A x [-] b) = vzero) ->
     approaches (best_then (fun _ => True) (fun x => norm (A x [-] b)) abs_sum) l /\
     forall k x, best_then (fun _ => True) (fun x => norm (A x [-] b)) abs_sum x -> abs_sum (l k) <= abs_sum x) /\
  (forall e l, 0 < e -> (forall i, (i < n)%nat -> Rabs (s * get (ladj A b) i) <= e * lam) -> (pg_limit f g L e l <-> l = vzero)).
Proof. exact C103_lasso_l. Qed.
Print Assumptions C103_lasso.

(** what is NOT true: that the limit itself is determined by the operators, the data and the
    weight. With an L2 and an L1 object (LASSO) ProximalGradient can have different limits
    from different starts (they share the fit and the penalty, C103_data) *)
Theorem C103_start_refuted : ~ (forall n m (A : linop (Vec n) (Vec m)) b s lam L (f g : Op (Vec n)) e l l', is_L2 f A b s -> is_L1 g lam -> 0 < s -> 0 < lam -> 0 < L -> (forall v, s * norm2 (A v) <= L * norm2 v) -> 0 < e ->
  pg_limit f g L e l -> pg_limit f g L e l' -> l = l').
Proof. exact C103_start_refuted_l. Qed.
Print Assumptions C103_start_refuted.

(** A x = x_0 + 2 x_1 and b = 2: L2(A, b, 1) and L1(1) objects and L = 5 meet the hypotheses,
    and for 0 < e < 4 the vector (0, 1 - e/4) is a limit; the weights and noise levels
    1/(k+1) satisfy the conditions of C103_noise, the weights k+1 those of C103_dominating,
    and least squares solutions exist *)
Example C103_example : let A := row12 in let b : Vec 1 := vtab 1 (fun _ => 2) in
  (exists (f g : Op (Vec 2)), is_L2 f A b 1 /\ is_L1 g 1 /\ (exists h dh, smooth_op f h dh 5) /\ impl_prox g (etot (l1n 1)) /\ convex (etot (l1n (n:=2) 1)) /\ lsc (etot (l1n (n:=2) 1)) /\ is_min (etot (l1n (n:=2) 1)) vzero /\
     forall e, 0 < e < 4 -> pg_limit f g 5 e (vtab 2 (fun i => if Nat.eqb i 0 then 0 else 1 - e / 4))) /\
  (forall v, 1 * norm2 (A v) <= 5 * norm2 v) /\ (exists x, ladj A (A x [-] b) = vzero) /\ (exists x, A x = b) /\
  (forall k, 0 < / INR (S k)) /\ Un_cv (fun k => / INR (S k)) 0 /\ Un_cv (fun k => / INR (S k) * / INR (S k) / / INR (S k)) 0 /\ (forall k, 0 < INR (S k)) /\ cv_infty (fun k => INR (S k)).
Proof. exact C103_example_l. Qed.
