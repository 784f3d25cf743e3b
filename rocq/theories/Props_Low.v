(** Property theorems for Low: statements only; every proof is [exact] a lemma of P_Low.v.
    Generated from the tagged lemmas of that file. *)
From Coq Require Import String ZArith Permutation Sorted Psatz IndefiniteDescription.
From Verif Require Import Base Space Spec ConvexFacts Smooth VSum MatFacts M_ProxOp SpecOps P_ProxOp M_L1 M_L2 P_L2 M_Proj P_Proj2 P_Proj3 M_L0 S_L0 P_L0 P_Hankel M_SVD SVD SVD2 S_SVD P_SVD M_QE P_QE P_QE6 S_Lasso P_Lasso M_Loop LoopFacts SeqFacts M_PG M_Split S_PG2 P_PG P_PG2 S_Seq Fejer P_Iter S_Qual P_Qual S_Exist P_Exist P_Iht Sep P_Breg M_Low.
From Verif Require Import S_Low.
From Verif Require Import P_Low.
Open Scope result_scope.
Open Scope R_scope.


(** proxdual of a Nuclear object with weight mu >= 0 (inherited from the base class): the
    Euclidean projection on the matrices without singular value above mu, for every matrix
    and tau > 0 *)
Theorem C97_nuclear_dual : forall m n (svd : svdT m n) (eig : eigT n) mu, (forall X, svd_at svd X) -> 0 <= mu -> forall X tau, 0 < tau ->
  exists Y, o_proxdual (obj 2 (nuclear_body svd eig (WNum mu))) X tau = Ok Y /\ is_proj (fun Z => spectral_le Z mu) X Y.
Proof. exact C97_nuclear_dual_l. Qed.
Print Assumptions C97_nuclear_dual.

(** when an array solves the completion problem: s, lam > 0, A bounded: X minimises s/2 |A X -
    b|^2 + lam |X|_nuclear exactly when no singular value of G = s A^T(b - A X) exceeds lam
    and <G, X> = lam |X|_nuclear; in particular the zero matrix is a solution exactly when
    no singular value of s A^T b exceeds lam *)
Theorem C97_certificate : forall m n (F : IPS) (A : linop (Vec (m * n)) F) b s lam C, 0 < s -> 0 < lam -> 0 <= C -> (forall v, norm2 (A v) <= C * norm2 v) ->
  (forall X r, is_nuclear X r -> let G := s [*] ladj A (b [-] A X) in completes A b s lam X <-> spectral_le G lam /\ << G, X >> = lam * r) /\
  (completes A b s lam vzero <-> spectral_le (s [*] ladj A b) lam).
Proof. exact C97_certificate_l. Qed.
Print Assumptions C97_certificate.

(** low-rank matrix completion end to end: L2(A, b, s) and Nuclear(dims, sigma=mu) on real m x n
    matrices, s |A v|^2 <= L |v|^2, numpy's svd returning some singular value decomposition
    of every matrix. Whatever the start: (i) ProximalGradient without acceleration, 0 < eta
    < 2 - tau L/2, converges to a minimiser of s/2 |A X - b|^2 + eps mu |X|_nuclear; (ii)
    with acceleration, tau <= 1/L, the objective after N iterations is within 2 |x0 - Z|^2 /
    (tau (N+1)^2) of its value at every minimiser Z; (iii) DouglasRachford and (iv) ADMM,
    either order, any tau, converge to a minimiser of the problem with lam = mu *)
Theorem C97_solvers : forall m n (F : IPS) (o : Op (Vec (m * n))) (A : linop (Vec (m * n)) F) b s L (svd : svdT m n) eig mu, is_L2 o A b s -> 0 < s -> 0 < L ->
  (forall v, s * norm2 (A v) <= L * norm2 v) -> (forall X, svd_at svd X) -> 0 < mu ->
  let g := obj 2 (nuclear_body svd eig (WNum mu)) in
  (forall x0 eps tau beta eta niterback accel, 0 < eps -> 0 < tau -> 0 < eta < 2 - tau * L / 2 -> unaccelerated accel eta ->
    exists xs l, (forall N, ProximalGradient o g x0 [eps] (Some tau) false beta eta (S N) niterback accel None = Ok (xs (S N), map xs (seq 1 (S N)))) /\ completes A b s (eps * mu) l /\ vcv xs l) /\
  (forall x0 eps tau beta N niterback accel, 0 < eps -> 0 < tau <= / L -> (1 <= N)%nat -> accel = Some "vandenberghe"%string \/ accel = Some "fista"%string ->
    exists x tr, ProximalGradient o g x0 [eps] (Some tau) false beta 1 N niterback accel None = Ok (x, tr) /\ List.length tr = N /\
      forall Z v w, completes A b s (eps * mu) Z -> is_completion A b s (eps * mu) Z v -> is_completion A b s (eps * mu) x w -> w - v <= 2 * norm2 (x0 [-] Z) / (tau * (INR N + 1)^2)) /\
  (forall x0 tau eta gfirst, 0 < tau -> 0 < eta < 2 ->
    exists xs ys l, (forall N, exists tr, DouglasRachford o g x0 tau eta (S N) gfirst = Ok (xs N, ys N, tr)) /\ completes A b s mu l /\ vcv xs l) /\
  (forall x0 tau gfirst, 0 < tau ->
    exists xs zs l, (forall N, exists tr, ADMM o g (Some x0) tau N None gfirst = Ok (xs N, zs N, tr)) /\ completes A b s mu l /\ vcv xs l /\ vcv zs l).
Proof. exact C97_solvers_l. Qed.
Print Assumptions C97_solvers.

(** Hankel matrix estimation end to end: QuadraticEnvelopeRankL2(dims, r0, M) and Hankel(dims),
    0 < r0 <= min(m, n), min(m, n) >= 3, Q the quadratic envelope of the rank constraint:
    whatever the start, tau and order, ADMM never fails, both arrays it returns converge to
    the same Hankel matrix l, which minimises Q(X) + |X - M|^2/2 over the Hankel matrices;
    if rank(l) <= r0 then l is a nearest Hankel matrix of rank <= r0 to M, and in every case
    Q(l) + |l - M|^2/2 is a lower bound of |Y - M|^2/2 over these matrices. The same for
    DouglasRachford *)
Theorem C97_hankel : forall argsort m n (svd : svdT m n) eig r0 M (Q : efun (Vec (m * n))) x0 tau gfirst, argsort_ok argsort -> (forall X, svd_at svd X) -> quad_env (lowrank r0) Q ->
  (0 < r0 <= Nat.min m n)%nat -> (3 <= Nat.min m n)%nat -> 0 < tau ->
  let f := obj 2 (rl_body argsort svd eig r0 M) in let g := obj 2 (hankel_body (m:=m) (n:=n)) in
  let solves l := hankel_mat l /\ (forall Y, edom Q Y) /\
      (forall Y, hankel_mat Y -> eval Q l + / 2 * norm2 (l [-] M) <= eval Q Y + / 2 * norm2 (Y [-] M)) /\
      (forall Y, hankel_mat Y -> lowrank r0 Y -> eval Q l + / 2 * norm2 (l [-] M) <= / 2 * norm2 (Y [-] M)) /\
      (lowrank r0 l -> forall Y, hankel_mat Y -> lowrank r0 Y -> norm (l [-] M) <= norm (Y [-] M)) in
  (exists xs zs l, (forall N, exists tr, ADMM f g (Some x0) tau N None gfirst = Ok (xs N, zs N, tr)) /\ vcv xs l /\ vcv zs l /\ solves l) /\
  (forall eta, 0 < eta < 2 -> exists xs ys l, (forall N, exists tr, DouglasRachford f g x0 tau eta (S N) gfirst = Ok (xs N, ys N, tr)) /\ vcv xs l /\ solves l).
Proof. exact C97_hankel_l. Qed.
Print Assumptions C97_hankel.

(** with NuclearBall or L1Ball as the constraint, a minimiser inside the ball is never returned:
    L2(Op=identity, b=(1/2)) with radius 1 and the admissible step tau = 1 = 1/L: b itself
    is accepted by the ball and has misfit 0, but from every start, for every epsg > 0,
    every niter >= 1 (and whatever decomposition numpy's svd returns), ProximalGradient
    returns (1), whose misfit is 1/8 *)
Theorem C97_ball_refuted : forall maxiter xtol fuel eps beta niterback N, (0 < fuel)%nat -> (2 <= maxiter)%nat -> 0 < xtol < 1 / 2 -> 0 < eps ->
  (forall svd (o : Op (Vec (1 * 1))) (A : linop (Vec (1 * 1)) (Vec (1 * 1))) (b x0 : Vec (1 * 1)), get b 0 = 1 / 2 -> svd_at (m:=1) (n:=1) svd b -> (forall x, A x = x) -> is_L2 o A b 1 ->
    let g := obj 2 (nball_body (m:=1) (n:=1) svd 1 maxiter xtol fuel) in
    o_call g b = Ok (VBool true) /\ 1 / 2 * norm2 (A b [-] b) = 0 /\
    exists y tr, ProximalGradient o g x0 [eps] (Some 1) false beta 1 (S N) niterback None None = Ok (y, tr) /\ get y 0 = 1 /\ 1 / 2 * norm2 (A y [-] b) = 1 / 8) /\
  (forall (o : Op (Vec 1)) (A : linop (Vec 1) (Vec 1)) (b x0 : Vec 1), get b 0 = 1 / 2 -> (forall x, A x = x) -> is_L2 o A b 1 ->
    let g := obj 2 (l1ball_body 1 maxiter xtol fuel) in
    o_call g b = Ok (VBool true) /\ 1 / 2 * norm2 (A b [-] b) = 0 /\
    exists y tr, ProximalGradient o g x0 [eps] (Some 1) false beta 1 (S N) niterback None None = Ok (y, tr) /\ get y 0 = 1 /\ 1 / 2 * norm2 (A y [-] b) = 1 / 8).
Proof. exact C97_ball_refuted_l. Qed.
Print Assumptions C97_ball_refuted.

(** for every shape some function returns a singular value decomposition of every matrix; for
    every shape, mask p and s > 0 an object L2(Op=mask, b, sigma=s) exists and L = s is
    admissible; with the two diagonal entries of a 2 x 2 matrix observed as 3 and 1, s = lam
    = 1, diag(2, 0), of rank one, is a solution and 0 is not; envelopes of the rank bound
    exist *)
Example C97_example : (forall m n, exists svd : svdT m n, forall X, svd_at svd X) /\
  (forall m n p (b : Vec (m * n)) s, 0 < s -> exists (o : Op (Vec (m * n))) A, is_L2 o A b s /\ (forall v, A v = masked p v) /\ forall v, s * norm2 (A v) <= s * norm2 v) /\
  (forall A : linop (Vec (2 * 2)) (Vec (2 * 2)), (forall v, A v = masked (fun i => Nat.eqb i 0 || Nat.eqb i 3)%bool v) -> completes (m:=2) (n:=2) A (dg 3 1) 1 1 (dg 2 0) /\ ~ completes (m:=2) (n:=2) A (dg 3 1) 1 1 vzero) /\
  (forall m n r0, (0 < r0 <= Nat.min m n)%nat -> exists Q : efun (Vec (m * n)), quad_env (lowrank r0) Q).
Proof. exact C97_example_l. Qed.
