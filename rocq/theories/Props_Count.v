(** Property theorems for Count: statements only; every proof is [exact] a lemma of P_Count.v.
    Generated from the tagged lemmas of that file. *)
From Coq Require Import String Psatz.
From Verif Require Import Base Space Spec Sep Cplx ConvexFacts Smooth VSum MatFacts M_ProxOp SpecOps P_ProxOp M_Norms P_Norms M_L1 M_L0 M_Pen S_L1 P_L1 M_Loop LoopFacts SeqFacts M_PG M_Split M_PD SplitMath P_PG P_PG2 P_PG3 P_Split2 S_Seq Compact Fejer IterMath S_Iter P_Iter S_Inexact InexactMath M_Objs S_Lasso P_Lasso S_L0 P_L0 S_Sparse M_Count CountMath.
From Verif Require Import S_Count.
From Verif Require Import P_Count.
Open Scope result_scope.
Open Scope R_scope.


(** with operators that do not count (every class but L1, L0, L0Ball, L10Ball and compositions
    of them) the solvers with counters return exactly what the solvers of the other
    properties return, exceptions included, and leave the counters alone *)
Theorem C100_plain : forall (E F : IPS) (f g : Op E) (h : Op F) (A : linop E F) alias cf cg niter gfirst,
  (forall x0 tau, cProximalPoint (plain f) cf x0 tau niter = match ProximalPoint f x0 tau niter None with Ok (x, tr) => Ok (x, cf, tr) | Err e => Err e end) /\
  (forall x0 epsg tau bt beta eta nb accel tol, cProximalGradient f (plain g) cg x0 epsg tau bt beta eta niter nb accel tol =
     match ProximalGradient f g x0 epsg tau bt beta eta niter nb accel tol with Ok r => Ok (r, cg) | Err e => Err e end) /\
  (forall x0 tau z0, cHQS (plain f) (plain g) cf cg x0 tau niter z0 gfirst = with_counters (HQS f g x0 tau niter z0 gfirst) (cf, cg)) /\
  (forall x0 tau z0, cADMM (plain f) (plain g) cf cg x0 tau niter z0 gfirst = with_counters (ADMM f g x0 tau niter z0 gfirst) (cf, cg)) /\
  (forall x0 tau eta, cDouglasRachford (plain f) (plain g) cf cg x0 tau eta niter gfirst = with_counters (DouglasRachford f g x0 tau eta niter gfirst) (cf, cg)) /\
  (forall x0 tau mu z0, cLinearizedADMM (plain f) (plain h) cf cg A x0 tau mu niter z0 = with_counters (LinearizedADMM f h A x0 tau mu niter z0) (cf, cg)) /\
  (forall x0 tau mu y0 z theta, cPrimalDual (plain f) (plain h) cf cg A alias x0 tau mu y0 z theta niter gfirst = with_counters (PrimalDual f h A alias x0 tau mu y0 z theta niter gfirst) (cf, cg)).
Proof. exact C100_plain_l. Qed.
Print Assumptions C100_plain.

(** an operator that counts (d = 1; d = 0 for one that does not) inside HQS, ADMM,
    DouglasRachfordSplitting or ProximalGradient with a fixed step (eta = 1, any
    acceleration and tolerance): it is called exactly once per iteration. The operator whose
    counter is c when the solver starts uses in iteration k = 0, 1, ... the parameter of
    index c + k + 1, so sigma(0) is never used by a new object; at the end the counter is c
    + the number of iterations *)
Theorem C100_index : forall (E : IPS) (f g : COp E) df dg atf atg cf cg, ticks f df atf -> ticks g dg atg ->
  (forall x0 tau n z0 gfirst x z tr c, 0 < tau -> cHQS f g cf cg x0 [tau] n z0 gfirst = Ok (x, z, tr, c) ->
     c = (n * df + cf, n * dg + cg)%nat /\ List.length tr = n /\
     forall k xk zk, nth_error tr k = Some (xk, zk) -> exists u v, atf (S k * df + cf)%nat u tau = Ok xk /\ atg (S k * dg + cg)%nat v tau = Ok zk) /\
  (forall x0 tau n z0 gfirst x z tr c, 0 < tau -> cADMM f g cf cg x0 tau n z0 gfirst = Ok (x, z, tr, c) ->
     c = (n * df + cf, n * dg + cg)%nat /\ List.length tr = n /\
     forall k xk zk, nth_error tr k = Some (xk, zk) -> exists u v, atf (S k * df + cf)%nat u tau = Ok xk /\ atg (S k * dg + cg)%nat v tau = Ok zk) /\
  (forall x0 tau eta n gfirst x y tr c, 0 < tau -> cDouglasRachford f g cf cg x0 tau eta n gfirst = Ok (x, y, tr, c) ->
     c = (n * df + cf, n * dg + cg)%nat /\ List.length tr = n /\
     forall k xk yk, nth_error tr k = Some (xk, yk) -> exists y v p, yk = y [+] eta [*] (p [-] xk) /\
       if gfirst then atg (S k * dg + cg)%nat y tau = Ok xk /\ atf (S k * df + cf)%nat v tau = Ok p
       else atf (S k * df + cf)%nat y tau = Ok xk /\ atg (S k * dg + cg)%nat v tau = Ok p) /\
  (forall pf x0 e tau beta n nb accel tol x tr c, 0 < e -> 0 < tau -> cProximalGradient pf g cg x0 [e] (Some tau) false beta 1 n nb accel tol = Ok (x, tr, c) ->
     c = (List.length tr * dg + cg)%nat /\ (1 <= List.length tr <= n)%nat /\
     forall k xk, nth_error tr k = Some xk -> exists v, atg (S k * dg + cg)%nat v (e * tau) = Ok xk).
Proof. exact C100_index_l. Qed.
Print Assumptions C100_index.

(** f convex with L-Lipschitz gradient, g convex, eps > 0, 0 < eta < 2 - tau L/2, fixed step, no
    acceleration, f + eps g has a minimiser, finite dimension. The operator for g may change
    from call to call: its k-th call returns the proximal point of g only up to an error e
    k. If the errors have a finite sum, the vectors returned by ProximalGradient with niter
    = 1, 2, ... still converge to a minimiser of f + eps g; the counter ends at cnt niter *)
Theorem C100_proximal_gradient : forall (E : IPS) (proxf : Op E) (proxg : COp E) f df L g cnt e eps x0 tau beta eta niterback accel, bw E ->
  smooth_op proxf f df L -> serves proxg cnt e (eps * tau) g -> summable e -> convex g -> 0 < eps -> 0 < tau -> 0 < eta < 2 - tau * L / 2 -> unaccelerated accel eta ->
  (exists m, is_min (eadd (etot f) (escal eps g)) m) ->
  exists xs l, xs 0%nat = x0 /\ (forall n, cProximalGradient proxf proxg (cnt 0%nat) x0 [eps] (Some tau) false beta eta (S n) niterback accel None = Ok (xs (S n), map xs (seq 1 (S n)), cnt (S n))) /\
    is_min (eadd (etot f) (escal eps g)) l /\ vcv xs l.
Proof. exact C100_proximal_gradient_l. Qed.
Print Assumptions C100_proximal_gradient.

(** f, g convex, 0 < eta < 2, tau > 0, any start and either order, finite dimension, and some
    point is a solution with a multiplier. Both operators may change from call to call, the
    k-th call being exact up to ef k and eg k. If the errors have a finite sum, the x
    returned by DouglasRachfordSplitting with niter = 1, 2, ... still converges to a
    minimiser l of f + g, and the auxiliary vector y to l - tau u (gfirst) or l + tau u for
    a multiplier u *)
Theorem C100_douglas_rachford : forall (E : IPS) (proxf proxg : COp E) f g cf cg ef eg x0 tau eta (gfirst : bool), bw E ->
  serves proxf cf ef tau f -> serves proxg cg eg tau g -> summable ef -> summable eg -> convex f -> convex g -> 0 < tau -> 0 < eta < 2 -> (exists x u, kkt f g x u) ->
  exists xs ys l u, (forall n, exists tr, cDouglasRachford proxf proxg (cf 0%nat) (cg 0%nat) x0 tau eta (S n) gfirst = Ok (xs n, ys n, tr, (cf (S n), cg (S n)))) /\
    kkt f g l u /\ is_min (eadd f g) l /\ vcv xs l /\ vcv ys (if gfirst then l [-] tau [*] u else l [+] tau [*] u).
Proof. exact C100_douglas_rachford_l. Qed.
Print Assumptions C100_douglas_rachford.

(** f, g convex, tau > 0, any start and either order, finite dimension, and some point is a
    solution with a multiplier. Both operators may change from call to call, the k-th call
    being exact up to ef k and eg k. If the errors have a finite sum, the two vectors
    returned by ADMM with niter = 0, 1, 2, ... still converge to one and the same minimiser
    of f + g *)
Theorem C100_admm : forall (E : IPS) (proxf proxg : COp E) f g cf cg ef eg x0 z0 x z tau (gfirst : bool), bw E ->
  serves proxf cf ef tau f -> serves proxg cg eg tau g -> summable ef -> summable eg -> convex f -> convex g -> 0 < tau -> x0z0_init x0 z0 = Ok (x, z) -> (exists x u, kkt f g x u) ->
  exists xs zs l, (forall n, exists tr, cADMM proxf proxg (cf 0%nat) (cg 0%nat) x0 tau n z0 gfirst = Ok (xs n, zs n, tr, (cf n, cg n))) /\ is_min (eadd f g) l /\ vcv xs l /\ vcv zs l.
Proof. exact C100_admm_l. Qed.
Print Assumptions C100_admm.

(** f, g convex, one fixed tau > 0, any start and either order, finite dimension, and the
    penalised problem min over (w, v) of f(w) + g(v) + |w-v|^2/(2 tau) has a solution. Both
    operators may change from call to call, the k-th call being exact up to ef k and eg k.
    If the errors have a finite sum, the pair returned by HQS with niter = 0, 1, 2, ...
    still converges to a solution of that problem *)
Theorem C100_hqs : forall (E : IPS) (proxf proxg : COp E) f g cf cg ef eg x0 z0 x z tau (gfirst : bool), bw E ->
  serves proxf cf ef tau f -> serves proxg cg eg tau g -> summable ef -> summable eg -> convex f -> convex g -> 0 < tau -> x0z0_init x0 z0 = Ok (x, z) ->
  let J := mkEfun (E := Prod_IPS E E) (fun p => edom f (fst p) /\ edom g (snd p)) (fun p => eval f (fst p) + eval g (snd p) + / (2 * tau) * norm2 (fst p [-] snd p)) in
  (exists p, is_min J p) ->
  exists xs zs xl zl, (forall n, exists tr, cHQS proxf proxg (cf 0%nat) (cg 0%nat) x0 [tau] n z0 gfirst = Ok (xs n, zs n, tr, (cf n, cg n))) /\ is_min J (xl, zl) /\ vcv xs xl /\ vcv zs zl.
Proof. exact C100_hqs_l. Qed.
Print Assumptions C100_hqs.

(** which classes count. L1 with a callable sigma: every prox call with tau > 0 adds 1 and is
    the exact proximal point for the weights sigma(new count). L0 with a callable sigma:
    adds 1 and keeps the entries with |x_i| > tau sigma(new count). L0Ball with a callable
    radius: adds 1 and is a projection on the vectors with radius(new count) non-zeros.
    Orthogonal: adds what the operator inside adds, and is the exact proximal point of h(Q x
    + b) if the inner call is one of h (under the hypotheses on Q of the mode). Every other
    operator: adds nothing *)
Theorem C100_classes :
  (forall n (sig : nat -> nlist R n) g, exists at_, ticks (l1_cop sig g) 1 at_ /\
     forall k x t, 0 < t -> nonneg_list (sig k) -> exists p, at_ k x t = Ok p /\ is_prox (etot (wl1 (sig k) (gvec g))) t x p) /\
  (forall n (sig : nat -> R), exists at_, ticks (l0_cop (n:=n) sig) 1 at_ /\
     forall k x t, 0 < t -> exists p, at_ k x t = Ok p /\ forall i, (i < n)%nat -> (Rabs (get x i) <= t * sig k -> get p i = 0) /\ (t * sig k < Rabs (get x i) -> get p i = get x i)) /\
  (forall argsort n (rad : nat -> Z), argsort_ok argsort -> exists at_, ticks (l0ball_cop argsort (n:=n) rad) 1 at_ /\
     forall k x t, 0 < t -> (0 < rad k)%Z -> exists p, at_ k x t = Ok p /\ is_proj (l0_ball (Z.to_nat (rad k))) x p) /\
  (forall (E : IPS) (o : Op E), ticks (plain o) 0 (fun _ x t => o_prox o x t)) /\
  (forall (E F : IPS) (f : COp F) (Q : linop E F) partial b alpha d at_, 0 < alpha -> ticks f d at_ -> exists at', ticks (orth_cop f Q partial b alpha) d at' /\
     forall k h, (forall y t, 0 < t -> exists p, at_ k y t = Ok p /\ is_prox h t y p) ->
       (if partial then forall y, Q (ladj Q y) = alpha [*] y else (forall y, Q (ladj Q y) = y) /\ forall x, ladj Q (Q x) = x) ->
       forall x t, 0 < t -> exists p, at' k x t = Ok p /\ is_prox (epre h (fun x => Q x [+] b)) t x p).
Proof. exact C100_classes_l. Qed.
Print Assumptions C100_classes.

(** an operator that does not count and implements the prox of g serves without error; L1 with
    callable sigma, used with step t, serves for the weights s with the error t |sigma(k) -
    s| in its call number k, whatever the offset g *)
Theorem C100_serves :
  (forall (E : IPS) (o : Op E) g c t, impl_prox o g -> 0 < t -> serves (plain o) (fun _ => c) (fun _ => 0) t g) /\
  (forall n (sig : nat -> nlist R n) (s : nlist R n) g c t, (forall k, nonneg_list (sig k)) -> nonneg_list s -> 0 < t ->
     serves (l1_cop sig g) (fun k => (k + c)%nat) (fun k => t * wdist (sig (S (k + c))) s) t (etot (wl1 s (gvec g)))).
Proof. exact C100_serves_l. Qed.
Print Assumptions C100_serves.

(** LASSO with a moving weight. f = L2(Op=A, b=b, sigma=s), g = L1(sigma=w) with a callable w >=
    0 whose values approach lam > 0 so fast that the sum of |w(k) - lam| is finite, g's
    counter at any value c. ProximalGradient (fixed step 0 < tau < 2/L, s|Av|^2 <= L|v|^2,
    no acceleration), ADMM and DouglasRachfordSplitting (any tau > 0, 0 < eta < 2, either
    order) never raise, and what they return with niter = 1, 2, ... converges to a solution
    of the LASSO with the limit weight (epsg lam for ProximalGradient); the counter ends at
    c + niter *)
Theorem C100_lasso : forall n m (f : Op (Vec n)) (A : linop (Vec n) (Vec m)) b s (w : nat -> R) lam c x0,
  is_L2 f A b s -> 0 < s -> 0 < lam -> (forall k, 0 <= w k) -> summable (fun k => Rabs (w k - lam)) -> let g := l1_cop (fun k => const_sigma n (w k)) None in
  (forall e L tau beta niterback accel, 0 < e -> 0 < L -> (forall v, s * norm2 (A v) <= L * norm2 v) -> 0 < tau < 2 / L -> accel = None \/ accel = Some "None"%string ->
     exists xs l, (forall k, exists tr, cProximalGradient f g c x0 [e] (Some tau) false beta 1 (S k) niterback accel None = Ok (xs k, tr, (S k + c)%nat)) /\ is_min (etot (lasso A b s (e * lam))) l /\ vcv xs l) /\
  (forall cf tau gfirst, 0 < tau -> exists xs zs l, (forall k, exists tr, cADMM (plain f) g cf c (Some x0) tau k None gfirst = Ok (xs k, zs k, tr, (cf, (k + c)%nat))) /\ is_min (etot (lasso A b s lam)) l /\ vcv xs l /\ vcv zs l) /\
  (forall cf tau eta gfirst, 0 < tau -> 0 < eta < 2 -> exists xs ys l, (forall k, exists tr, cDouglasRachford (plain f) g cf c x0 tau eta (S k) gfirst = Ok (xs k, ys k, tr, (cf, (S k + c)%nat))) /\ is_min (etot (lasso A b s lam)) l /\ vcv xs l).
Proof. exact C100_lasso_l. Qed.
Print Assumptions C100_lasso.

(** a solver run is not a function of its arguments: for every n >= 1 there are an L1 operator
    with a callable sigma and a start such that running ProximalPoint for n iterations
    twice, with the same object and the same arguments, returns two different vectors,
    because the counter is not reset *)
Theorem C100_rerun_refuted : forall niter, (1 <= niter)%nat -> exists (sig : nat -> nlist R 1) (x0 : Vec 1) x1 c1 t1 x2 c2 t2,
  (forall k, nonneg_list (sig k)) /\
  cProximalPoint (l1_cop sig None) 0 x0 1 niter = Ok (x1, c1, t1) /\ cProximalPoint (l1_cop sig None) c1 x0 1 niter = Ok (x2, c2, t2) /\ x1 <> x2.
Proof. exact C100_rerun_refuted_l. Qed.
Print Assumptions C100_rerun_refuted.

(** ProximalGradient with backtracking (eta = 1, any acceleration and tolerance) calls an
    operator that counts at least once and at most niterback times per iteration: after n
    iterations its counter lies between c + n and c + n niterback, so sigma(k) is in general
    not the parameter of iteration k *)
Theorem C100_backtracking : forall (E : IPS) (pf : Op E) (g : COp E) at_ c x0 e tau beta n nb accel tol x tr c', ticks g 1 at_ -> 0 < e -> 0 < beta -> match tau with Some t => 0 < t | None => True end -> (1 <= nb)%nat ->
  cProximalGradient pf g c x0 [e] tau true beta 1 n nb accel tol = Ok (x, tr, c') -> (List.length tr + c <= c' <= List.length tr * nb + c)%nat /\ (tol = None -> List.length tr = n).
Proof. exact C100_backtracking_l. Qed.
Print Assumptions C100_backtracking.

(** PrimalDual uses only proxdual of its second operator, and L1.proxdual without offset uses
    the box built with sigma(0) and does not count: as proxg of PrimalDual a callable sigma
    is no schedule. Two callables with the same value at 0 give the same run for every
    operator, step, start and number of iterations, and the counter of the L1 object stays
    where it was *)
Theorem C100_primal_dual_refuted : forall (E : IPS) n (f : COp E) (sig sig' : nat -> nlist R n) (A : linop E (Vec n)) alias x0 tau mu y0 z theta niter gfirst cf cg, sig 0%nat = sig' 0%nat ->
  let run s := cPrimalDual f (l1_cop s None) cf cg A alias x0 tau mu y0 z theta niter gfirst in
  run sig = run sig' /\ (forall x y tr c, run sig = Ok (x, y, tr, c) -> snd c = cg).
Proof. exact C100_primal_dual_refuted_l. Qed.
Print Assumptions C100_primal_dual_refuted.

(** the deblending tutorial. f = AffineSet(A, d) (inner solver exact), g = Orthogonal(L0(sigma),
    Q) with Q^T Q = I (for instance the adjoint of a tight patched transform, real arrays, N
    coefficients), sigma callable and >= 0 with finite sum (for instance s 0.9^k), HQS with
    gfirst=False, any tau > 0, start and offset b. No exception. From the first iteration on
    x fits the data exactly (A x = d); the first x is the projection of the start on the
    data-fitting set, that is its minimum-norm element when the start is zero. Iteration k
    moves x by at most tau sigma sqrt N, and z stays that close to x. So x and z converge to
    one point l with A l = d, and l is no further from the x of iteration k than tau sqrt N
    times the sum of the remaining thresholds: the start and the first thresholds decide the
    result. The counter of the L0 object ends at c + niter *)
Theorem C100_deblending : forall (E F : IPS) n (f : Op E) (A : linop E F) d (Q : linop E (Vec n)) (sig : nat -> R) b alpha x0 z0 x z tau cf c, bw E ->
  is_affine f A d -> (forall v, ladj Q (Q v) = v) -> summable (fun k => sig (S (k + c))) -> 0 < alpha -> 0 < tau -> x0z0_init x0 z0 = Ok (x, z) ->
  exists xs zs l, (forall k, exists tr, cHQS (plain f) (orth_cop (l0_cop sig) Q false b alpha) cf c x0 [tau] k z0 false = Ok (xs k, zs k, tr, (cf, (k + c)%nat))) /\
    (forall k, A (xs (S k)) = d) /\ zs 0%nat = z /\ (forall k, is_proj (fun v => A v = d) (zs k) (xs (S k))) /\
    (forall k, norm (zs (S k) [-] xs (S k)) <= tau * sig (S (k + c)) * sqrt (INR n) /\ norm (xs (S (S k)) [-] xs (S k)) <= tau * sig (S (k + c)) * sqrt (INR n)) /\
    A l = d /\ vcv xs l /\ vcv zs l /\ forall k B, (forall m, RS m (fun j => sig (S (j + (k + c)))) <= B) -> norm (l [-] xs (S k)) <= tau * B * sqrt (INR n).
Proof. exact C100_deblending_l. Qed.
Print Assumptions C100_deblending.

(** L1 with sigma(k) = 1 + 2^-k has finite total distance to the weight 1, and L0 with sigma(k)
    = s 0.9^k (deblending) a finite sum, at most 9 s from any later call on; the identity
    satisfies Q^T Q = I and AffineSet on x0 + x1 = 3 exists; with backtracking one iteration
    can count twice (f = |x|^2, tau = 1, beta = 1/2, x0 = 1, sigma = 0) *)
Example C100_example :
  summable (fun k => Rabs (1 + (/ 2) ^ k - 1)) /\ (forall s c, 0 <= s -> summable (fun k => s * (9 / 10) ^ (S (k + c))) /\ forall m, RS m (fun j => s * (9 / 10) ^ (S (j + c))) <= 9 * s) /\
  (forall (E : IPS) (v : E), ladj (id_linop E) (id_linop E v) = v) /\ (exists f : Op (Vec 2), is_affine f sumop (vtab 1 (fun _ => 3))) /\
  (let f : Op (Vec 1) := mkOp (fun x => Ok (VNum (norm2 x))) (fun x t => Ok x) (fun x t => Ok x) (fun x => Ok (Some (2 [*] x))) true in
   cProximalGradient f (l1_cop (fun _ => const_sigma 1 0) None) 0 (vtab 1 (fun _ => 1)) [1] (Some 1) true (/ 2) 1 1 10 None None = Ok (vzero, [vzero], 2%nat)).
Proof. exact C100_example_l. Qed.
