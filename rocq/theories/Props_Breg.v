(** Property theorems for Breg: statements only; every proof is [exact] a lemma of P_Breg.v.
    Generated from the tagged lemmas of that file. *)
From Coq Require Import Psatz.
From Verif Require Import Base Space Spec VSum ConvexFacts Smooth M_ProxOp SpecOps P_ProxOp M_Norms P_Norms M_Loop LoopFacts LoopFacts2 SeqFacts M_PG M_Split M_Breg SplitMath P_PG2 P_PG3 P_Split P_Split2.
From Verif Require Import S_Breg.
From Verif Require Import P_Breg.
Open Scope result_scope.
Open Scope R_scope.


(** f convex and differentiable, g convex after the linear operator, float alpha > 0, an inner
    solver that is exact on the operators it is handed, any warm flag, tolerances, start and
    iteration bound. Bregman never raises; its iterates follow the documented recursion; it
    stops after the first iteration j with |x_j - x_(j-1)| < tolx or f(x_j) < tolf (else
    after niterouter); for every computed j >= 1, q_j is a subgradient of g(A .) at x_j,
    f(x_j) never increases, and j (f(x_j) - f(u)) <= alpha (g(A u) - g(A x_1)) for every u
    in the domain *)
Theorem C59_bregman : forall (E F : IPS) (fuel : nat) (proxf : Op E) (proxg : Op F) f df g (A : E -> F) solver alpha x0 n warm tolx tolf,
  0 < alpha -> impl_prox proxf (etot f) -> impl_call proxf (etot f) -> (forall x, o_grad proxf x = Ok (Some (df x)) /\ is_grad f x (df x)) ->
  convex (etot f) -> impl_prox proxg g -> impl_call proxg g -> convex (epre g A) -> exact_solver f g A alpha solver ->
  exists xs qs k, Bregman (S fuel) proxf proxg x0 solver (PFloat alpha) n warm tolx tolf = Ok (xs k, map xs (seq 1 k)) /\
    xs 0%nat = x0 /\ breg_doc f df g A alpha xs qs k /\
    stops_when (fun j => norm (xs j [-] xs (j - 1)%nat) < tolx \/ f (xs j) < tolf) n k /\
    (forall j, (1 <= j <= k)%nat -> is_subgrad (epre g A) (xs j) (qs j)) /\
    (forall j, (1 <= j)%nat -> (S j <= k)%nat -> f (xs (S j)) <= f (xs j)) /\
    (forall j u, (1 <= j <= k)%nat -> edom g (A u) -> INR j * (f (xs j) - f u) <= alpha * (eval g (A u) - eval g (A (xs 1%nat)))).
Proof. exact C59_bregman_l. Qed.
Print Assumptions C59_bregman.

(** for every solver, operators and arguments, whenever Bregman returns: the solver was called
    in every iteration with the current solution (warm=True) or with x0 (warm=False) as
    starting point, first with f itself and then with f - <alpha q, .>, and always with
    alpha g; its solution (the array or the first component of the tuple) is the next
    iterate, passed to the callback *)
Theorem C59_start : forall (E F : IPS) (fuel : nat) (proxf : Op E) (proxg : Op F) solver alpha x0 n warm tolx tolf x tr,
  Bregman fuel proxf proxg x0 solver (PFloat alpha) n warm tolx tolf = Ok (x, tr) ->
  exists xs qs ag k, op_rmul fuel proxg (PFloat alpha) = Ok ag /\ x = xs k /\ tr = map xs (seq 1 k) /\ xs 0%nat = x0 /\ qs 0%nat = vzero /\ (k <= n)%nat /\
    forall j, (j < k)%nat -> exists o out d,
      match j with O => o = proxf | S _ => op_sub fuel proxf (PArray (alpha [*] qs j)) = Ok o end /\
      solver o ag (if warm then xs j else x0) = Ok out /\ solution out (xs (S j)) /\
      o_grad proxf (xs (S j)) = Ok (Some d) /\ qs (S j) = qs j [-] (1 / alpha) [*] d.
Proof. exact C59_start_l. Qed.
Print Assumptions C59_start.

(** an integer alpha never behaves as the float alpha: every call raises NotImplementedError *)
Theorem C59_int_alpha_refuted : forall (E F : IPS) fuel (proxf : Op E) (proxg : Op F) x0 solver z n warm tolx tolf,
  Bregman fuel proxf proxg x0 solver (PInt z) n warm tolx tolf = Err NotImplementedError.
Proof. exact C59_int_alpha_refuted_l. Qed.
Print Assumptions C59_int_alpha_refuted.

(** f = (x-1)^2/2, g = x^2/2, alpha = 1 and a solver returning a tuple meet the hypotheses of
    C59_bregman *)
Example C59_example : let f := fun x : R_IPS => 1 / 2 * ((x - 1) * (x - 1)) in
  let g := etot (E:=R_IPS) (fun x : R_IPS => 1 / 2 * (x * x)) in
  0 < 1 /\ impl_prox shifted1 (etot f) /\ impl_call shifted1 (etot f) /\
  (forall x : R_IPS, o_grad shifted1 x = Ok (Some (x - 1)) /\ is_grad f x (x - 1)) /\ convex (etot f) /\
  impl_prox (quad1 1) g /\ impl_call (quad1 1) g /\ convex (epre g (fun x : R_IPS => x)) /\
  exact_solver f g (fun x : R_IPS => x) 1 solver1.
Proof. exact C59_example_l. Qed.

(** for every deterministic denoiser that always returns, every proxf that always returns at
    tau, tau > 0, dims matching the size of x: PlugAndPlay with the default solver never
    raises, returns (x_n, z_n), calls back once per iteration and its iterates are exactly
    x_(k+1) = prox_(tau f)(z_k - u_k), z_(k+1) = denoiser(x_(k+1) + u_k, tau), u_(k+1) = u_k
    + x_(k+1) - z_(k+1) (gfirst=False), or with the denoising step first (gfirst=True); tau
    reaches the denoiser unchanged *)
Theorem C63_recursion : forall m fuel (proxf : Op (Vec m)) (den : Vec m -> R -> result (Vec m)) D P dims (x0 : Vec m) tau n z0 (gfirst : bool),
  0 < tau -> fold_right Nat.mul 1%nat dims = m -> (forall x, den x tau = Ok (D x tau)) -> (forall x, o_prox proxf x tau = Ok (P x tau)) ->
  exists xs zs us, PlugAndPlay_default (S fuel) proxf den dims x0 tau n z0 gfirst = Ok (xs n, zs n, map (fun j => (xs j, zs j)) (seq 1 n)) /\
    xs 0%nat = x0 /\ zs 0%nat = (match z0 with Some z => z | None => x0 end) /\ us 0%nat = vzero /\
    forall j, (j < n)%nat ->
      (if gfirst then zs (S j) = D (xs j [+] us j) tau /\ xs (S j) = P (zs (S j) [-] us j) tau
       else xs (S j) = P (zs j [-] us j) tau /\ zs (S j) = D (xs (S j) [+] us j) tau) /\
      us (S j) = us j [+] xs (S j) [-] zs (S j).
Proof. exact C63_recursion_l. Qed.
Print Assumptions C63_recursion.

(** if the denoiser is the prox of a convex g then plug-and-play is ADMM for f + g: it has
    ADMM's Lyapunov decrease for every solution of min f + g *)
Theorem C63_prox_denoiser : forall m fuel (proxf : Op (Vec m)) den dims (x0 : Vec m) tau n z0 f g,
  0 < tau -> fold_right Nat.mul 1%nat dims = m -> (forall x t, 0 < t -> exists p, den x t = Ok p /\ is_prox g t x p) -> impl_prox proxf f ->
  convex f -> convex g ->
  exists xs zs us, PlugAndPlay_default (S fuel) proxf den dims x0 tau n z0 false = Ok (xs n, zs n, map (fun j => (xs j, zs j)) (seq 1 n)) /\
    admm_doc f g tau xs zs us n /\
    (forall j, (j < n)%nat -> zs (S j) = zs j -> us (S j) = us j -> xs (S j) = zs (S j) /\ is_min (eadd f g) (xs (S j))) /\
    forall xo u, kkt f g xo u -> forall j, (j < n)%nat ->
      norm2 (zs (S j) [-] xo) + norm2 (us (S j) [+] tau [*] u) <= norm2 (zs j [-] xo) + norm2 (us j [+] tau [*] u).
Proof. exact C63_prox_denoiser_l. Qed.
Print Assumptions C63_prox_denoiser.

(** tau <= 0 and dims not matching the vector raise ValueError from the first denoising step on
    (proxf itself working) *)
Theorem C63_rejects : forall m fuel (proxf : Op (Vec m)) den dims (x0 : Vec m) tau n z0 P,
  (forall x, o_prox proxf x tau = Ok (P x)) -> tau <= 0 \/ fold_right Nat.mul 1%nat dims <> m ->
  PlugAndPlay_default (S fuel) proxf den dims x0 tau (S n) z0 false = Err ValueError.
Proof. exact C63_rejects_l. Qed.
Print Assumptions C63_rejects.

(** shrinking by 1/(1+tau) is a denoiser that always returns; it is the prox of |x|^2/2, so it
    meets the hypotheses of C63_recursion and C63_prox_denoiser with dims = [m] *)
Example C63_example : forall m : nat, let den := fun (x : Vec m) (t : R) => Ok (/ (1 + t) [*] x) in
  fold_right Nat.mul 1%nat [m] = m /\ (forall x, den x 1 = Ok (/ (1 + 1) [*] x)) /\
  (forall x t, 0 < t -> exists p, den x t = Ok p /\ is_prox (hsq_fun (Vec m)) t x p) /\ convex (hsq_fun (Vec m)).
Proof. exact C63_example_l. Qed.
