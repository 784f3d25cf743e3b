(** Property theorems for ProxOp: statements only; every proof is [exact] a lemma of P_ProxOp.v.
    Generated from the tagged lemmas of that file. *)
From Verif Require Import Base Space Spec ConvexFacts M_ProxOp SpecOps.
From Coq Require Import Psatz.
From Verif Require Import P_ProxOp.
Open Scope result_scope.


(** whatever methods a class overrides, prox and proxdual with tau <= 0 raise ValueError before
    anything else is computed *)
Theorem C01_guard_rejects : forall (E : IPS) (fuel : nat) (b : Body E) (x : E) (tau : R),
  tau <= 0 ->
  o_prox (obj (S fuel) b) x tau = Err ValueError /\
  o_proxdual (obj (S fuel) b) x tau = Err ValueError.
Proof. exact guard_rejects. Qed.
Print Assumptions C01_guard_rejects.

(** with tau > 0 the guard adds nothing: an overridden method returns exactly what its body
    computes *)
Theorem C01_guard_transparent : forall (E : IPS) (fuel : nat) (b : Body E) (x : E) (tau : R),
  0 < tau ->
  (forall m, b_prox b = Some m -> o_prox (obj (S fuel) b) x tau = m x tau) /\
  (forall m, b_proxdual b = Some m -> o_proxdual (obj (S fuel) b) x tau = m x tau).
Proof. exact guard_transparent. Qed.
Print Assumptions C01_guard_transparent.

(** for a vector of steps, one non-positive entry is enough to reject and otherwise the call
    goes through *)
Theorem C01_guard_array : forall (A : Type) (taus : list R) (k : result A),
  ((exists t, In t taus /\ t <= 0) -> check_tau_array taus k = Err ValueError) /\
  ((forall t, In t taus -> 0 < t) -> check_tau_array taus k = k).
Proof. exact guard_array. Qed.
Print Assumptions C01_guard_array.

(** the guard is not transparent for the call form prox(x, tau=t): a positive step passed by
    keyword always raises IndexError *)
Theorem C01_keyword_tau_refuted : forall (A : Type) (t : R) (k : R -> result A),
  0 < t -> check_tau_call (Keyword t) k = Err IndexError /\ check_tau_call (Positional t) k = k t.
Proof. exact keyword_tau_refuted. Qed.
Print Assumptions C01_keyword_tau_refuted.

(** if a class overrides prox only, and its prox is the exact proximal map of a convex f, then
    the inherited proxdual is the exact proximal map of the conjugate *)
Theorem C02_default_proxdual : forall (E : IPS) (fuel : nat) (b : Body E) (f fs : efun E) m,
  b_prox b = Some m -> b_proxdual b = None ->
  convex f -> is_conj f fs ->
  (forall x tau, 0 < tau -> exists p, m x tau = Ok p /\ is_prox f tau x p) ->
  impl_prox (obj (S (S fuel)) b) f /\ impl_proxdual (obj (S (S fuel)) b) fs.
Proof. exact default_proxdual. Qed.
Print Assumptions C02_default_proxdual.

(** symmetrically, a class that overrides proxdual only (exact prox of fs, with f the conjugate
    of fs) inherits an exact prox of f *)
Theorem C02_default_prox : forall (E : IPS) (fuel : nat) (b : Body E) (f fs : efun E) m,
  b_proxdual b = Some m -> b_prox b = None ->
  convex fs -> is_conj fs f ->
  (forall x tau, 0 < tau -> exists p, m x tau = Ok p /\ is_prox fs tau x p) ->
  impl_proxdual (obj (S (S fuel)) b) fs /\ impl_prox (obj (S (S fuel)) b) f.
Proof. exact default_prox. Qed.
Print Assumptions C02_default_prox.

(** for a class overriding exactly one of prox and proxdual (any body, convex or not), x =
    prox(x,tau) + tau * proxdual(x/tau, 1/tau) whenever the calls succeed *)
Theorem C02_moreau_identity : forall (E : IPS) (fuel : nat) (b : Body E) x tau p,
  (b_prox b = None /\ b_proxdual b <> None) \/ (b_prox b <> None /\ b_proxdual b = None) ->
  0 < tau ->
  o_prox (obj (S (S fuel)) b) x tau = Ok p ->
  exists q, o_proxdual (obj (S (S fuel)) b) (/ tau [*] x) (1 / tau) = Ok q /\
            x = p [+] tau [*] q.
Proof. exact moreau_identity. Qed.
Print Assumptions C02_moreau_identity.

(** an operator overriding neither prox nor proxdual never produces a value: for every recursion
    limit both methods end in a recursion error *)
Theorem C03_no_override_diverges : forall (E : IPS) (fuel : nat) (b : Body E) x tau,
  b_prox b = None -> b_proxdual b = None -> 0 < tau ->
  o_prox (obj fuel b) x tau = Err RecursionError /\
  o_proxdual (obj fuel b) x tau = Err RecursionError.
Proof. exact no_override_diverges. Qed.
Print Assumptions C03_no_override_diverges.

(** overriding just one of the two (with a total body) is enough for both methods to return a
    value for every x and tau > 0, with two nested calls *)
Theorem C03_one_override_total : forall (E : IPS) (fuel : nat) (b : Body E) x tau m,
  (b_prox b = Some m \/ b_proxdual b = Some m) ->
  (forall m', b_prox b = Some m' -> forall x tau, 0 < tau -> exists p, m' x tau = Ok p) ->
  (forall m', b_proxdual b = Some m' -> forall x tau, 0 < tau -> exists p, m' x tau = Ok p) ->
  0 < tau ->
  (exists p, o_prox (obj (S (S fuel)) b) x tau = Ok p) /\
  (exists q, o_proxdual (obj (S (S fuel)) b) x tau = Ok q).
Proof. exact one_override_total. Qed.
Print Assumptions C03_one_override_total.

(** f.H has the exact prox of whatever function f.proxdual is the prox of, and conversely *)
Theorem C04_adjoint_prox : forall (E : IPS) (fuel : nat) (f : Op E) (h hs : efun E),
  impl_prox f h -> impl_proxdual f hs ->
  impl_prox (op_H (S fuel) f) hs /\ impl_proxdual (op_H (S fuel) f) h.
Proof. exact adjoint_prox. Qed.
Print Assumptions C04_adjoint_prox.

(** f.H.H has exactly the prox and proxdual of f (for every tau > 0) and reports the same
    hasgrad *)
Theorem C04_adjoint_involutive : forall (E : IPS) (fuel : nat) (f : Op E) x tau,
  0 < tau ->
  o_prox (op_H (S fuel) (op_H (S fuel) f)) x tau = o_prox f x tau /\
  o_proxdual (op_H (S fuel) (op_H (S fuel) f)) x tau = o_proxdual f x tau /\
  o_hasgrad (op_H (S fuel) (op_H (S fuel) f)) = o_hasgrad f.
Proof. exact adjoint_involutive. Qed.
Print Assumptions C04_adjoint_involutive.

(** the hypotheses of the three C02 theorems hold for f(x) = s x^2 on the real line *)
Example C02_example : forall s, 0 < s ->
  b_prox (sq_body s) <> None /\ b_proxdual (sq_body s) = None /\
  convex (sq_fun s) /\ is_conj (sq_fun s) (sq_fun (/ (4 * s))) /\
  impl_prox (obj 2 (sq_body s)) (sq_fun s) /\
  impl_proxdual (obj 2 (sq_body s)) (sq_fun (/ (4 * s))).
Proof. exact C02_example_l. Qed.

(** the value of f.H is *not* the conjugate: there is a convex f with exact prox whose adjoint
    evaluates to f(x) instead of f*(x) *)
Theorem C04_adjoint_value_refuted :
  exists (f : Op R_IPS) (h hs : efun R_IPS) (x : R_IPS),
    impl_prox f h /\ impl_call f h /\ is_conj h hs /\ impl_proxdual f hs /\ edom hs x /\
    o_call (op_H 2 f) x = Ok (VNum (eval h x)) /\ eval h x <> eval hs x.
Proof. exact adjoint_value_refuted. Qed.
Print Assumptions C04_adjoint_value_refuted.

(** f + v has the exact prox of x -> f(x) + <v,x>, for every function f (no convexity needed) *)
Theorem C05_affine_prox : forall (E : IPS) (fuel : nat) (f : Op E) (h : efun E) (v : E),
  impl_prox f h ->
  exists g, op_add (S fuel) f (PArray v) = Ok g /\ impl_prox g (elin h v) /\
            (impl_call f h -> impl_call g (elin h v)).
Proof. exact affine_prox. Qed.
Print Assumptions C05_affine_prox.

(** if f.grad is the gradient of h then (f+v).grad is the gradient of x -> h(x) + <v,x> *)
Theorem C05_affine_grad : forall (E : IPS) (fuel : nat) (f : Op E) (h : E -> R) (v : E),
  impl_grad f h ->
  exists g, op_add (S fuel) f (PArray v) = Ok g /\ impl_grad g (fun x => h x + << v, x >>).
Proof. exact affine_grad. Qed.
Print Assumptions C05_affine_grad.

(** f - v is f + (-v): same prox, value and gradient everywhere *)
Theorem C05_subtraction : forall (E : IPS) (fuel : nat) (f : Op E) (h : efun E) (v : E),
  impl_prox f h ->
  exists g, op_sub (S fuel) f (PArray v) = Ok g /\
    impl_prox g (mkEfun (edom h) (fun x => eval h x - << v, x >>)) /\
    (impl_call f h -> impl_call g (mkEfun (edom h) (fun x => eval h x - << v, x >>))).
Proof. exact subtraction. Qed.
Print Assumptions C05_subtraction.

(** adding or subtracting anything that is not an array raises *)
Theorem C05_type_errors : forall (E : IPS) (fuel : nat) (f : Op E) (z : Z) (r : R) (g : Op E) num,
  op_add fuel f (PInt z) = Err NotImplementedError /\
  op_add fuel f (PFloat r) = Err NotImplementedError /\
  op_add fuel f (POp g num) = Err NotImplementedError /\
  op_sub fuel f (PInt z) = Err NotImplementedError /\
  op_sub fuel f (PFloat r) = Err NotImplementedError /\
  op_sub fuel f (POp g num) = Err TypeError.
Proof. exact add_type_errors. Qed.
Print Assumptions C05_type_errors.

(** for an indicator operator (whose call returns a boolean) the value of f+v is wrong: at a
    feasible point it is <v,x> + 1, and an infeasible point gets a finite value which is
    smaller than that of a feasible one *)
Theorem C05_indicator_value_refuted :
  exists (f : Op R_IPS) (h : efun R_IPS) (v feas infeas : R_IPS) (g : Op R_IPS) (a b : R),
    impl_prox f h /\ (forall x, (o_call f x = Ok (VBool true) <-> edom h x)) /\
    op_add 2 f (PArray v) = Ok g /\
    edom h feas /\ ~ edom h infeas /\
    o_call g feas = Ok (VNum a) /\ a = eval (elin h v) feas + 1 /\
    o_call g infeas = Ok (VNum b) /\ b < a.
Proof. exact indicator_value_refuted. Qed.
Print Assumptions C05_indicator_value_refuted.

(** for every float sigma > 0, sigma * f has the exact prox and value of x -> sigma f(x) *)
Theorem C06_scaling_prox : forall (E : IPS) (fuel : nat) (f : Op E) (h : efun E) (sigma : R),
  0 < sigma -> impl_prox f h ->
  exists g, op_rmul (S fuel) f (PFloat sigma) = Ok g /\ impl_prox g (escal sigma h) /\
            (impl_call f h -> impl_call g (escal sigma h)).
Proof. exact scaling_prox. Qed.
Print Assumptions C06_scaling_prox.

(** the gradient of sigma * f is sigma times the gradient of f *)
Theorem C06_scaling_grad : forall (E : IPS) (fuel : nat) (f : Op E) (h : E -> R) (sigma : R),
  impl_grad f h ->
  exists g, op_rmul (S fuel) f (PFloat sigma) = Ok g /\ impl_grad g (fun x => sigma * h x).
Proof. exact scaling_grad. Qed.
Print Assumptions C06_scaling_grad.

(** a non-positive float scale is accepted at construction but every prox call of the scaled
    operator then raises ValueError (the inner operator being guarded) *)
Theorem C06_nonpositive_scale : forall (E : IPS) (fuel : nat) (b : Body E) (sigma : R) x tau,
  sigma <= 0 -> 0 < tau ->
  exists g, op_rmul (S fuel) (obj (S fuel) b) (PFloat sigma) = Ok g /\
            o_prox g x tau = Err ValueError.
Proof. exact nonpositive_scale. Qed.
Print Assumptions C06_nonpositive_scale.

(** scaling by a python int never works: z * f raises NotImplementedError for every integer z,
    although the operator accepts ints by type *)
Theorem C06_int_scale_refuted : forall (E : IPS) (fuel : nat) (f : Op E) (z : Z),
  op_rmul fuel f (PInt z) = Err NotImplementedError.
Proof. exact int_scale_refuted. Qed.
Print Assumptions C06_int_scale_refuted.

(** f.precomposition(a, b) with float a <> 0 has the exact prox and value of x -> f(a x + b) *)
Theorem C07_precomp_prox : forall (E : IPS) (ones : E) (fuel : nat) (f : Op E) (h : efun E)
    (a : R) (ob : operand) (b : E),
  a <> 0 -> impl_prox f h ->
  ob = PArray b \/ (exists r, ob = PFloat r /\ b = r [*] ones) ->
  exists g, precomposition ones (S fuel) f (PFloat a) ob = Ok g /\
    impl_prox g (epre h (fun x => a [*] x [+] b)) /\
    (impl_call f h -> impl_call g (epre h (fun x => a [*] x [+] b))).
Proof. exact precomp_prox. Qed.
Print Assumptions C07_precomp_prox.

(** its gradient is a * grad f(a x + b), the gradient of x -> f(a x + b) *)
Theorem C07_precomp_grad : forall (E : IPS) (ones : E) (fuel : nat) (f : Op E) (h : E -> R) (a : R) (b : E),
  impl_grad f h ->
  exists g, precomposition ones (S fuel) f (PFloat a) (PArray b) = Ok g /\
    impl_grad g (fun x => h (a [*] x [+] b)).
Proof. exact precomp_grad. Qed.
Print Assumptions C07_precomp_grad.

(** an integer a (or a non-array b) is refused *)
Theorem C07_type_errors : forall (E : IPS) (ones : E) (fuel : nat) (f : Op E) (z : Z) (a : R) (b : E),
  precomposition ones fuel f (PInt z) (PArray b) = Err NotImplementedError /\
  precomposition ones fuel f (PFloat a) (PInt z) = Err NotImplementedError.
Proof. exact precomp_type_errors. Qed.
Print Assumptions C07_type_errors.

(** the algebra composes: for f(x) = x^2 on R, 3*(f(2x+1)) + 5 x has an exact prox *)
Example C07_example :
  exists f1 f2 f3,
    precomposition (1 : R_IPS) 2 (obj 2 (sq_body 1)) (PFloat 2) (PFloat 1) = Ok f1 /\
    op_rmul 2 f1 (PFloat 3) = Ok f2 /\ op_add 2 f2 (PArray (5 : R_IPS)) = Ok f3 /\
    impl_prox f3 (elin (escal 3 (epre (sq_fun 1) (fun x : R_IPS => 2 [*] x [+] (1 : R_IPS)))) (5 : R_IPS)).
Proof. exact C07_example_l. Qed.

(** the python expression f * g of operators of two different classes is evaluated as
    g.__rmul__(f), i.e. g.chain(f); its prox applies prox_g first and prox_f to the result,
    with the same tau *)
Theorem C08_chain_order : forall (E : IPS) (fuel : nat) (f g : Op E) fnum x tau,
  0 < tau ->
  exists fg, py_mul false (S fuel) g (POp f fnum) = Ok fg /\
    o_prox fg x tau = (p <- o_prox g x tau ;; o_prox f p tau).
Proof. exact chain_order. Qed.
Print Assumptions C08_chain_order.

(** f * g of two operators of the same class raises TypeError (python tries g.__rmul__ only when
    the classes differ), although g.chain(f) exists: the value of the expression depends on
    the classes *)
Theorem C08_same_class_refuted : forall (E : IPS) (fuel : nat) (f g : Op E) fnum,
  py_mul true fuel g (POp f fnum) = Err TypeError /\ py_mul false fuel g (POp f fnum) = Ok (chain fuel g f fnum).
Proof. exact same_class_refuted. Qed.
Print Assumptions C08_same_class_refuted.

(** chaining is associative on prox *)
Theorem C08_chain_assoc : forall (E : IPS) (fuel : nat) (f g h : Op E) num1 num2 num3 num4 x tau,
  0 < tau ->
  o_prox (chain (S fuel) (chain (S fuel) f g num1) h num2) x tau =
  o_prox (chain (S fuel) f (chain (S fuel) g h num3) num4) x tau.
Proof. exact chain_assoc. Qed.
Print Assumptions C08_chain_assoc.

(** the grad of a chain returns None even when both operators are differentiable and hasgrad is
    True (which it is exactly when both operators have a gradient) *)
Theorem C08_chain_grad_refuted : forall (E : IPS) (fuel : nat) (f g : Op E) num x,
  o_grad (chain fuel f g num) x = Ok None /\
  (o_hasgrad (chain fuel f g num) = true <-> o_hasgrad f = true /\ o_hasgrad g = true).
Proof. exact chain_grad_refuted. Qed.
Print Assumptions C08_chain_grad_refuted.

(** chaining two prox maps is not the prox of the sum of the functions in general (so the
    documented warning is needed) *)
Theorem C08_chain_not_sum_refuted :
  exists (f g : Op R_IPS) (hf hg : efun R_IPS) (x p : R_IPS),
    impl_prox f hf /\ impl_prox g hg /\ convex hf /\ convex hg /\
    (forall num, o_prox (chain 2 f g num) x 1 = Ok p) /\ ~ is_prox (eadd hf hg) 1 x p.
Proof. exact chain_not_sum_refuted. Qed.
Print Assumptions C08_chain_not_sum_refuted.

(** for an operator with exact prox of a convex f and inherited grad, grad(x) is the gradient of
    the Moreau envelope e(x) = min_y f(y) + |y-x|^2/(2 sigma), with error at most |h|^2/(2
    sigma) for every perturbation h, and it is 1/sigma-Lipschitz *)
Theorem C09_envelope_gradient : forall (E : IPS) (fuel : nat) (b : Body E) (f : efun E) m (e : E -> R),
  b_prox b = Some m -> b_grad b = None -> 0 < b_sigmame b -> convex f ->
  (forall x tau, 0 < tau -> exists p, m x tau = Ok p /\ is_prox f tau x p) ->
  (forall x, exists p, is_prox f (b_sigmame b) x p /\
             e x = eval f p + / (2 * b_sigmame b) * norm2 (p [-] x)) ->
  forall x, exists g, o_grad (obj (S fuel) b) x = Ok (Some g) /\
    is_grad e x g /\
    (forall h, Rabs (e (x [+] h) - e x - << g, h >>) <= / (2 * b_sigmame b) * norm2 h) /\
    (forall y g', o_grad (obj (S fuel) b) y = Ok (Some g') ->
        norm (g [-] g') <= / b_sigmame b * norm (x [-] y)).
Proof. exact envelope_gradient. Qed.
Print Assumptions C09_envelope_gradient.

(** f(x)=x^2 without an overridden grad has an envelope: e(x) = x^2/3 at sigma=1 *)
Example C09_example : forall x : R_IPS,
  exists g, o_grad (obj 2 (mkBody (E:=R_IPS) None (b_prox (sq_body 1)) None None false 1)) x = Ok (Some g) /\
    is_grad (E:=R_IPS) (fun x : R => x * x / 3) x g.
Proof. exact C09_example_l. Qed.

(** when both prox calls succeed, moreau() is True iff every entry of x is within tol + 1e-5
    |entry| of prox + tau*proxdual; otherwise it raises ValueError or returns False as
    requested *)
Theorem C10_moreau_verdict : forall n (f : Op (Vec n)) (x p q : Vec n) tau tol raise,
  o_prox f x tau = Ok p -> o_proxdual f (/ tau [*] x) (1 / tau) = Ok q ->
  let close := Forall2 (fun u v => Rabs (u - v) <= tol + 1 / 100000 * Rabs v)
                 (proj1_sig x) (proj1_sig (p [+] tau [*] q)) in
  (moreau f x tau tol raise = Ok true <-> close) /\
  (~ close -> moreau f x tau tol raise = if raise then Err ValueError else Ok false).
Proof. exact moreau_verdict. Qed.
Print Assumptions C10_moreau_verdict.

(** an operator that defines only one of prox/proxdual always passes its moreau() test, whatever
    function (convex or not) it implements *)
Theorem C10_moreau_accepts_derived : forall n fuel (b : Body (Vec n)) x tau tol raise p,
  (b_prox b = None /\ b_proxdual b <> None) \/ (b_prox b <> None /\ b_proxdual b = None) ->
  0 < tau -> 0 <= tol ->
  o_prox (obj (S (S fuel)) b) x tau = Ok p ->
  moreau (obj (S (S fuel)) b) x tau tol raise = Ok true.
Proof. exact moreau_accepts_derived. Qed.
Print Assumptions C10_moreau_accepts_derived.

(** conversely if prox is the exact prox of a convex f and moreau() with exact equality holds
    (tolerance zero on zero entries aside), then proxdual(x/tau,1/tau) is the exact prox of
    the conjugate at that point *)
Theorem C10_moreau_detects : forall n (f : Op (Vec n)) (h hs : efun (Vec n)) (x p q : Vec n) tau,
  convex h -> is_conj h hs -> 0 < tau ->
  o_prox f x tau = Ok p -> is_prox h tau x p ->
  o_proxdual f (/ tau [*] x) (1 / tau) = Ok q ->
  (x = p [+] tau [*] q <-> is_prox hs (1 / tau) (/ tau [*] x) q).
Proof. exact moreau_detects. Qed.
Print Assumptions C10_moreau_detects.

(** a concrete operator: |x|^2/2 on any space rejects tau = 0 and accepts tau = 1 *)
Example C01_example : forall (E : IPS) (x : E),
  o_prox (obj 2 (hsq_body E)) x 0 = Err ValueError /\
  o_prox (obj 2 (hsq_body E)) x 1 = Ok (/ (1 + 1) [*] x).
Proof. exact C01_example_l. Qed.

(** a body without prox and proxdual (only a value), e.g. the Nonlinear template before it is
    completed *)
Example C03_example : forall (E : IPS) (x : E),
  let b := mkBody (Some (fun x : E => Ok (VNum (norm2 x)))) None None None false 1 in
  o_call (obj 1000 b) x = Ok (VNum (norm2 x)) /\ o_prox (obj 1000 b) x 1 = Err RecursionError.
Proof. exact C03_example_l. Qed.

(** |x|^2/2 and its conjugate (itself, on R written as sq_fun (1/2)) *)
Example C04_example : forall s, 0 < s ->
  impl_prox (op_H 1 (obj 2 (sq_body s))) (sq_fun (/ (4 * s))).
Proof. exact C04_example_l. Qed.

(** |x|^2/2 + <v,x> on any space: prox, value and gradient *)
Example C05_example : forall (E : IPS) (v : E), exists g,
  op_add 2 (obj 2 (hsq_body E)) (PArray v) = Ok g /\
  impl_prox g (elin (hsq_fun E) v) /\ impl_call g (elin (hsq_fun E) v) /\ impl_grad g (fun x => norm2 x / 2 + << v, x >>).
Proof. exact C05_example_l. Qed.

(** 3 * (|x|^2/2) has an exact prox and gradient *)
Example C06_example : forall (E : IPS), exists g,
  op_rmul 2 (obj 2 (hsq_body E)) (PFloat 3) = Ok g /\
  impl_prox g (escal 3 (hsq_fun E)) /\ impl_grad g (fun x => 3 * (norm2 x / 2)).
Proof. exact C06_example_l. Qed.

(** chaining |x|^2/2 with itself: prox_1 twice divides by four *)
Example C08_example : forall (E : IPS) (x : E),
  forall num, o_prox (chain 2 (obj 2 (hsq_body E)) (obj 2 (hsq_body E)) num) x 1 = Ok (/ 4 [*] x).
Proof. exact C08_example_l. Qed.

(** moreau() returns True for |x|^2/2 on vectors of any length *)
Example C10_example : forall n (x : Vec n) raise,
  moreau (obj 2 (hsq_body (Vec n))) x 2 0 raise = Ok true.
Proof. exact C10_example_l. Qed.
