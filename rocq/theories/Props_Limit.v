(** Property theorems for Limit: statements only; every proof is [exact] a lemma of P_Limit.v.
    Generated from the tagged lemmas of that file. *)
From Coq Require Import String Psatz.
From Verif Require Import Base Space Spec Cplx ConvexFacts Smooth VSum M_ProxOp SpecOps P_ProxOp M_Norms P_Norms M_L1 M_L2 P_L1 P_L2 P_L21 M_Objs S_Lasso P_Lasso M_Loop LoopFacts SeqFacts M_PG M_Split M_PD M_Multi SplitMath P_PG P_PG2 P_PG3 P_Split2 P_Split3 P_PD P_PD2 S_Seq Compact Fejer P_Iter P_Iter2 P_Iter3 M_Expr P_Expr P_Expr2 P_Exist P_Exist2 P_Exist3.
From Verif Require Import S_Limit.
From Verif Require Import P_Limit.
Open Scope result_scope.
Open Scope R_scope.


(** convergence of PrimalDual can fail as soon as tau mu |A|^2 >= 4/3 (C75_primal_dual proves it
    up to tau mu |A|^2 = 1): on the real line, f = 0, g the indicator of {0}, A the
    identity, theta = 1; f and g are convex, the operators exact, the saddle point is (0, 0)
    and 0 the only minimiser. For all steps with tau mu >= 4/3 and either order there are
    lam <= -1 and a start for which PrimalDual returns lam^n after n iterations, which does
    not converge *)
Theorem C91_primal_dual_refuted : let f := etot (fun _ : R_IPS => 0) in let A := id_linop R_IPS in
  impl_prox zero1 f /\ impl_proxdual pin1 f /\ convex f /\ convex pin_fun /\ is_conj pin_fun f /\ saddle A f f vzero 0 0 /\ (forall y, is_min (eadd f (epre pin_fun (lapp A))) y <-> y = 0) /\
  forall tau mu (gfirst : bool), 0 < tau -> 0 < mu -> 4 / 3 <= tau * mu ->
  exists lam y0, lam <= -1 /\
    (forall n, exists y tr, PrimalDual zero1 pin1 A None 1 (Scalar tau) (Scalar mu) (Some y0) None 1 n gfirst = Ok (lam ^ n, y, tr)) /\ ~ exists l, vcv (E:=R_IPS) (fun n => lam ^ n) l.
Proof. exact C91_primal_dual_refuted_l. Qed.
Print Assumptions C91_primal_dual_refuted.

(** LinearizedADMM converges for mu |A|^2 <= tau, the documented limit included
    (C75_linearized_admm); for mu |A|^2 >= 4/3 tau it can fail: f = 0, g the indicator of
    {0}, A the identity on the real line (the only minimiser is 0): for every tau > 0, mu >=
    4/3 tau and every start x0 <> 0 the returned x do not converge *)
Theorem C91_linearized_admm_refuted : let f := etot (fun _ : R_IPS => 0) in let A := id_linop R_IPS in
  impl_prox zero1 f /\ impl_prox pin1 pin_fun /\ convex f /\ convex pin_fun /\ kktA f pin_fun A 0 0 /\ (forall y, is_min (eadd f (epre pin_fun (lapp A))) y <-> y = 0) /\
  forall tau mu (x0 : R), 0 < tau -> 4 / 3 * tau <= mu -> x0 <> 0 ->
  exists xs zs, (forall n, exists tr, LinearizedADMM zero1 pin1 A (Some (x0 : R_IPS)) tau mu n None = Ok (xs n, zs n, tr)) /\ ~ exists l, vcv xs l.
Proof. exact C91_linearized_admm_refuted_l. Qed.
Print Assumptions C91_linearized_admm_refuted.

(** the documentation of DouglasRachfordSplitting and PPXA asks for eta "between 0 and 2, 0
    excluded". At eta = 2 convergence fails: with the functions 0 and indicator of {0} on
    the real line (0 is the only minimiser), for every tau > 0, every x0 <> 0 and either
    order, DouglasRachfordSplitting returns (-1)^n x0 after n+1 iterations; with two copies
    of the indicator, PPXA visits (-1)^n x0 (never stopping when the tolerance is at most 2
    |x0|). Neither converges *)
Theorem C91_relaxation_refuted : let f := etot (fun _ : R_IPS => 0) in
  impl_prox zero1 f /\ impl_prox pin1 pin_fun /\ convex f /\ convex pin_fun /\ (forall y, is_min (eadd f pin_fun) y <-> y = 0) /\ (forall y, is_min (eadd pin_fun pin_fun) y <-> y = 0) /\
  forall tau (x0 : R), 0 < tau -> x0 <> 0 ->
  (forall n, exists y tr, DouglasRachford zero1 pin1 (x0 : R_IPS) tau 2 (S n) false = Ok ((-1) ^ n * x0, y, tr)) /\
  (forall n, exists y tr, DouglasRachford pin1 zero1 (x0 : R_IPS) tau 2 (S n) true = Ok ((-1) ^ n * x0, y, tr)) /\
  (forall n t, t <= 2 * Rabs x0 -> exists tr, PPXA [pin1; pin1] (Common (x0 : R_IPS)) tau 2 None n (fun d : R_IPS => Rabs d) (Some t) = Ok ((-1) ^ n * x0, tr)) /\
  ~ exists l, vcv (E:=R_IPS) (fun n => (-1) ^ n * x0) l.
Proof. exact C91_relaxation_refuted_l. Qed.
Print Assumptions C91_relaxation_refuted.

(** ProximalGradient (eta = 1, fixed step, no acceleration) converges for tau < 2/L
    (C75_proximal_gradient); from tau = 2/L on it can fail: f = L/2 x^2, g = 0 on the real
    line, x0 = 1: for every tau >= 2/L it returns (1 - tau L)^n, which does not converge,
    while the only minimiser is 0 *)
Theorem C91_gradient_refuted : forall L tau, 0 < L -> 2 <= tau * L ->
  smooth_op (quad1 L) (fun x : R_IPS => L / 2 * (x * x)) (fun x : R_IPS => L * x) L /\ impl_prox zero1 (etot (E:=R_IPS) (fun _ => 0)) /\
  (forall y, is_min (eadd (etot (fun x : R_IPS => L / 2 * (x * x))) (etot (fun _ => 0))) y <-> y = 0) /\
  (forall n beta niterback, exists tr, ProximalGradient (quad1 L) zero1 1 [1] (Some tau) false beta 1 (S n) niterback None None = Ok ((1 - tau * L) ^ S n, tr)) /\
  ~ exists l, vcv (E:=R_IPS) (fun n => (1 - tau * L) ^ n) l.
Proof. exact C91_gradient_refuted_l. Qed.
Print Assumptions C91_gradient_refuted.

(** the parameters of the denoising tutorial: sigma/2 |x - b|^2 + lam |A x| (L2 data term with
    L21 or L1 on any linear operator A, sigma, lam > 0), Lm > 0 any bound on the largest
    eigenvalue of A^T A (8 for the gradient): PrimalDual with mu = 1/(tau Lm) and
    LinearizedADMM with mu = tau/Lm converge to the only minimiser, for every tau > 0 and
    every start *)
Theorem C91_denoising : forall fuel n (G : IPS) (ext : L2Ext (Vec n) G) cfg b sigma xw st ch m k lam (A : linop (Vec n) (Pow (Vec m) k)) (A' : linop (Vec n) (Vec m)) w,
  l2_exact ext -> l2_reached ext cfg sigma xw st -> (forall x tau, l2_reached ext cfg sigma xw (ch x tau)) -> l2_d cfg = OnlyB b -> l2_q cfg = None -> 0 < sigma -> 0 < lam -> nonneg_list w ->
  let e1 := XL2 (Vec n) G ext cfg sigma xw st ch in
  exists o1 o2 o3 x2 x3, build fuel e1 = Ok o1 /\ build fuel (XL21 m k lam) = Ok o2 /\ (forall c0 c, build fuel (XL1 m w None c0 c) = Ok (o3 c0 c)) /\
  (forall y, is_min (etot (fun x => sigma / 2 * norm2 (x [-] b) + group_norm lam (A x))) y <-> y = x2) /\
  (forall y, is_min (etot (fun x => sigma / 2 * norm2 (x [-] b) + wl1 w vzero (A' x))) y <-> y = x3) /\
  forall x0 tau Lm gfirst c0 c, 0 < tau -> 0 < Lm ->
  ((forall a, norm2 (A a) <= Lm * norm2 a) ->
    (exists xs ys, (forall n, exists tr, PrimalDual o1 o2 A None x0 (Scalar tau) (Scalar (1 / (tau * Lm))) None None 1 n gfirst = Ok (xs n, ys n, tr)) /\ vcv xs x2) /\
    (exists xs zs, (forall n, exists tr, LinearizedADMM o1 o2 A (Some x0) tau (tau / Lm) n None = Ok (xs n, zs n, tr)) /\ vcv xs x2)) /\
  ((forall a, norm2 (A' a) <= Lm * norm2 a) ->
    (exists xs ys, (forall n, exists tr, PrimalDual o1 (o3 c0 c) A' None x0 (Scalar tau) (Scalar (1 / (tau * Lm))) None None 1 n gfirst = Ok (xs n, ys n, tr)) /\ vcv xs x3) /\
    (exists xs zs, (forall n, exists tr, LinearizedADMM o1 (o3 c0 c) A' (Some x0) tau (tau / Lm) n None = Ok (xs n, zs n, tr)) /\ vcv xs x3)).
Proof. exact C91_denoising_l. Qed.
Print Assumptions C91_denoising.

(** the limit itself: f = (x-1)^2/2 and g = x^2/2 on the real line, A the identity, tau = mu =
    1, start 3: LinearizedADMM converges to the minimiser 1/2; and the identity meets the
    condition of C91_denoising with Lm = 1 *)
Example C91_example : (exists xs zs : nat -> R_IPS, (forall n, exists tr, LinearizedADMM shifted1 (quad1 1) (id_linop R_IPS) (Some 3) 1 1 n None = Ok (xs n, zs n, tr)) /\ vcv xs (1/2 : R_IPS)) /\
  (forall n (a : Vec n), norm2 (lapp (id_linop (Vec n)) a) <= 1 * norm2 a) /\ 4 / 3 <= 2 * 1.
Proof. exact C91_example_l. Qed.
