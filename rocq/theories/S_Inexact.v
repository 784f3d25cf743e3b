(** * Specification vocabulary used by the statements proved in P_Inexact.v *)
From Coq Require Import String Psatz.
From Verif Require Import Base Space Spec M_ProxOp.
Open Scope result_scope.
Open Scope R_scope.

(** prox of the operator, with step t, always returns a point within e of the proximal point of f *)
Definition approx_prox {E : IPS} (e t : R) (o : Op E) (f : efun E) : Prop :=
  forall x, exists p q, o_prox o x t = Ok p /\ is_prox f t x q /\ norm (p [-] q) <= e.
(** the same for the dual prox, fs being the conjugate function *)
Definition approx_proxdual {E : IPS} (e t : R) (o : Op E) (fs : efun E) : Prop :=
  forall x, exists p q, o_proxdual o x t = Ok p /\ is_prox fs t x q /\ norm (p [-] q) <= e.
(** grad of the operator always returns a vector within e of df *)
Definition approx_grad {E : IPS} (e : R) (o : Op E) (df : E -> E) : Prop :=
  forall x, exists g, o_grad o x = Ok (Some g) /\ norm (g [-] df x) <= e.

(** the proximal map of f with step t is Lipschitz with constant q; so is the reflection 2 prox - identity *)
Definition prox_lip {E : IPS} (q : R) (f : efun E) (t : R) : Prop :=
  forall x y p r, is_prox f t x p -> is_prox f t y r -> norm (p [-] r) <= q * norm (x [-] y).
Definition refl_lip {E : IPS} (q : R) (f : efun E) (t : R) : Prop :=
  forall x y p r, is_prox f t x p -> is_prox f t y r -> norm ((2 [*] p [-] x) [-] (2 [*] r [-] y)) <= q * norm (x [-] y).

(** 1 + q + ... + q^(n-1) *)
Fixpoint geom (q : R) (n : nat) : R := match n with O => 0 | S n => 1 + q * geom q n end.

(** the distance sqrt(|a|^2/tau + |b|^2/mu) on pairs *)
Definition wnorm {E F : IPS} (tau mu : R) (a : E) (b : F) : R := sqrt (/ tau * norm2 a + / mu * norm2 b).

(** a square on the real line whose prox, dual prox and gradient are all off by e *)
Definition off1 (e : R) : Op R_IPS :=
  mkOp (E:=R_IPS) (fun x : R_IPS => Ok (VNum (1 / 2 * (x * x)))) (fun (x : R_IPS) t => Ok (/ (1 + t) * x + e)) (fun (x : R_IPS) t => Ok (/ (1 + t) * x + e)) (fun x : R_IPS => Ok (Some (x + e))) true.
