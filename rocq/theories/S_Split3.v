(** * Specification vocabulary used by the statements proved in P_Split3.v *)
From Coq Require Import Psatz String.
From Verif Require Import Base Space Spec M_ProxOp.
Open Scope result_scope.
Open Scope R_scope.

(** x with multiplier v solves min f(x) + g(Ax): -A^T v is a subgradient of f at x, v one of g at Ax. *)
Definition kktA {E F : IPS} (f : efun E) (g : efun F) (A : linop E F) (x : E) (v : F) : Prop :=
  is_subgrad f x (vopp (ladj A v)) /\ is_subgrad g (lapp A x) v.
(** What pylops' regularized_inversion(B, b, [A], x0, dataregs=[d], epsRs=[e]) is documented to return when the inner solver converges. *)
Definition exact_reginv {E F G : IPS} (B : linop E G) (b : G) (A : linop E F) (reginv : E -> F -> R -> result E) : Prop :=
  forall x0 d e, exists x, reginv x0 d e = Ok x /\
    is_min (etot (fun y => 1 / 2 * norm2 (lapp B y [-] b) + e * e / 2 * norm2 (lapp A y [-] d))) x.
(** g = indicator of the point 0 on the real line *)
Definition point0 : Op R_IPS :=
  mkOp (E:=R_IPS) (fun x => Ok (VBool (Reqb x 0))) (fun _ _ => Ok 0) (fun _ _ => Err NotImplementedError) (fun _ => Err NotImplementedError) false.

Section M.
Context {E F : IPS} (A : linop E F).
(** the documented recursion of linearised ADMM, for iterations i to n *)
Definition la_doc (f : efun E) (g : efun F) (tau mu : R) (xs : nat -> E) (zs us : nat -> F) (i n : nat) : Prop :=
  forall j, (i <= j < n)%nat -> is_prox f mu (xs j [-] (mu / tau) [*] ladj A (lapp A (xs j) [-] zs j [+] us j)) (xs (S j)) /\
    is_prox g tau (lapp A (xs (S j)) [+] us j) (zs (S j)) /\ us (S j) = us j [+] lapp A (xs (S j)) [-] zs (S j).
(** squared norm of d in the metric (tau/mu) I - A^T A *)
Definition la_metric (tau mu : R) (d : E) : R := tau / mu * norm2 d - norm2 (lapp A d).
End M.

Section L2.
Context {E F G : IPS} (B : linop E G) (b : G) (A : linop E F).
(** 1/2 |B x - b|^2 *)
Definition lsq : E -> R := fun y => 1 / 2 * norm2 (lapp B y [-] b).
End L2.

Section AL2.
Context {E F G : IPS} (B : linop E G) (b : G) (A : linop E F).
Variables (proxg : Op F) (reginv : E -> F -> R -> result E) (g : efun F) (tau : R).
(** the x-update of ADMML2: minimiser of 1/2|B x-b|^2 + 1/(2 tau)|A x-d|^2 *)
Definition al2_x (d : F) (x : E) : Prop := is_min (etot (fun y => 1 / 2 * norm2 (lapp B y [-] b) + 1 / (2 * tau) * norm2 (lapp A y [-] d))) x.
(** the documented recursion of ADMML2 *)
Definition al2_doc (xs : nat -> E) (zs us : nat -> F) (n : nat) : Prop :=
  forall j, (j < n)%nat -> al2_x (zs j [-] us j) (xs (S j)) /\ is_prox g tau (lapp A (xs (S j)) [+] us j) (zs (S j)) /\
    us (S j) = us j [+] lapp A (xs (S j)) [-] zs (S j).
End AL2.
