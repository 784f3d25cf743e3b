(** * Specification vocabulary used by the statements proved in P_PG.v *)
From Coq Require Import String Psatz.
From Verif Require Import Base Space Spec.
Open Scope result_scope.
Open Scope R_scope.

(** The proximal point recursion. *)
Definition pp_seq {E : IPS} (f : efun E) (tau : R) (xs : nat -> E) (k : nat) : Prop :=
  forall j, (j < k)%nat -> is_prox f tau (xs j) (xs (S j)).

Section Math.
Context {E : IPS}.
(** The documented recursion of ProximalGradient (notes of its docstring):
    x_{k+1} = y_k + eta (prox_{tau_k eps_k g}(y_k - tau_k grad f(y_k)) - y_k),
    y_{k+1} = x_{k+1} + omega_k (x_{k+1} - x_k). *)
Definition pg_doc (df : E -> E) (g : efun E) (eps tau : nat -> R) (eta : R) (omega : nat -> R)
  (xs ys : nat -> E) (k : nat) : Prop :=
  ys 0%nat = xs 0%nat /\
  forall j, (j < k)%nat -> exists p,
    is_prox g (eps j * tau j) (ys j [-] tau j [*] df (ys j)) p /\
    xs (S j) = ys j [+] eta [*] (p [-] ys j) /\
    ys (S j) = xs (S j) [+] omega j [*] (xs (S j) [-] xs j).
End Math.
