(** * Specification vocabulary used by the statements proved in P_QE.v *)
From Coq Require Import Permutation Sorting.
From Verif Require Import Base Space Spec S_L0.

(** half the squared norm on a set, infinite elsewhere *)
Definition sq_on {E : IPS} (C : E -> Prop) : efun E := mkEfun C (fun x => / 2 * norm2 x).
(** Q is the quadratic envelope of the indicator of C: (indicator + |.|^2/2)** - |.|^2/2 *)
Definition quad_env {E : IPS} (C : E -> Prop) (Q : efun E) : Prop := exists hs hss,
  is_conj (sq_on C) hs /\ is_conj hs hss /\ (forall x, edom Q x <-> edom hss x) /\
  forall x, edom hss x -> eval Q x = eval hss x - / 2 * norm2 x.
(** the case of the arrays with at most r0 non-zero entries *)
Definition is_qenv {n} (r0 : nat) (Q : efun (Vec n)) : Prop := quad_env (l0_ball r0) Q.
