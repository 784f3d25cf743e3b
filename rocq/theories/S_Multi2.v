(** * Specification vocabulary used by the statements proved in P_Multi2.v *)
From Coq Require Import Psatz String.
From Verif Require Import Base Space Spec VSum.
Open Scope result_scope.
Open Scope R_scope.

(** the two functions (x-1)^2/2 and (c/2) x^2 *)
Definition sh_quad (c : R) : nat -> efun R_IPS :=
  fun i => match i with O => etot (E:=R_IPS) (fun x : R_IPS => 1 / 2 * ((x - 1) * (x - 1))) | _ => etot (E:=R_IPS) (fun x : R_IPS => c / 2 * (x * x)) end.

Section CA.
Context {E : IPS}.
(** the documented recursion: u_i the proximal points, x their mean, y_i the multipliers *)
Definition consensus_doc (m : nat) (f : nat -> efun E) (tau : R) (xs : nat -> E) (ys us : nat -> nat -> E) (n : nat) : Prop :=
  forall k, (k < n)%nat ->
    (forall i, (i < m)%nat -> is_prox (f i) tau (xs k [-] ys k i) (us k i)) /\
    xs (S k) = / INR m [*] VS m (us k) /\
    (forall i, (i < m)%nat -> ys (S k) i = ys k i [+] us k i [-] xs (S k)).
End CA.
