(** * Specification vocabulary used by the statements proved in P_Split2.v *)
From Coq Require Import Psatz.
From Verif Require Import Base Space Spec M_ProxOp.
Open Scope result_scope.
Open Scope R_scope.

(** The documented recursion, on the vectors seen by the callback and u_k the running sum of x_i - z_i. *)
Definition admm_doc {E : IPS} (f g : efun E) (tau : R) (xs zs us : nat -> E) (n : nat) : Prop :=
  us 0%nat = vzero /\ forall j, (j < n)%nat -> is_prox f tau (zs j [-] us j) (xs (S j)) /\
    is_prox g tau (xs (S j) [+] us j) (zs (S j)) /\ us (S j) = us j [+] xs (S j) [-] zs (S j).
(** the same with the two proximal steps exchanged *)
Definition admm_doc_gfirst {E : IPS} (f g : efun E) (tau : R) (xs zs us : nat -> E) (n : nat) : Prop :=
  us 0%nat = vzero /\ forall j, (j < n)%nat -> is_prox g tau (xs j [+] us j) (zs (S j)) /\
    is_prox f tau (zs (S j) [-] us j) (xs (S j)) /\ us (S j) = us j [+] xs (S j) [-] zs (S j).
(** f(x) + g(z) + |x - z|^2 / (2 tau) as a function of the pair *)
Definition penalised {E : IPS} (f g : efun E) (tau : R) : efun (Prod_IPS E E) :=
  mkEfun (E:=Prod_IPS E E) (fun p => edom f (fst p) /\ edom g (snd p)) (fun p => eval f (fst p) + eval g (snd p) + / (2 * tau) * norm2 (fst p [-] snd p)).
(** f(x) = (x-1)^2/2 on the real line *)
Definition shifted1 : Op R_IPS :=
  mkOp (E:=R_IPS) (fun x => Ok (VNum (1 / 2 * ((x - 1) * (x - 1))))) (fun x tau => Ok ((x + tau) / (1 + tau))) (fun _ _ => Err NotImplementedError)
       (fun x => Ok (Some (x - 1))) true.
