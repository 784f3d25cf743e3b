(** * Specification vocabulary used by the statements proved in P_Pen.v *)
From Coq Require Import Psatz Rtrigo1 Ratan Rpower Ranalysis.
From Verif Require Import Base Space Spec.
Open Scope result_scope.

(** Specification: sum over the entries of a scalar function. *)
Definition sumf {n} (phi : R -> R) (x : Vec n) : R := Rsum (map phi (proj1_sig (x : nlist R n))).
(** Scalar proximal point. *)
Definition sprox (phi : R -> R) (tau a p : R) : Prop := is_prox (E:=R_IPS) (etot (E:=R_IPS) phi) tau a p.
(** sigma times the number of non-zero entries. *)
Definition card_fun {n} (sigma : R) (x : Vec n) : R :=
  sumf (fun a => if Req_EM_T a 0 then 0 else sigma) x.
