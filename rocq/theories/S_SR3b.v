(** * Specification vocabulary used by the statements proved in P_SR3b.v *)
From Coq Require Import Psatz.
From Verif Require Import Base Space Spec M_SR3.
Open Scope result_scope.
Open Scope R_scope.

(** s times the l1 norm *)
Definition l1n {p : nat} (s : R) (z : Vec p) : R := Rsum (map (fun a => s * Rabs a) (proj1_sig (z : nlist R p))).
(** the exact inner solver for the 1 x 1 identity problem with kappa = 1 *)
Definition inner1 (data : Vec 1) (v : option (Vec 1)) (x : option (Vec 1)) : result (option (Vec 1)) :=
  Ok (o1 (fun v => / 2 [*] (data [+] v)) v).

Section S.
Context {E D : IPS} {p : nat} (A : linop E D) (Reg : linop E (Vec p)) (data : D) (kappa eps : R).
(** the relaxed objective and the inner least-squares objective *)
Definition relaxed (x : E) (z : Vec p) : R :=
  1 / 2 * norm2 (lapp A x [-] data) + l1n eps z + kappa / 2 * norm2 (lapp Reg x [-] z).
(** the inner problem for the relaxed variable v *)
Definition inner_obj (v : Vec p) (x : E) : R := 1 / 2 * norm2 (lapp A x [-] data) + kappa / 2 * norm2 (lapp Reg x [-] v).
(** the inner solver returns a minimiser of the inner problem *)
Definition exact_inner (inner : option (Vec p) -> option E -> result (option E)) : Prop :=
  forall v x, exists x', inner (Some v) (Some x) = Ok (Some x') /\ is_min (etot (inner_obj v)) x'.
End S.
