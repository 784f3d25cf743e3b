(** * Specification vocabulary used by the statements proved in P_Norms.v *)
From Coq Require Import Psatz.
From Verif Require Import Base Space.
Open Scope result_scope.

(** symmetric positive semi-definite *)
Definition sym_psd {E : IPS} (A : linop E E) : Prop :=
  (forall x y, << A x, y >> = << x, A y >>) /\ (forall x, 0 <= << x, A x >>).
