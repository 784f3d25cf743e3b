(** * Specification vocabulary used by the statements proved in P_GradTest.v *)
From Coq Require Import Psatz.
From Verif Require Import Base M_GradTest.
Open Scope result_scope.
Open Scope R_scope.

(** x with d added to entry i *)
Definition shifted_at (x : list cx) (i : nat) (d : cx) (x' : list cx) : Prop :=
  length x' = length x /\ forall a, (a < length x)%nat -> nth a x' (Cx 0 0) = if Nat.eqb a i then cadd (nth a x (Cx 0 0)) d else nth a x (Cx 0 0).
(** all the entries are real *)
Definition all_real (x : list cx) : Prop := forall a, (a < length x)%nat -> cim (nth a x (Cx 0 0)) = 0.
(** outcome of a test with flag b: an exception when it fails and raiseerror is set *)
Definition verdict (raiseerror b : bool) {A} (x' : A) (r : result (bool * A)) : Prop :=
  r = if andb (negb b) raiseerror then Err AssertionError else Ok (b, x').
(** the square of the first entry and its gradient *)
Definition sqf (x : list cx) : R := match x with [] => 0 | v :: _ => cre v * cre v end.
Definition sqg (x : list cx) : list cx := map (fun v => Cx (2 * cre v) 0) x.
