(** * Specification for floating-point results *)
From Coq Require Import Reals ZArith List.
From Flocq Require Import Core.Core IEEE754.BinarySingleNaN.
Open Scope R_scope.

Section Spec.
Context {prec emax : Z}.
Notation fl := (binary_float prec emax).

(** x is a number: neither NaN nor an infinity.  Its real value is [B2R x]. *)
Definition fin (x : fl) : Prop := is_finite x = true.

(** y is a number, and no floating-point number is closer to the real p. *)
Definition nearest (p : R) (y : fl) : Prop :=
  fin y /\ forall z : fl, fin z -> Rabs (B2R y - p) <= Rabs (B2R z - p).

(** The real z respects the lower (upper) bound b; infinite bounds allowed. *)
Definition above (b : fl) (z : R) : Prop :=
  match b with B754_infinity s => s = true | B754_nan => False | _ => B2R b <= z end.
Definition below (b : fl) (z : R) : Prop :=
  match b with B754_infinity s => s = false | B754_nan => False | _ => z <= B2R b end.

(** Unit roundoff (2^-53 in double precision) and half the least positive number. *)
Definition ulpu : R := bpow radix2 (- prec).
Definition tiny : R := bpow radix2 (2 - emax - prec).
End Spec.
Arguments ulpu _ : clear implicits.
Arguments tiny _ _ : clear implicits.

(** Double precision (numpy's float64), and the double nearest to m * 2^e. *)
#[export] Instance prec53 : Prec_gt_0 53 := eq_refl.
#[export] Instance emax1024 : Prec_lt_emax 53 1024 := eq_refl.
Notation b64 := (binary_float 53 1024).
Definition dbl (m e : Z) : b64 := binary_normalize 53 1024 prec53 emax1024 mode_NE m e false.

