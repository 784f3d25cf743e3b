(** * IEEE-754 binary64 facts that real-number models miss

    Uses Coq's executable specification of floating-point arithmetic
    (Coq.Floats.SpecFloat), no axioms. *)
From Coq Require Import ZArith List SpecFloat.
Import ListNotations.

Definition b64_add := SFadd 53 1024.
Definition b64_div := SFdiv 53 1024.
Definition b64_of_Z (z : Z) : spec_float := binary_normalize 53 1024 z 0 false.
(** == on floats *)
Definition b64_eqb := SFeqb.

(** [np.sum] of fewer than 8 numbers: left to right from 0. *)
Definition b64_sum (l : list spec_float) : spec_float := fold_left b64_add l (S754_zero false).

(** GeneralizedProximalGradient's default weights and their check
    (primal.py:805-810): np.ones(n) / n, accepted iff np.sum(weights) == 1.0.
    Valid for n < 8 (numpy sums longer arrays with several accumulators). *)
Definition gpg_default_weights (n : nat) : list spec_float :=
  repeat (b64_div (b64_of_Z 1) (b64_of_Z (Z.of_nat n))) n.
Definition gpg_default_accepted (n : nat) : bool := b64_eqb (b64_sum (gpg_default_weights n)) (b64_of_Z 1).
