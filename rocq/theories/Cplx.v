(** * Complex numbers as pairs of reals, finite sums *)
From Verif Require Import Base Space.
Open Scope R_scope.

Definition C : Type := (R * R)%type.
Definition C0 : C := (0, 0).
Definition cadd (a b : C) : C := (fst a + fst b, snd a + snd b).
Definition csub (a b : C) : C := (fst a - fst b, snd a - snd b).
Definition cmul (a b : C) : C := (fst a * fst b - snd a * snd b, fst a * snd b + snd a * fst b).
Definition cscal (t : R) (a : C) : C := (t * fst a, t * snd a).
Definition cconj (a : C) : C := (fst a, - snd a).
Definition cabs2 (a : C) : R := fst a * fst a + snd a * snd a.
Definition cis (t : R) : C := (cos t, sin t).
Fixpoint csum (m : nat) (f : nat -> C) : C := match m with O => C0 | S m => cadd (csum m f) (f m) end.

(** a real number as a complex one *)
Definition cr (t : R) : C := (t, 0).
(** arrays of n complex numbers, with the real inner product Re <x, y> *)
Definition CArr (n : nat) : IPS := Pow (Prod_IPS R_IPS R_IPS) n.
Definition entries {n} (x : CArr n) : list C := proj1_sig x.
Definition cg {n} (x : CArr n) (i : nat) : C := nth i (entries x) C0.
