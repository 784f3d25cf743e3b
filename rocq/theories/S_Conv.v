(** * Specification of least squares with a convolution, independent of any implementation *)
From Verif Require Import Base Space VSum Cplx.
Open Scope R_scope.

(** The defining sum of the discrete Fourier transform of x_0 .. x_(N-1). *)
Definition FF (N : nat) (x : nat -> C) (k : nat) : C :=
  csum N (fun j => cmul (x j) (cis (- (2 * PI * (INR j * INR k) / INR N)))).

(** Circular convolution of period N: (h * x)_j is the sum of h_l x_m over l + m = j mod N. *)
Definition cconv (N : nat) (h x : nat -> C) (j : nat) : C :=
  csum N (fun l => csum N (fun m => if Nat.eqb ((l + m) mod N) j then cmul (h l) (x m) else C0)).
(** Linear (full) convolution: the sum of h_l x_(j-l) over l = 0 .. j. *)
Definition lconv (h x : nat -> C) (j : nat) : C := csum (S j) (fun l => cmul (h l) (x (j - l)%nat)).
(** the sequence of entries of a complex array *)
Definition seqc (l : list C) (i : nat) : C := nth i l C0.

(** sigma/2 | h * x - b |^2 with the circular convolution of period N, x, h and b cut or padded to N samples *)
Definition conv_fun (N : nat) (sigma : R) (h b : list C) {n} (x : CArr n) : R :=
  sigma / 2 * RS N (fun j => cabs2 (csub (cconv N (seqc h) (cg x) j) (seqc b j))).

(** The same for real arrays. *)
Definition rconv (N : nat) (h x : nat -> R) (j : nat) : R :=
  RS N (fun l => RS N (fun m => if Nat.eqb ((l + m) mod N) j then h l * x m else 0)).
(** the least-squares term on real arrays *)
Definition rconv_fun (N : nat) (sigma : R) (h b : list R) {n} (x : Vec n) : R :=
  sigma / 2 * RS N (fun j => (rconv N (fun l => nth l h 0) (fun m => nth m (proj1_sig x) 0) j - nth j b 0) ^ 2).

(** Arrays of shape (o, n, i) in C order: entry k of the line along the second axis at position (a, c). *)
Definition line (n i : nat) {m} (x : CArr m) (a c k : nat) : C := if Nat.ltb k n then cg x ((a * n + k) * i + c)%nat else C0.
(** sigma/2 | h * x - b |^2, line by line *)
Definition nd_conv_fun (o n i N : nat) (sigma : R) (h b : nat -> nat -> list C) (x : CArr (o * (n * i))) : R :=
  sigma / 2 * RS o (fun a => RS i (fun c => RS N (fun j => cabs2 (csub (cconv N (seqc (h a c)) (line n i x a c) j) (seqc (b a c) j))))).
