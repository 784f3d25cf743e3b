(** * LowRankFactorizedMatrix on complex arrays (utils/bilinear.py:88-260)

    Complex matrices are flat row-major complex arrays of the right size; the shape errors, the stored state and the
    dispatch are in M_Bilin.v.  The linear operator is a pair of functions (matvec, rmatvec) or absent. *)
From Verif Require Import Base Space Cplx M_ProxOp M_Cx VSum.
Open Scope result_scope.

(** entry (i, j) of a matrix with c columns; the matrix with given entries *)
Definition cent {N} (c : nat) (a : CArr N) (i j : nat) : C := cg a (i * c + j).
Definition ctab (r c : nat) (f : nat -> nat -> C) : CArr (r * c) := cvec (r * c) (fun p => f (p / c)%nat (p mod c)%nat).
Definition cmatmul (n k m : nat) (X : CArr (n * k)) (Y : CArr (k * m)) : CArr (n * m) :=
  ctab n m (fun i j => csum k (fun l => cmul (cent k X i l) (cent m Y l j))).

Section LR.
Context {n k m p : nat} (mv : CArr (n * m) -> CArr p) (rmv : CArr p -> CArr (n * m)) (d : CArr p).
(** _matvecx, _matvecy (bilinear.py:167-183) *)
Definition clr_matvec (X : CArr (n * k)) (Y : CArr (k * m)) : CArr p := mv (cmatmul n k m X Y).
(** __call__ (bilinear.py:150-165) *)
Definition clr_call (X : CArr (n * k)) (Y : CArr (k * m)) : R := norm2 (d [-] clr_matvec X Y) / 2.
(** gradx (bilinear.py:224-238): -r @ np.conj(Y.T) *)
Definition clr_gradx (Y : CArr (k * m)) (x : CArr (n * k)) : CArr (n * k) :=
  let r := rmv (d [-] clr_matvec x Y) in
  ctab n k (fun i l => csum m (fun j => cmul (cscal (-1) (cent m r i j)) (cconj (cent m Y l j)))).
(** grady (bilinear.py:240-254): -np.conj(X.T) @ r *)
Definition clr_grady (X : CArr (n * k)) (y : CArr (k * m)) : CArr (k * m) :=
  let r := rmv (d [-] clr_matvec X y) in
  ctab k m (fun l j => csum n (fun i => cmul (cscal (-1) (cconj (cent k X i l))) (cent m r i j))).
End LR.
(** lx, ly without operator (bilinear.py:202-222): Frobenius norms of X^H X and Y Y^H *)
Definition clr_lx {n k : nat} (X : CArr (n * k)) : R :=
  norm (ctab k k (fun a b => csum n (fun i => cmul (cconj (cent k X i a)) (cent k X i b)))).
Definition clr_ly {k m : nat} (Y : CArr (k * m)) : R :=
  norm (ctab k k (fun a b => csum m (fun j => cmul (cent m Y a j) (cconj (cent m Y b j))))).
