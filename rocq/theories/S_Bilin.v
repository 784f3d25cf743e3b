(** * Specification vocabulary used by the statements proved in P_Bilin.v *)
From Coq Require Import Psatz.
From Verif Require Import Base Space VSum MatFacts M_Bilin.
Open Scope result_scope.

(** the optional pylops operator acts on flat arrays as the linear map A, with the adjoint of A *)
Definition op_spec (o : option FlatOp) {q p : nat} (A : linop (Vec q) (Vec p)) : Prop :=
  (forall v, apply_op o (lst v) = Ok (lst (A v))) /\
  (forall r, apply_adj o (lst r) = Ok (lst (ladj A r))).
(** the object H stores the factors X and Y, the data d and the operator A *)
Definition lr_holds (H : LR) {n k m p : nat} (X : Vec (n * k)) (Y : Vec (k * m)) (d : Vec p) (A : linop (Vec (n * m)) (Vec p)) : Prop :=
  lr_n H = n /\ lr_k H = k /\ lr_m H = m /\ lr_x H = lst X /\ lr_y H = lst Y /\ lr_d H = lst d /\ op_spec (lr_op H) A.

Section Mat.
Context (n k m : nat).
(** the matrix product, row-major *)
Definition mm (X : Vec (n * k)) (Y : Vec (k * m)) : Vec (n * m) :=
  vtab (n * m) (fun p => RS k (fun l => get X (p / m * k + l) * get Y (l * m + p mod m))).
End Mat.

(** 1/2 |d - A(XY)|^2 *)
Definition lr_fun {n k m p : nat} (A : linop (Vec (n * m)) (Vec p)) (d : Vec p) (X : Vec (n * k)) (Y : Vec (k * m)) : R := norm2 (d [-] A (mm n k m X Y)) / 2.
