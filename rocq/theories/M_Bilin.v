(** * LowRankFactorizedMatrix (utils/bilinear.py:88-260)

    Flat arrays are lists; [reshape] checks the number of entries.  The object
    keeps the two stored factors; methods that assign them return the new
    object, also when they raise.  Simplifications: real arrays only (conj is
    the identity); the linear operator is a pair of functions on flat arrays
    that raises ValueError for an argument of the wrong length. *)
From Verif Require Import Base Space M_ProxOp VSum.
Open Scope result_scope.

(** A pylops LinearOperator acting on flat arrays (matvec / rmatvec with the
    shape check of [Op @ x]). *)
Record FlatOp := mkFlatOp { fo_out : nat; fo_in : nat; fo_mv : list R -> list R; fo_rmv : list R -> list R }.
Definition fo_apply (n : nat) (f : list R -> list R) (x : list R) : result (list R) :=
  if Nat.eqb (length x) n then Ok (f x) else Err ValueError.

(** Object attributes (bilinear.py:133-148). *)
Record LR := mkLR { lr_n : nat; lr_k : nat; lr_m : nat; lr_x : list R; lr_y : list R; lr_d : list R; lr_op : option FlatOp }.
Definition sizex (H : LR) : nat := (lr_n H * lr_k H)%nat.
Definition sizey (H : LR) : nat := (lr_m H * lr_k H)%nat.
(** bilinear.py:74-85 *)
Definition updatex (H : LR) (x : list R) : LR := mkLR (lr_n H) (lr_k H) (lr_m H) x (lr_y H) (lr_d H) (lr_op H).
Definition updatey (H : LR) (y : list R) : LR := mkLR (lr_n H) (lr_k H) (lr_m H) (lr_x H) y (lr_d H) (lr_op H).
Definition updatexy (H : LR) (v : list R) : LR := updatey (updatex H (firstn (sizex H) v)) (skipn (sizex H) v).

(** numpy: a.reshape(r, c), entry (i, j) of the result, and a matrix given by
    its entries flattened row by row. *)
Definition reshape (r c : nat) (a : list R) : result (list R) :=
  if Nat.eqb (length a) (r * c) then Ok a else Err ValueError.
Definition ent (c : nat) (a : list R) (i j : nat) : R := nth (i * c + j) a 0.
Definition tab (r c : nat) (f : nat -> nat -> R) : list R := map (fun p => f (p / c)%nat (p mod c)%nat) (seq 0 (r * c)).

(** numpy: a - b on flat arrays, with broadcasting of a length-one operand. *)
Definition np_sub (a b : list R) : result (list R) :=
  if Nat.eqb (length a) (length b) then Ok (map2 Rminus a b)
  else match a, b with
       | [u], _ => Ok (map (fun v => u - v) b)
       | _, [v] => Ok (map (fun u => u - v) a)
       | _, _ => Err ValueError
       end.

Definition apply_op (o : option FlatOp) (v : list R) : result (list R) :=
  match o with Some o => fo_apply (fo_in o) (fo_mv o) v | None => Ok v end.

Definition apply_adj (o : option FlatOp) (r : list R) : result (list R) :=
  match o with Some o => fo_apply (fo_out o) (fo_rmv o) r | None => Ok r end.

(** the matrix product X @ Y of an n x k and a k x m matrix *)
Definition matmul (n k m : nat) (X Y : list R) : list R := tab n m (fun i j => RS k (fun l => ent k X i l * ent m Y l j)).

(** bilinear.py:167-174 *)
Definition matvecx (H : LR) (x : list R) : result (list R) :=
  X <- reshape (lr_n H) (lr_k H) x ;;
  Y <- reshape (lr_k H) (lr_m H) (lr_y H) ;;
  apply_op (lr_op H) (matmul (lr_n H) (lr_k H) (lr_m H) X Y).
(** bilinear.py:176-183 *)
Definition matvecy (H : LR) (y : list R) : result (list R) :=
  Y <- reshape (lr_k H) (lr_m H) y ;;
  X <- reshape (lr_n H) (lr_k H) (lr_x H) ;;
  apply_op (lr_op H) (matmul (lr_n H) (lr_k H) (lr_m H) X Y).
(** bilinear.py:185-200 *)
Definition lr_matvec (H : LR) (x : list R) : result (list R) :=
  if Nat.eqb (lr_n H) (lr_m H) then Err NotImplementedError
  else if Nat.eqb (length x) (sizex H) then matvecx H x else matvecy H x.

(** bilinear.py:150-165.  [y = None]: the first argument is the concatenation. *)
Definition lr_call (H : LR) (x : list R) (y : option (list R)) : result R * LR :=
  let x' := match y with None => firstn (sizex H) x | Some _ => x end in
  let y' := match y with None => skipn (sizex H) x | Some y => y end in
  let xold := lr_x H in
  let H1 := updatex H x' in
  match v <- matvecy H1 y' ;; np_sub (lr_d H) v with
  | Ok res => (Ok (Rsum (map (fun r => r * r) res) / 2), updatex H1 xold)
  | Err e => (Err e, H1)
  end.

(** bilinear.py:202-222: Frobenius norms of X.T @ X and Y @ Y.T *)
Definition frob (k : nat) (G : nat -> nat -> R) : R := sqrt (RS k (fun a => RS k (fun b => G a b * G a b))).
Definition lr_lx (H : LR) (x : list R) : result R :=
  match lr_op H with
  | Some _ => Err ValueError
  | None => X <- reshape (lr_n H) (lr_k H) x ;;
            Ok (frob (lr_k H) (fun a b => RS (lr_n H) (fun i => ent (lr_k H) X i a * ent (lr_k H) X i b)))
  end.
Definition lr_ly (H : LR) (y : list R) : result R :=
  match lr_op H with
  | Some _ => Err ValueError
  | None => Y <- reshape (lr_k H) (lr_m H) y ;;
            Ok (frob (lr_k H) (fun a b => RS (lr_m H) (fun j => ent (lr_m H) Y a j * ent (lr_m H) Y b j)))
  end.

(** the residual pulled back to the n x m matrix: bilinear.py:229-235, 245-251 *)
Definition pull (H : LR) (r : list R) : result (list R) :=
  r <- apply_adj (lr_op H) r ;;
  reshape (lr_n H) (lr_m H) r.
(** bilinear.py:224-238: - r @ Y.T *)
Definition lr_gradx (H : LR) (x : list R) : result (list R) :=
  v <- matvecx H x ;; r <- np_sub (lr_d H) v ;; r <- pull H r ;;
  Y <- reshape (lr_k H) (lr_m H) (lr_y H) ;;
  Ok (tab (lr_n H) (lr_k H) (fun i l => RS (lr_m H) (fun j => - ent (lr_m H) r i j * ent (lr_m H) Y l j))).
(** bilinear.py:240-254: - X.T @ r *)
Definition lr_grady (H : LR) (y : list R) : result (list R) :=
  v <- matvecy H y ;; r <- np_sub (lr_d H) v ;; r <- pull H r ;;
  X <- reshape (lr_n H) (lr_k H) (lr_x H) ;;
  Ok (tab (lr_k H) (lr_m H) (fun l j => RS (lr_n H) (fun i => - ent (lr_k H) X i l * ent (lr_m H) r i j))).
(** bilinear.py:256-260 *)
Definition lr_grad (H : LR) (v : list R) : result (list R) :=
  gx <- lr_gradx H (firstn (sizex H) v) ;; gy <- lr_grady H (skipn (sizex H) v) ;; Ok (gx ++ gy).
