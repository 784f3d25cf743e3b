(** * L0 and L10 balls (projection/L0.py, proximal/L0.py:114-239)

    [argsort] stands for np.argsort (numpy's default sort is not stable, so it
    is only assumed to return some permutation that sorts; see P_L0.v).
    Simplifications: real arrays; integer radius; the warnings of the
    deprecated names (projection/L0.py:78-90, proximal/L0.py:230-239) are not modelled. *)
From Coq Require Import ZArith.
From Verif Require Import Base Space M_ProxOp MatFacts VSum M_Proj.
Open Scope result_scope.

(** python slice [l[:stop]] *)
Definition slice_to {A} (stop : Z) (l : list A) : list A :=
  if (stop <? 0)%Z then firstn (length l - Z.to_nat (- stop)) l else firstn (Z.to_nat stop) l.
Definition mem (i : nat) (l : list nat) : bool := existsb (Nat.eqb i) l.

Section L0.
Context (argsort : list R -> list nat).

(** L0BallProj.__call__ (projection/L0.py:34-38) *)
Definition l0_drop (radius : Z) (keys : list R) : list nat := slice_to (- radius) (argsort keys).
Definition l0_proj {n} (radius : Z) (x : Vec n) : Vec n :=
  vtab n (fun i => if mem i (l0_drop radius (map Rabs (lst x))) then 0 else get x i).

(** number of non-zero entries: np.linalg.norm(x, ord=0) *)
Definition nnz {n} (x : Vec n) : nat := length (filter (fun i => negb (Reqb (get x i) 0)) (seq 0 n)).

(** L0Ball (proximal/L0.py:135-164): [rad k] is the radius when the counter is k
    (a constant function for an int radius).  The counter is incremented before tau is checked. *)
Definition l0ball_call {n} (rad : nat -> Z) (count : nat) (x : Vec n) : bool := (Z.of_nat (nnz x) <=? rad count)%Z.
Definition l0ball_prox {n} (rad : nat -> Z) (count : nat) (x : Vec n) (tau : R) : nat * result (Vec n) :=
  let count := S count in
  (count, if Rleb tau 0 then Err ValueError else Ok (l0_proj (rad count) x)).

(** L10BallProj.__call__ (projection/L0.py:71-75) on an r x c matrix stored flat:
    columns with the smallest L1 norms are set to zero. *)
Definition col_l1 {r c} (x : Vec (r * c)) (j : nat) : R := RS r (fun i => Rabs (get x (i * c + j))).
Definition l10_proj {r c} (radius : Z) (x : Vec (r * c)) : Vec (r * c) :=
  let drop := l0_drop radius (map (fun j => Rabs (col_l1 x j)) (seq 0 c)) in
  vtab (r * c) (fun p => if mem (p mod c) drop then 0 else get x p).
(** L10Ball (proximal/L0.py:195-227) for ndim = r and arrays of r c entries *)
Definition nnz_cols {r c} (x : Vec (r * c)) : nat := length (filter (fun j => negb (Reqb (col_l1 x j) 0)) (seq 0 c)).
Definition l10ball_call {r c} (rad : nat -> Z) (count : nat) (x : Vec (r * c)) : bool := (Z.of_nat (nnz_cols x) <=? rad count)%Z.
Definition l10ball_prox {r c} (rad : nat -> Z) (count : nat) (x : Vec (r * c)) (tau : R) : nat * result (Vec (r * c)) :=
  let count := S count in
  (count, if Rleb tau 0 then Err ValueError else Ok (l10_proj (rad count) x)).
End L0.

(** * Hankel (projection/Hankel.py:23-29, proximal/Hankel.py:26-38) *)
(** scipy.linalg.hankel(c, r), entry (i, j): first column c, last row r *)
Definition sp_hankel (c r : list nat) (i j : nat) : nat :=
  if Nat.ltb (i + j) (length c) then nth (i + j) c 0%nat else nth (i + j - length c + 1) r 0%nat.
Definition hankel_ind (m n : nat) : nat -> nat -> nat := sp_hankel (seq 0 m) (map (fun j => (m - 1 + j)%nat) (seq 0 n)).
(** np.bincount(ind.ravel(), weights=...) at k *)
Definition bincount (m n : nat) (ind : nat -> nat -> nat) (w : nat -> nat -> R) (k : nat) : R :=
  RS m (fun i => RS n (fun j => if Nat.eqb (ind i j) k then w i j else 0)).
(** the final indexing [mean_values[ind]] reads only bins that occur, whose count is not zero *)
Definition hankel_proj {m n} (X : Vec (m * n)) : Vec (m * n) :=
  let ind := hankel_ind m n in
  let mean k := bincount m n ind (fun i j => get X (i * n + j)) k / bincount m n ind (fun _ _ => 1) k in
  vtab (m * n) (fun p => mean (ind (p / n)%nat (p mod n)%nat)).
(** np.allclose(a, b) with the default tolerances *)
Definition allclose {n} (a b : Vec n) : bool :=
  forallb (fun i => Rleb (Rabs (get a i - get b i)) (1 / 10 ^ 8 + 1 / 10 ^ 5 * Rabs (get b i))) (seq 0 n).
Definition hankel_call {m n} (x : Vec (m * n)) : bool := allclose x (hankel_proj x).
Definition hankel_prox {m n} (x : Vec (m * n)) (tau : R) : result (Vec (m * n)) :=
  if Rleb tau 0 then Err ValueError else Ok (hankel_proj x).
