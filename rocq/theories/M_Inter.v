(** * Model of the projection on pairwise distance constraints
    (projection/Intersection.py, proximal/Intersection.py) *)
From Verif Require Import Base M_Loop.
Open Scope result_scope.
Open Scope R_scope.

(** The argument [sigma] (projection/Intersection.py:47-50, proximal/Intersection.py:46):
    a number, expanded to a k by k matrix, or a numpy matrix given by its rows. *)
Inductive isigma : Type := SigNum (s : R) | SigMat (rows : list (list R)).

(** [self.sigma[i1, i2]] (Intersection.py:64): an index outside of the matrix raises IndexError. *)
Definition sig_at (k : nat) (sg : isigma) (i1 i2 : nat) : result R :=
  match sg with
  | SigNum s => if andb (Nat.ltb i1 k) (Nat.ltb i2 k) then Ok s else Err IndexError
  | SigMat rows => match nth_error rows i1 with
                   | Some r => match nth_error r i2 with Some s => Ok s | None => Err IndexError end
                   | None => Err IndexError end
  end.

(** [x.reshape(k, n)] of a contiguous array of k*n entries (Intersection.py:55) and [x.ravel()] (line 73):
    entry (i, j) is entry i*n + j of the flat array. *)
Definition tab (n : nat) (l : list R) (i j : nat) : R := nth (i * n + j) l 0.
Definition flat (k n : nat) (t : nat -> nat -> R) : list R := flat_map (fun i => map (t i) (seq 0 n)) (seq 0 k).

(** assignment of one row of an array *)
Definition put {A} (t : nat -> A) (i : nat) (a : A) : nat -> A := fun j => if Nat.eqb j i then a else t j.

(** x and x12 (Intersection.py:55-56) *)
Record inter_state := IS { is_x : nat -> nat -> R; is_z : nat -> nat -> nat -> R }.

(** lines 62-67: [np.maximum(0, |xtilde| - sigma) * xtilde / (|xtilde| + 1e-10)], entry by entry *)
Definition xdtilde (s t : R) : R := Rmax 0 (Rabs t - s) * t / (Rabs t + / 10 ^ 10).

(** lines 61-70: the body of the two inner loops for the pair (i1, i2); all the columns j at once *)
Definition pair_step (s : R) (i1 i2 : nat) (st : inter_state) : inter_state :=
  let x := is_x st in let z := is_z st in
  let xd := fun j => xdtilde s (x i2 j - x i1 j + z i1 i2 j) in
  let x1 := put x i1 (fun j => x i1 j + / 2 * (xd j - z i1 i2 j)) in
  let x2 := put x1 i2 (fun j => x1 i2 j - / 2 * (xd j - z i1 i2 j)) in
  IS x2 (put z i1 (put (z i1) i2 xd)).

(** lines 59-60: [for i1 in range(k - 1): for i2 in range(i1 + 1, k)] *)
Definition pairs (k : nat) : list (nat * nat) := flat_map (fun i1 => map (fun i2 => (i1, i2)) (seq (i1 + 1) (k - (i1 + 1)))) (seq 0 (k - 1)).
Fixpoint pair_loop (k : nat) (sg : isigma) (ps : list (nat * nat)) (st : inter_state) : result inter_state :=
  match ps with
  | [] => Ok st
  | (i1, i2) :: ps => s <- sig_at k sg i1 i2 ;; pair_loop k sg ps (pair_step s i1 i2 st)
  end.

(** lines 57-72: one sweep and the stopping test; [max] of no columns raises ValueError *)
Definition col_change (k : nat) (x xold : nat -> nat -> R) (j : nat) : R := Rsum (map (fun i => Rabs (x i j - xold i j)) (seq 0 k)).
Definition inter_body (k n : nat) (sg : isigma) (tol : R) (_ : nat) (st : inter_state) : result (inter_state * bool) :=
  st' <- pair_loop k sg (pairs k) st ;;
  match map (col_change k (is_x st') (is_x st)) (seq 0 n) with
  | [] => Err ValueError
  | c :: l => Ok (st', Rltb (fold_left Rmax l c) tol)
  end.

(** lines 54-73: [__call__].  The reshaped array is a view of the caller's array, so the
    assignments [x[i1] = ...] also write the caller's array: the second component is that
    array after the call (numpy guarantees the view for contiguous arrays, the case modelled). *)
Definition inter_proj (k n : nat) (sg : isigma) (niter : nat) (tol : R) (x : list R) : result (list R * list R) :=
  if Nat.eqb (length x) (k * n) then
    r <- for_loop (inter_body k n sg tol) niter 0 (IS (tab n x) (fun _ _ _ => 0)) ;;
    Ok (flat k n (is_x (fst r)), flat k n (is_x (fst r)))
  else Err ValueError.

(** proximal/Intersection.py:61-63: prox is the projection, behind the tau check
    (ProxOperator.py: tau <= 0 raises ValueError). *)
Definition inter_prox (k n : nat) (sg : isigma) (niter : nat) (tol : R) (x : list R) (tau : R) : result (list R * list R) :=
  if Rleb tau 0 then Err ValueError else inter_proj k n sg niter tol x.

(** proximal/Intersection.py:50-59: [__call__] with its own tolerance (default 1e-8);
    [call=False] returns False. *)
Fixpoint inter_check (k : nat) (sg : isigma) (tolc : R) (x : nat -> R) (ps : list (nat * nat)) : result bool :=
  match ps with
  | [] => Ok true
  | (i1, i2) :: ps => s <- sig_at k sg i1 i2 ;;
      if Rltb (s + tolc) (Rabs (x i1 - x i2)) then Ok false else inter_check k sg tolc x ps
  end.
Fixpoint inter_cols (k : nat) (sg : isigma) (tolc : R) (x : nat -> nat -> R) (js : list nat) : result bool :=
  match js with
  | [] => Ok true
  | j :: js => b <- inter_check k sg tolc (fun i => x i j) (pairs k) ;; if b then inter_cols k sg tolc x js else Ok false
  end.
Definition inter_call (call : bool) (k n : nat) (sg : isigma) (tolc : R) (x : list R) : result bool :=
  if call then
    if Nat.eqb (length x) (k * n) then inter_cols k sg tolc (tab n x) (seq 0 n) else Err ValueError
  else Ok false.
