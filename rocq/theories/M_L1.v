(** * Entrywise operators: Box, L1 (with its call counter), L21, L21_plus_L1 *)
From Verif Require Import Base Space Sep M_ProxOp.
Open Scope result_scope.

(** numpy sign. *)
Definition sgn (a : R) : R := if Rltb a 0 then -1 else if Rltb 0 a then 1 else 0.

(** ** Box *)

(** One pair of bounds; [None] is the python default -inf / +inf. *)
Definition bounds := (option R * option R)%type.

(** projection/Box.py:48-50 on one entry: minimum(maximum(x, lower), upper). *)
Definition clip (lu : bounds) (a : R) : R :=
  let m := match fst lu with Some l => Rmax a l | None => a end in
  match snd lu with Some u => Rmin m u | None => m end.

Definition in_bounds (lu : bounds) (a : R) : bool :=
  match fst lu with Some l => Rleb l a | None => true end &&
  match snd lu with Some u => Rleb a u | None => true end.

(** proximal/Box.py:28-43; scalar bounds are constant lists of bounds. *)
Definition box_body {n} (lu : nlist bounds n) : Body (Vec n) :=
  mkBody (E:=Vec n)
    (Some (fun x : nlist R n =>
       Ok (VBool (forallb (fun b => b) (map2 in_bounds (proj1_sig lu) (proj1_sig x))))))
    (Some (fun (x : nlist R n) _ => Ok (vzip clip lu x))) None None false 1.

(** ** L1 *)

(** proximal/L1.py:36, one real entry of [_softthreshold]. *)
Definition soft (thresh a : R) : R := Rmax (Rabs a - thresh) 0 * sgn a.

(** proximal/L1.py:34, one complex entry (a pair of reals): the factor
    exp(1j*angle(z)) is z/|z| for z <> 0 and 1 for z = 0. *)
Definition C_IPS : IPS := Prod_IPS R_IPS R_IPS.
Definition csoft (thresh : R) (z : C_IPS) : C_IPS :=
  let m := Rmax (norm z - thresh) 0 in
  if Reqb (norm z) 0 then (m, 0) else (m / norm z) [*] z.

(** Class L1 (L1.py:107-154) on arrays of n entries.  [sig k] is the list of
    per-entry weights obtained when sigma (a number, an array or a function of
    the counter) is evaluated at counter k and broadcast against x.  The only
    mutable attribute is the counter. *)
Section L1.
Context {n : nat} (sig : nat -> nlist R n) (g : option (Vec n)).

(** L1.py:122-126 for a scalar sigma or, for matrices, one sigma per column:
    both are the weighted sum of absolute values (see [l1_call_scalar] and
    [l1_call_columns] below for the literal expressions). *)
Definition l1_call (count : nat) (x : Vec n) : R :=
  let x' := match g with Some g => x [-] g | None => x end in
  Rsum (map2 (fun s a => s * Rabs a) (proj1_sig (sig count)) (proj1_sig (x' : nlist R n))).

(** L1.py:128-146 ([_increment_count] is outside [_check_tau]). *)
Definition l1_prox (count0 : nat) (x : Vec n) (tau : R) : nat * result (Vec n) :=
  let count := S count0 in
  if Rleb tau 0 then (count, Err ValueError)
  else
    let th := sig count in
    match g with
    | None => (count, Ok (vzip (fun s a => soft (tau * s) a) th x))
    | Some g => (count, Ok ((vzip (fun s a => soft (tau * s) a) th (x [-] g) : Vec n) [+] g))
    end.

(** L1.py:116-119 (the box is fixed at construction with sigma(0)) and 148-154;
    with g the inherited [_proxdual_moreau] (ProxOperator.py:104-108) calls
    self.prox, which counts. *)
Definition l1_proxdual (count : nat) (x : Vec n) (tau : R) : nat * result (Vec n) :=
  if Rleb tau 0 then (count, Err ValueError)
  else
    match g with
    | None => (count, Ok (vzip (fun s a => clip (Some (- s), Some s) a) (sig 0) x))
    | Some _ =>
        let '(count', r) := l1_prox count (/ tau [*] x) (1 / tau) in
        (count', rmap (fun p => x [-] tau [*] p) r)
    end.

(** A user session on one L1 object. *)
Inductive l1_action := L1Prox (x : Vec n) (tau : R) | L1Dual (x : Vec n) (tau : R) | L1Call (x : Vec n).
Inductive l1_outcome := OutVec (r : result (Vec n)) | OutNum (v : R).
Definition l1_step (count : nat) (a : l1_action) : nat * l1_outcome :=
  match a with
  | L1Prox x tau => let '(c, r) := l1_prox count x tau in (c, OutVec r)
  | L1Dual x tau => let '(c, r) := l1_proxdual count x tau in (c, OutVec r)
  | L1Call x => (count, OutNum (l1_call count x))
  end.
Fixpoint l1_session (count : nat) (h : list l1_action) : nat * list l1_outcome :=
  match h with
  | [] => (count, [])
  | a :: h' =>
      let '(c, o) := l1_step count a in
      let '(c', os) := l1_session c h' in (c', o :: os)
  end.
End L1.
Arguments L1Prox {n} _ _.
Arguments L1Dual {n} _ _.
Arguments L1Call {n} _.
Arguments OutVec {n} _.
Arguments OutNum {n} _.

(** L1.py:125-126 literally, for a 1-D array: sum over axis 0 gives one number,
    which is multiplied by sigma (a number, or an array of numbers) and summed. *)
Definition l1_call_1d (sigma : list R) (x : list R) : R :=
  Rsum (map (fun s => s * Rsum (map Rabs x)) sigma).
(** L1.py:125 literally, for a matrix given by its columns, one sigma each. *)
Definition l1_call_columns (sigma : list R) (cols : list (list R)) : R :=
  Rsum (map2 (fun s c => s * Rsum (map Rabs c)) sigma cols).

(** L1.py:144-146 on complex arrays with a scalar sigma. *)
Definition powmap {E : IPS} {k} (f : E -> E) (x : Pow E k) : Pow E k :=
  exist _ (map f (proj1_sig (x : nlist E k))) (eq_trans (map_length f _) (proj2_sig x)).
Definition l1_prox_complex {n} (sigma : R) (g : option (Pow C_IPS n)) (x : Pow C_IPS n) (tau : R) :
  result (Pow C_IPS n) :=
  check_tau tau
    (Ok match g with
        | None => powmap (csoft (tau * sigma)) x
        | Some g => powmap (csoft (tau * sigma)) (x [-] g) [+] g
        end).

(** ** L21 (proximal/L21.py:61-85)

    The flat array is reshaped to ndim rows; each group is a column.  The model
    takes the list of columns (k vectors of ndim entries); the fixed
    reordering between the flat array and the columns is not modelled.
    Division by a maximum that is 0 happens only when sigma = 0. *)
Definition np_ratio (a b : R) : R := a / b.
Definition l21_call {m k} (sigma : R) (x : Pow (Vec m) k) : R :=
  sigma * Rsum (map (fun c : Vec m => sqrt (norm2 c)) (proj1_sig (x : nlist (Vec m) k))).
Definition l21_body {m k} (sigma : R) : Body (Pow (Vec m) k) :=
  mkBody (Some (fun x => Ok (VNum (l21_call sigma x))))
    (Some (fun x tau =>
       Ok (powmap (fun c : Vec m =>
             (1 - np_ratio (tau * sigma) (Rmax (sqrt (norm2 c)) (tau * sigma))) [*] c) x)))
    (Some (fun x tau =>
       Ok (powmap (fun c : Vec m => (sigma / Rmax (sqrt (norm2 c)) sigma) [*] c) x)))
    None false 1.

(** ** L21_plus_L1 (proximal/L21_plus_L1.py:33-54), axis=0, by columns.
    When a thresholded column is zero, numpy divides by 0: +inf if the
    numerator is positive (then the factor is 0), nan if it is 0. *)
Definition l21l1_call {m k} (sigma rho : R) (x : Pow (Vec m) k) : R :=
  rho * sigma * Rsum (map (fun c : Vec m => Rsum (map Rabs (proj1_sig (c : nlist R m)))) (proj1_sig (x : nlist (Vec m) k)))
  + (1 - rho) * sigma * Rsum (map (fun c : Vec m => sqrt (norm2 c)) (proj1_sig (x : nlist (Vec m) k))).

(** One column: lines 46-53. *)
Definition l21l1_col {m} (sigma rho tau : R) (c : Vec m) : result (Vec m) :=
  let thresh := sigma * tau in
  let l1 := vmap (fun a => Rmax (Rabs a - thresh * rho) 0) c in
  let aux := sqrt (norm2 (l1 : Vec m)) in
  l21 <- (if Reqb aux 0 then
            if Rltb 0 (thresh * (1 - rho)) then Ok 0
            else if Reqb (thresh * (1 - rho)) 0 then Err ZeroDivisionError (* nan *)
            else Err ZeroDivisionError                                    (* +inf *)
          else Ok (Rmax (1 - thresh * (1 - rho) / aux) 0)) ;;
  Ok (vmap (fun a => sgn a * Rmax (Rabs a - thresh * rho) 0 * l21) c : Vec m).

Fixpoint sequence {A} (l : list (result A)) : result (list A) :=
  match l with
  | [] => Ok []
  | r :: l' => a <- r ;; rest <- sequence l' ;; Ok (a :: rest)
  end.
Definition l21l1_prox {m} (sigma rho : R) (x : list (Vec m)) (tau : R) : result (list (Vec m)) :=
  if Rleb tau 0 then Err ValueError else sequence (map (l21l1_col sigma rho tau) x).
