(** * Projections on polyhedra: HyperPlaneBoxProj, SimplexProj, Simplex, L1BallProj, L1Ball

    Arrays of n real entries are [Vec n]; [get] reads an entry and [vtab] builds
    an array entry by entry.  Simplification: real arrays only here (the
    complex branch of projection/L1.py:52-53 is in M_Cx.v). *)
From Verif Require Import Base Space M_ProxOp M_L1 MatFacts VSum.
Open Scope result_scope.

(** scipy.optimize.bisect (external; scipy/optimize/Zeros/bisect.c and the
    argument check of the python wrapper), with its default rtol = 4 eps. *)
Definition bisect_rtol : R := 4 / 2 ^ 52.
Definition same_sign (a b : R) : bool := Bool.eqb (Rltb a 0) (Rltb b 0).
Fixpoint bisect_loop (f : R -> R) (xtol : R) (fa : R) (n : nat) (xa dm : R) : result R :=
  match n with
  | O => Err RuntimeError
  | S n' =>
      let dm := dm / 2 in
      let xm := xa + dm in
      let fm := f xm in
      let xa := if same_sign fm fa then xm else xa in
      if (Reqb fm 0 || Rltb (Rabs dm) (xtol + bisect_rtol * Rabs xm))%bool then Ok xm
      else bisect_loop f xtol fa n' xa dm
  end.
Definition bisect (f : R -> R) (xa xb : R) (maxiter : nat) (xtol : R) : result R :=
  if Rleb xtol 0 then Err ValueError
  else let fa := f xa in let fb := f xb in
  if Reqb fa 0 then Ok xa
  else if Reqb fb 0 then Ok xb
  else if same_sign fa fb then Err ValueError
  else bisect_loop f xtol fa maxiter xa (xb - xa).

(** [while f(b) <bad>: b *= 2] (projection/Box.py:142-147, _Simplex_numba.py); out of fuel: still running. *)
Fixpoint double_while (bad : R -> bool) (fuel : nat) (b : R) : result R :=
  match fuel with
  | O => Err Diverges
  | S k => if bad b then double_while bad k (b * 2) else Ok b
  end.

(** projection/Box.py:6-50, BoxProj: entrywise minimum(maximum(x, l), u). *)
Definition boxv {n} (lu : nat -> bounds) (x : Vec n) : Vec n := vtab n (fun i => clip (lu i) (get x i)).

(** HyperPlaneBoxProj (projection/Box.py:53-160): the search function (131-134) ... *)
Definition hp_fun {n} (c : Vec n) (s : R) (lu : nat -> bounds) (x : Vec n) (mu : R) : R :=
  << c, boxv lu (x [-] mu [*] c) >> - s.
(** ... the bracket (139-147) ... *)
Definition hp_bracket (f : R -> R) (fuel : nat) : result (R * R) :=
  lo <- double_while (fun b => Rltb (f b) 0) fuel (-1) ;;
  hi <- double_while (fun b => Rltb 0 (f b)) fuel 1 ;;
  Ok (lo, hi).
(** ... and the projection (121-160). *)
Definition hp_proj {n} (c : Vec n) (s : R) (lu : nat -> bounds) (maxiter : nat) (xtol : R) (fuel : nat) (x : Vec n) : result (Vec n) :=
  let f := hp_fun c s lu x in
  b <- hp_bracket f fuel ;;
  mu <- bisect f (fst b) (snd b) maxiter xtol ;;
  Ok (boxv lu (x [-] mu [*] c)).

(** projection/Simplex.py:36-56: coefficients one, bounds 0 and +inf. *)
Definition ones n : Vec n := vtab n (fun _ => 1).
Definition nonneg_bounds : nat -> bounds := fun _ => (Some 0, None).
Definition simplex_proj {n} (radius : R) (maxiter : nat) (xtol : R) (fuel : nat) (x : Vec n) : result (Vec n) :=
  hp_proj (ones n) radius nonneg_bounds maxiter xtol fuel x.

(** proximal/_Simplex_numba.py:62-76; out of iterations it returns the last midpoint;
    with maxiter = 0 the variable is unbound. *)
Fixpoint bisect_jit_loop (f : R -> R) (ftol xtol : R) (n : nat) (a b fa : R) (c : option R) : result R :=
  match n with
  | O => match c with Some c => Ok c | None => Err UnboundLocalError end
  | S n' =>
      let c := (a + b) / 2 in
      if Rltb ((b - a) / 2) xtol then Ok c
      else let fc := f c in
      if Rltb (Rabs fc) ftol then Ok c
      else if Reqb (sgn fc) (sgn fa) then bisect_jit_loop f ftol xtol n' c b fc (Some c)
      else bisect_jit_loop f ftol xtol n' a c fa (Some c)
  end.
Definition bisect_jit (f : R -> R) (lo hi : R) (maxiter : nat) (ftol xtol : R) : result R :=
  bisect_jit_loop f ftol xtol maxiter lo hi (f lo) None.
(** one row of _Simplex_numba.prox (proximal/Simplex.py:110-152, _Simplex_numba.py:112-133): upper bound 1e10 *)
Definition jit_bounds : nat -> bounds := fun _ => (Some 0, Some (10 ^ 10)).
Definition simplex_jit {n} (radius : R) (maxiter : nat) (ftol xtol : R) (fuel : nat) (x : Vec n) : result (Vec n) :=
  let f := hp_fun (ones n) radius jit_bounds x in
  b <- hp_bracket f fuel ;;
  mu <- bisect_jit f (fst b) (snd b) maxiter ftol xtol ;;
  Ok (boxv jit_bounds (x [-] mu [*] ones n)).

(** ** The Simplex operator (proximal/Simplex.py:25-89) *)
(** row i of an r x c matrix stored flat; transposition *)
Definition rowv {r c} (x : Vec (r * c)) (i : nat) : Vec c := vtab c (fun j => get x (i * c + j)).
Definition transp {r c} (x : Vec (r * c)) : Vec (c * r) := vtab (c * r) (fun p => get x ((p mod r) * c + p / r)).
(** stack equally long rows *)
Definition stack {r c} (ys : list (Vec c)) : Vec (r * c) := vtab (r * c) (fun p => get (nth (p / c) ys vzero) (p mod c)).
Fixpoint mapM {A B} (f : A -> result B) (l : list A) : result (list B) :=
  match l with [] => Ok [] | a :: l => b <- f a ;; bs <- mapM f l ;; Ok (b :: bs) end.
(** apply a projection to each row: 84-86 *)
Definition by_rows {r c} (P : Vec c -> result (Vec c)) (x : Vec (r * c)) : result (Vec (r * c)) :=
  ys <- mapM (fun i => P (rowv x i)) (seq 0 r) ;; Ok (stack ys).

(** Simplex.prox without dims (76-79) and with dims = (r, c): axis = 1 or -1 acts on rows,
    axis = 0 on columns (80-89); [_check_tau] first.  [P] is the projection of one vector. *)
Definition simplex_prox1 {n} (P : Vec n -> result (Vec n)) (x : Vec n) (tau : R) : result (Vec n) :=
  if Rleb tau 0 then Err ValueError else P x.
Definition simplex_prox_rows {r c} (P : Vec c -> result (Vec c)) (x : Vec (r * c)) (tau : R) : result (Vec (r * c)) :=
  if Rleb tau 0 then Err ValueError else by_rows P x.
Definition simplex_prox_cols {r c} (P : Vec r -> result (Vec r)) (x : Vec (r * c)) (tau : R) : result (Vec (r * c)) :=
  if Rleb tau 0 then Err ValueError else y <- by_rows (r:=c) (c:=r) P (transp x) ;; Ok (transp y).
(** Simplex.__call__ (58-74) with call=True; [dims]: 64-73 *)
Definition vsumv {n} (x : Vec n) : R := RS n (get x).
Definition any_neg {n} (x : Vec n) : bool := existsb (fun a => Rltb a 0) (lst x).
Definition simplex_call1 {n} (radius tol : R) (x : Vec n) : bool :=
  negb ((Rltb tol (vsumv x - radius) || Rltb (vsumv x - radius) (- tol)) || any_neg x).
Definition simplex_call_row {n} (radius tol : R) (x : Vec n) : bool :=
  negb (Rltb tol (Rabs (vsumv x) - radius) || any_neg x).
Definition simplex_call_rows {r c} (radius tol : R) (x : Vec (r * c)) : bool :=
  forallb (fun i => simplex_call_row radius tol (rowv x i)) (seq 0 r).
Definition simplex_call_cols {r c} (radius tol : R) (x : Vec (r * c)) : bool :=
  simplex_call_rows (r:=c) (c:=r) radius tol (transp x).

(** ** L1 ball (projection/L1.py:40-55, proximal/L1.py:157-201) *)
Definition absv {n} (x : Vec n) : Vec n := vtab n (fun i => Rabs (get x i)).
Definition l1_ball_proj {n} (radius : R) (maxiter : nat) (xtol : R) (fuel : nat) (x : Vec n) : result (Vec n) :=
  y <- simplex_proj radius maxiter xtol fuel (absv x) ;;
  Ok (vtab n (fun i => sgn (get x i) * get y i)).
Definition l1ball_call {n} (radius tol : R) (x : Vec n) : bool := Rltb (RS n (fun i => Rabs (get x i)) - radius) tol.
Definition l1ball_prox {n} (radius : R) (maxiter : nat) (xtol : R) (fuel : nat) (x : Vec n) (tau : R) : result (Vec n) :=
  if Rleb tau 0 then Err ValueError else l1_ball_proj radius maxiter xtol fuel x.
