(** * Sums and intersections by Dykstra's algorithm
      (proximal/_Dykstra.py, proximal/Sum.py:111-234,
       projection/GenericIntersection.py:101-159, proximal/GenericIntersection.py:40-68)

    Non-empty real arrays; [amax] stands for the entrywise maximum [np.abs(.).max()].
    A step or projection is a function that may raise. *)
From Verif Require Import Base Space VSum M_ProxOp M_Norms M_Loop M_PG M_Multi.
Open Scope result_scope.
Open Scope R_scope.

(** _select_impl_by_arity (_Dykstra.py:14-30) *)
Inductive dyk_impl := Single | Two | More.
Definition select_impl (n : nat) (use_parallel : bool) : result dyk_impl :=
  match n with
  | 0%nat => Err ValueError
  | 1%nat => Ok Single
  | 2%nat => Ok (if use_parallel then More else Two)
  | _ => Ok More
  end.

Section S.
Context {E : IPS} (amax : E -> R).

(** ** dykstra_two (_Dykstra.py:33-59); [d_y] is not read before it is assigned *)
Record dyk_state := DY { d_x : E; d_y : E; d_p : E; d_q : E }.
Definition dyk2_body (step1 step2 : E -> result E) (tol : R) (_ : nat) (s : dyk_state) : result (dyk_state * bool) :=
  let x_old := d_x s in
  y <- step1 (d_x s [+] d_p s) ;;
  let p := d_p s [+] d_x s [-] y in
  x <- step2 (y [+] d_q s) ;;
  let q := d_q s [+] y [-] x in
  Ok (DY x y p q, Rltb (Rmax (amax (x [-] x_old)) (amax (y [-] x_old))) tol).
Definition dykstra_two (x0 : E) (step1 step2 : E -> result E) (niter : nat) (tol : R) : result E :=
  r <- for_loop (dyk2_body step1 step2 tol) niter 0 (DY x0 x0 vzero vzero) ;;
  Ok (d_x (fst r)).

(** ** parallel_dykstra_projection (_Dykstra.py:62-88)
    [u_prev] starts as m copies of u; the inner loop is [for i in range(m)], and
    [u_prev[i - 1]] for i = 0 is the last entry.  Returns u, u_prev, z. *)
Definition lset {A} (l : list A) (i : nat) (a : A) : list A := firstn i l ++ a :: skipn (S i) l.
Definition last_of (l : list E) (i : nat) : E := nth (match i with O => length l - 1 | S i => i end)%nat l vzero.
Record cyc_state := CY { c_u : E; c_prev : list E; c_z : list E }.
Fixpoint sweep (projs : list (E -> result E)) (i : nat) (s : cyc_state) : result cyc_state :=
  match projs with
  | [] => Ok s
  | proj :: projs =>
      let b := last_of (c_prev s) i in
      let zi := nth i (c_z s) vzero in
      u <- proj (b [+] zi) ;;
      sweep projs (S i) (CY u (lset (c_prev s) i u) (lset (c_z s) i (zi [+] b [-] u)))
  end.
(** the maximum over all rows of |u_prev - u| (u_prev has m >= 2 rows) *)
Definition amax_rows (l : list E) : R := fold_right (fun v m => Rmax (amax v) m) 0 l.
Definition cyc_body (projs : list (E -> result E)) (tol : R) (_ : nat) (s : E * list E) : result (E * list E * bool) :=
  let u_old := fst s in
  r <- sweep projs 0 (CY u_old (repeat u_old (length projs)) (snd s)) ;;
  Ok (c_u r, c_z r, Rltb (Rmax (amax (u_old [-] c_u r)) (amax_rows (map (fun v => v [-] c_u r) (c_prev r)))) tol).
Definition cyclic_dykstra (x0 : E) (projs : list (E -> result E)) (niter : nat) (tol : R) : result E :=
  r <- for_loop (cyc_body projs tol) niter 0 (x0, repeat vzero (length projs)) ;;
  Ok (fst (fst r)).

(** ** parallel_dykstra_prox (_Dykstra.py:91-118)
    [w /= w.sum()] happens in place: when [weights] is a float array the caller's
    array is normalised too (a list is copied by asarray).  The division by a zero
    sum is reported as ZeroDivisionError (numpy gives inf or nan). *)
Record par_state := PA { pa_x : E; pa_z : list E }.
Definition par_body (os : list (Op E)) (w taus : list R) (tol : R) (_ : nat) (s : par_state) : result (par_state * bool) :=
  pz <- prox_all os (pa_z s) taus ;;
  (* w[:, None] * prox_z needs as many weights as operators *)
  if negb (Nat.eqb (length w) (length pz)) then Err ValueError else
  let x := wsum w pz in
  Ok (PA x (map2 (fun zi pi => zi [+] x [-] pi) (pa_z s) pz), Rltb (amax (x [-] pa_x s)) tol).
Definition normalise (w : list R) : result (list R) := mapM (fun wi => pydiv wi (Rsum w)) w.
Definition parallel_dykstra_prox (x0 : E) (os : list (Op E)) (weights taus : list R) (niter : nat) (tol : R) : result E :=
  w <- normalise weights ;;
  r <- for_loop (par_body os w taus tol) niter 0 (PA x0 (repeat x0 (length os))) ;;
  Ok (pa_x (fst r)).

(** ** Sum (Sum.py:111-234) *)
Inductive weights_arg := NoWeights | ListWeights (w : list R) | ArrayWeights (w : list R).
Record sum_obj := SumObj { so_ops : list (Op E); so_w : list R; so_isarray : bool; so_niter : nat; so_tol : R; so_orig : bool; so_impl : dyk_impl }.
(** __init__ (Sum.py:111-138) *)
Definition sum_init (ops : list (Op E)) (weights : weights_arg) (niter : nat) (tol : R) (use_parallel use_original_tau : bool) : result sum_obj :=
  let m := length ops in
  w <- match weights with
       | NoWeights => (if Nat.eqb m 0 then Err ZeroDivisionError else Ok (repeat (1 / INR m) m))
       | ListWeights w => Ok w
       | ArrayWeights w => Ok w
       end ;;
  impl <- select_impl m use_parallel ;;
  Ok (SumObj ops w (match weights with ArrayWeights _ => true | _ => false end) niter tol use_original_tau impl).
(** the attribute self.w (shared with the caller's array) after a call of parallel_dykstra_prox *)
Definition sum_after (o : sum_obj) : sum_obj :=
  match so_isarray o, normalise (so_w o) with
  | true, Ok w => SumObj (so_ops o) w (so_isarray o) (so_niter o) (so_tol o) (so_orig o) (so_impl o)
  | _, _ => o
  end.
(** prox (Sum.py:176-234): the object after the call and the result *)
Definition sum_prox (o : sum_obj) (x0 : E) (tau : R) : sum_obj * result E :=
  if Rleb tau 0 then (o, Err ValueError) else
  match so_impl o, so_ops o with
  | Single, [f] => (o, o_prox f x0 tau)
  | Two, [f; g] => (o, dykstra_two x0 (fun v => o_prox f v tau) (fun v => o_prox g v tau) (so_niter o) (so_tol o))
  | More, _ :: _ :: _ =>
      match (if so_orig o then Ok (repeat tau (length (so_w o))) else mapM (pydiv tau) (so_w o)) with
      | Err e => (o, Err e)
      | Ok taus => (sum_after o, parallel_dykstra_prox x0 (so_ops o) (so_w o) taus (so_niter o) (so_tol o))
      end
  | _, _ => (o, Err ValueError)
  end.
(** __call__ (Sum.py:140-174) *)
Fixpoint calls (ops : list (Op E)) (x : E) : result (list pyval) :=
  match ops with [] => Ok [] | o :: ops => v <- o_call o x ;; vs <- calls ops x ;; Ok (v :: vs) end.
Definition bools_of (l : list pyval) : list bool := flat_map (fun v => match v with VBool b => [b] | VNum _ => [] end) l.
Definition nums_of (l : list pyval) : list R := flat_map (fun v => match v with VNum r => [r] | VBool _ => [] end) l.
Definition sum_call (ops : list (Op E)) (x : E) : result pyval :=
  vs <- calls ops x ;;
  if negb (forallb (fun b => b) (bools_of vs)) then Ok (VBool false)
  else match nums_of vs with [] => Ok (VBool true) | ns => Ok (VNum (Rsum ns)) end.

(** ** GenericIntersectionProj / GenericIntersectionProx *)
Definition gi_proj (projs : list (E -> result E)) (niter : nat) (tol : R) (use_parallel : bool) (x : E) : result E :=
  impl <- select_impl (length projs) use_parallel ;;      (* raised by __init__ *)
  match impl, projs with
  | Single, [p] => p x
  | Two, [p1; p2] => dykstra_two x p1 p2 niter tol
  | More, _ :: _ :: _ => cyclic_dykstra x projs niter tol
  | _, _ => Err ValueError
  end.
Definition gi_prox (projs : list (E -> result E)) (niter : nat) (tol : R) (use_parallel : bool) (x : E) (tau : R) : result E :=
  _ <- select_impl (length projs) use_parallel ;;
  if Rleb tau 0 then Err ValueError else gi_proj projs niter tol use_parallel x.
(** [all(...)] stops at the first False *)
Fixpoint gi_call (projs : list (E -> result E)) (tol : R) (x : E) : result bool :=
  match projs with
  | [] => Ok true
  | p :: projs => y <- p x ;; if Rltb (amax (x [-] y)) (tol * 10) then gi_call projs tol x else Ok false
  end.
End S.
