(** * Model of the option checks made by constructors *)
From Verif Require Import Base Space M_ProxOp M_Norms MatFacts VSum M_Proj.
From Coq Require Import String ZArith.
Open Scope result_scope.

(** L2.__init__, L2.py:166-177: whether the normal equations are solved. *)
Definition l2_new (solver : option string) : result bool :=
  match solver with
  | Some s =>
      if (String.eqb s "legacy" || String.eqb s "cg")%bool then Ok true          (* 168-169 *)
      else if String.eqb s "cgls" then Ok false                                  (* 170-171 *)
      else Err ValueError                                                        (* 172-177 *)
  | None => Err ValueError
  end.

(** Python indexing of a tuple: negative indices count from the end. *)
Definition pyindex {A} (l : list A) (i : Z) : result A :=
  let n := Z.of_nat (List.length l) in
  let j := if (i <? 0)%Z then (i + n)%Z else i in
  if (j <? 0)%Z then Err IndexError
  else match nth_error l (Z.to_nat j) with Some a => Ok a | None => Err IndexError end.

(** Which class Simplex() instantiates (Simplex.py:267-300); [jit]: numba could be imported (10-20). *)
Inductive sx_engine := SxNumpy | SxNumba | SxCuda.
(** _Simplex.__init__ (38-56), also run by the two subclasses (106, 174): the check on dims and the
    length dims[axis] of the vectors the projection is built for. *)
Definition simplex_init (n : nat) (dims : option (list nat)) (axis : Z) : result nat :=
  match dims with
  | None => Ok n
  | Some d => if Nat.eqb (List.length d) 2 then pyindex d axis else Err ValueError
  end.
Definition simplex_new (jit : bool) (engine : string) (n : nat) (dims : option (list nat)) (axis : Z) : result (sx_engine * nat) :=
  if negb (String.eqb engine "numpy" || String.eqb engine "numba" || String.eqb engine "cuda") then Err KeyError  (* 267-269 *)
  else
    let cls := if (String.eqb engine "numba" && jit)%bool then SxNumba                                            (* 272 *)
               else if (String.eqb engine "cuda" && jit)%bool then SxCuda                                         (* 283 *)
               else SxNumpy in                                                                                    (* 294-300 *)
    k <- simplex_init n dims axis ;; Ok (cls, k).

(** _Simplex.prox with dims = (r, c) and any axis (76-89): the rows are processed unless axis is 0
    (46, 82-88), with a projection built for vectors of length dims[axis] (52); when that is not the
    length of a row, numpy raises ValueError on the shapes.  [P k] is the projection of vectors of length k. *)
Definition simplex_prox_axis {r c} (P : forall k, Vec k -> result (Vec k)) (axis : Z) (x : Vec (r * c)) (tau : R) : result (Vec (r * c)) :=
  k <- simplex_init (r * c) (Some [r; c]) axis ;;
  if (axis =? 0)%Z then simplex_prox_cols (P r) x tau
  else if Nat.eqb k c then simplex_prox_rows (P c) x tau else Err ValueError.

(** Quadratic.__init__, Quadratic.py:81-84 *)
Definition quadratic_new (shape : option (nat * nat)) : result unit :=
  match shape with
  | Some (m, n) => if Nat.eqb m n then Ok tt else Err ValueError
  | None => Ok tt
  end.
(** Log.__init__ (Log.py:75-80) and Log1.__init__ (Log.py:150-152) *)
Definition log_new (sigma gamma : R) : result unit :=
  if Rltb sigma 0 then Err ValueError else if Rltb gamma 0 then Err ValueError else Ok tt.
Definition log1_new (delta : R) : result unit := if Rltb delta 0 then Err ValueError else Ok tt.
(** Log.elementwise (Log.py:87-88) as python evaluates it: dividing by log(gamma+1) = 0 gives no number. *)
Definition log_value (sigma gamma a : R) : result R :=
  k <- pydiv sigma (ln (gamma + 1)) ;; Ok (k * ln (gamma * Rabs a + 1)).
