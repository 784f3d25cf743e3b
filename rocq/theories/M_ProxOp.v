(** * Model of pyproximal/ProxOperator.py and utils/moreau.py *)
From Verif Require Import Base Space.
Open Scope result_scope.

(** An operator *object* as seen by its callers: the four public methods.
    Models the interface of class ProxOperator (ProxOperator.py:30-316).
    Simplifications: keyword arguments other than tau are dropped, tau is one
    scalar; [o_grad] returns [Ok None] when the python method returns None. *)
Record Op (E : IPS) : Type := mkOp {
  o_call : E -> result pyval;
  o_prox : E -> R -> result E;
  o_proxdual : E -> R -> result E;
  o_grad : E -> result (option E);
  o_hasgrad : bool
}.
Arguments mkOp {E} _ _ _ _ _.
Arguments o_call {E} _ _.
Arguments o_prox {E} _ _ _.
Arguments o_proxdual {E} _ _ _.
Arguments o_grad {E} _ _.
Arguments o_hasgrad {E} _.

(** A class *body*: which methods the subclass overrides (None = inherited). *)
Record Body (E : IPS) : Type := mkBody {
  b_call : option (E -> result pyval);
  b_prox : option (E -> R -> result E);
  b_proxdual : option (E -> R -> result E);
  b_grad : option (E -> result (option E));
  b_hasgrad : bool;
  b_sigmame : R
}.
Arguments mkBody {E} _ _ _ _ _ _.
Arguments b_call {E} _.
Arguments b_prox {E} _.
Arguments b_proxdual {E} _.
Arguments b_grad {E} _.
Arguments b_hasgrad {E} _.
Arguments b_sigmame {E} _.

(** ProxOperator.py:13-27, decorator [_check_tau] (scalar tau). *)
Definition check_tau {A} (tau : R) (k : result A) : result A :=
  if Rleb tau 0 then Err ValueError else k.

(** ProxOperator.py:21-25: the wrapper reads tau as the third *positional*
    argument, so the way the caller passes tau matters. *)
Inductive tau_arg := Positional (tau : R) | Keyword (tau : R).
Definition check_tau_call {A} (a : tau_arg) (k : R -> result A) : result A :=
  match a with
  | Positional t => check_tau t (k t)
  | Keyword _ => Err IndexError      (* args[2] does not exist *)
  end.

(** ProxOperator.py:22 for an array-valued tau: [np.any(tau <= 0)]. *)
Definition check_tau_array {A} (taus : list R) (k : result A) : result A :=
  if existsb (fun t => Rleb t 0) taus then Err ValueError else k.

Section Dispatch.
Context {E : IPS}.

(** Method dispatch with the two mutually recursive defaults.
    ProxOperator.py:98-102 ([_prox_moreau]), 104-108 ([_proxdual_moreau]),
    110-134 ([prox]), 136-158 ([proxdual]); overriding methods carry their own
    [_check_tau].  The fuel is python's recursion limit. *)
Fixpoint d_prox (fuel : nat) (b : Body E) (x : E) (tau : R) : result E :=
  match fuel with
  | O => Err RecursionError
  | S k =>
      match b_prox b with
      | Some m => check_tau tau (m x tau)
      | None =>
          check_tau tau
            (pd <- d_proxdual k b (/ tau [*] x) (1 / tau) ;;
             Ok (x [-] tau [*] pd))
      end
  end
with d_proxdual (fuel : nat) (b : Body E) (x : E) (tau : R) : result E :=
  match fuel with
  | O => Err RecursionError
  | S k =>
      match b_proxdual b with
      | Some m => check_tau tau (m x tau)
      | None =>
          check_tau tau
            (p <- d_prox k b (/ tau [*] x) (1 / tau) ;;
             Ok (x [-] tau [*] p))
      end
  end.

(** ProxOperator.py:86-96: default [__call__]. *)
Definition d_call (b : Body E) (x : E) : result pyval :=
  match b_call b with Some m => m x | None => Err NotImplementedError end.

(** ProxOperator.py:160-184: default [grad], gradient of the Moreau envelope. *)
Definition d_grad (fuel : nat) (b : Body E) (x : E) : result (option E) :=
  match b_grad b with
  | Some m => m x
  | None =>
      p <- d_prox fuel b x (b_sigmame b) ;;
      Ok (Some (/ b_sigmame b [*] (x [-] p)))
  end.

(** Instantiating a class body. *)
Definition obj (fuel : nat) (b : Body E) : Op E :=
  mkOp (d_call b) (d_prox fuel b) (d_proxdual fuel b) (d_grad fuel b) (b_hasgrad b).

(** ProxOperator.py:319-333, class [_AdjointOperator]. *)
Definition adjoint_body (f : Op E) : Body E :=
  mkBody (Some (o_call f)) (Some (o_proxdual f)) (Some (o_prox f)) None (o_hasgrad f) 1.

(** ProxOperator.py:336-355, class [_SumOperator]. *)
Definition sum_body (f : Op E) (v : E) : Body E :=
  mkBody
    (Some (fun x => c <- o_call f x ;; Ok (VNum (as_num c + << v, x >>))))
    (Some (fun x tau => o_prox f (x [-] tau [*] v) tau))
    None
    (Some (fun x => g <- o_grad f x ;;
             match g with
             | Some g => Ok (Some (g [+] v))
             | None => Err TypeError        (* None + array *)
             end))
    (o_hasgrad f) 1.

(** ProxOperator.py:358-373, class [_ChainOperator].  [__call__] (365-366)
    evaluates g(f(x)) where f(x) is a number, not an array: [gnum c] is what
    g's [__call__] does with the number c (some classes accept it, numpy
    treats it as a zero-dimensional array; others raise). *)
Definition chain_body (f g : Op E) (gnum : pyval -> result pyval) : Body E :=
  mkBody
    (Some (fun x => c <- o_call f x ;; gnum c))
    (Some (fun x tau => p <- o_prox f x tau ;; o_prox g p tau))
    None
    (Some (fun x => Ok None))
    (o_hasgrad f && o_hasgrad g) 1.

(** ProxOperator.py:376-394, class [_PostcompositionOperator]. *)
Definition post_body (f : Op E) (sigma : R) : Body E :=
  mkBody
    (Some (fun x => c <- o_call f x ;; Ok (VNum (sigma * as_num c))))
    (Some (fun x tau => o_prox f x (sigma * tau)))
    None
    (Some (fun x => g <- o_grad f x ;;
             match g with
             | Some g => Ok (Some (sigma [*] g))
             | None => Err TypeError
             end))
    (o_hasgrad f) 1.

(** ProxOperator.py:397-418, class [_PrecompositionOperator]; b is a vector
    (a python float b broadcasts to a constant vector).  Division by [a]
    needs a <> 0. *)
Definition pre_body (f : Op E) (a : R) (b : E) : Body E :=
  mkBody
    (Some (fun x => o_call f (a [*] x [+] b)))
    (Some (fun x tau => p <- o_prox f (a [*] x [+] b) (a ^ 2 * tau) ;; Ok (/ a [*] (p [-] b))))
    None
    (Some (fun x => g <- o_grad f (a [*] x [+] b) ;;
             match g with
             | Some g => Ok (Some (a [*] g))
             | None => Err TypeError
             end))
    (o_hasgrad f) 1.

(** The dynamic type of the other operand of [+], [-] and [*]. *)
Inductive operand : Type :=
| PInt (z : Z)
| PFloat (r : R)
| PArray (v : E)
| POp (f : Op E) (num : pyval -> result pyval)   (* an operator and its [__call__] on a number *)
| POther.

(** ProxOperator.py:186-214 ([affine_addition]) and 298-299 ([__add__]). *)
Definition op_add (fuel : nat) (f : Op E) (v : operand) : result (Op E) :=
  match v with
  | PArray v => Ok (obj fuel (sum_body f v))
  | _ => Err NotImplementedError
  end.

(** ProxOperator.py:301-302 ([__sub__] is [__add__(-v)]). *)
Definition op_sub (fuel : nat) (f : Op E) (v : operand) : result (Op E) :=
  match v with
  | PArray v => op_add fuel f (PArray (vopp v))
  | PInt z => op_add fuel f (PInt (- z))
  | PFloat r => op_add fuel f (PFloat (- r))
  | POp _ _ | POther => Err TypeError        (* unary minus undefined *)
  end.

(** ProxOperator.py:216-243 ([postcomposition]). *)
Definition postcomposition (fuel : nat) (f : Op E) (s : operand) : result (Op E) :=
  match s with
  | PFloat r => Ok (obj fuel (post_body f r))
  | _ => Err NotImplementedError
  end.

(** ProxOperator.py:275-296 ([chain]). *)
Definition chain (fuel : nat) (f g : Op E) (gnum : pyval -> result pyval) : Op E := obj fuel (chain_body f g gnum).

(** ProxOperator.py:304-308 ([__rmul__]).  A right operand that is neither
    number nor operator is chained all the same and only fails later; it is
    modelled as TypeError. *)
Definition op_rmul (fuel : nat) (f : Op E) (s : operand) : result (Op E) :=
  match s with
  | PInt z => postcomposition fuel f (PInt z)
  | PFloat r => postcomposition fuel f (PFloat r)
  | POp g gnum => Ok (chain fuel f g gnum)
  | _ => Err TypeError
  end.

(** The python expression [s * f].  ProxOperator defines [__rmul__] (304-308)
    but no [__mul__], and python tries the reflected method of the right
    operand only if the two operands have different types:
    [same_class] says that s is an operator of the class of f. *)
Definition py_mul (same_class : bool) (fuel : nat) (f : Op E) (s : operand) : result (Op E) :=
  match s with
  | POp _ _ => if same_class then Err TypeError else op_rmul fuel f s
  | _ => op_rmul fuel f s
  end.

(** ProxOperator.py:245-273 ([precomposition]).  [ones] is the all-ones vector
    of the space: a python float b is broadcast to b * ones. *)
Definition precomposition (ones : E) (fuel : nat) (f : Op E) (a : operand) (b : operand)
  : result (Op E) :=
  match a, b with
  | PFloat a, PFloat r => Ok (obj fuel (pre_body f a (r [*] ones)))
  | PFloat a, PArray b => Ok (obj fuel (pre_body f a b))
  | _, _ => Err NotImplementedError
  end.

(** ProxOperator.py:312-316 (property [H]). *)
Definition op_H (fuel : nat) (f : Op E) : Op E := obj fuel (adjoint_body f).

End Dispatch.

(** ** utils/moreau.py:53-69 on 1-D arrays *)

(** [np.allclose(a, b, rtol=1e-5, atol)]: |a_i - b_i| <= atol + rtol*|b_i|. *)
Definition isclose (rtol atol a b : R) : bool := Rleb (Rabs (a - b)) (atol + rtol * Rabs b).
Fixpoint allclose (rtol atol : R) (a b : list R) : bool :=
  match a, b with
  | x :: a', y :: b' => isclose rtol atol x y && allclose rtol atol a' b'
  | _, _ => true
  end.

Definition moreau {n : nat} (f : Op (Vec n)) (x : Vec n) (tau : R) (tol : R) (raiseerror : bool)
  : result bool :=
  p <- o_prox f x tau ;;
  pd <- o_proxdual f (/ tau [*] x) (1 / tau) ;;
  let s := p [+] tau [*] pd in
  if allclose (1 / 100000) tol (proj1_sig x) (proj1_sig s) then Ok true
  else if raiseerror then Err ValueError else Ok false.
