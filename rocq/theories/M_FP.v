(** * The entrywise operators in IEEE-754 arithmetic

    The other model files compute with exact reals.  Here the same code is
    modelled on floating-point numbers: [binary_float prec emax] of the Flocq
    library (signed zeros, infinities and NaN included), every operation rounded
    to nearest, ties to even.  prec = 53, emax = 1024 is double precision
    (numpy's float64), prec = 24, emax = 128 single precision.  Simplified: NaN
    payloads are not distinguished, and arrays and scalars have the same type. *)
From Coq Require Import ZArith.
From Flocq Require Import Core.Core IEEE754.BinarySingleNaN.
From Verif Require Import Base.
Open Scope result_scope.

Section Float.
Context {prec emax : Z} {Hp : Prec_gt_0 prec} {He : Prec_lt_emax prec emax}.
Notation fl := (binary_float prec emax).

(** numpy's elementary operations on one entry. *)
Definition fl_add (a b : fl) : fl := Bplus mode_NE a b.
Definition fl_sub (a b : fl) : fl := Bminus mode_NE a b.
Definition fl_mul (a b : fl) : fl := Bmult mode_NE a b.
Definition fl_div (a b : fl) : fl := Bdiv mode_NE a b.
Definition fl_sqrt (a : fl) : fl := Bsqrt mode_NE a.
Definition fl_abs (a : fl) : fl := Babs a.
Definition fl_zero : fl := B754_zero false.
(** a <= b, a < b; False when an operand is NaN *)
Definition fl_le (a b : fl) : bool := match Bcompare a b with Some Lt | Some Eq => true | _ => false end.
Definition fl_lt (a b : fl) : bool := match Bcompare a b with Some Lt => true | _ => false end.
(** np.maximum, np.minimum: NaN when an operand is NaN *)
Definition fl_max (a b : fl) : fl := if is_nan a || is_nan b then B754_nan else if fl_lt a b then b else a.
Definition fl_min (a b : fl) : fl := if is_nan a || is_nan b then B754_nan else if fl_lt b a then b else a.
(** np.sign *)
Definition fl_sign (a : fl) : fl :=
  match a with B754_nan => B754_nan | B754_zero _ => fl_zero | _ => if Bsign a then Bopp Bone else Bone end.

(** proximal/L1.py:13-38 (_softthreshold, real branch), one entry. *)
Definition fl_soft (x thresh : fl) : fl := fl_mul (fl_max (fl_sub (fl_abs x) thresh) fl_zero) (fl_sign x).
(** proximal/L0.py:15-40 (_hardthreshold), one entry: x1 = x.copy(); x1[abs(x) <= thresh] = 0. *)
Definition fl_hard (x thresh : fl) : fl := if fl_le (fl_abs x) thresh then fl_zero else x.
(** projection/Box.py:48-50 (BoxProj), one entry with its bounds. *)
Definition fl_clip (lo up x : fl) : fl := fl_min (fl_max x lo) up.

(** ProxOperator.py:21-25 (_check_tau) for a scalar step. *)
Definition fl_check {A} (tau : fl) (r : A) : result A := if fl_le tau fl_zero then Err ValueError else Ok r.
(** proximal/L1.py:137-146 (L1.prox, scalar sigma, g=None or an array). *)
Definition fl_l1_prox (sigma : fl) (g : option (list fl)) (x : list fl) (tau : fl) : result (list fl) :=
  fl_check tau
    match g with
    | None => map (fun a => fl_soft a (fl_mul tau sigma)) x
    | Some g => map (fun p => fl_add (fl_soft (fl_sub (fst p) (snd p)) (fl_mul tau sigma)) (snd p)) (combine x g)
    end.
(** proximal/L2.py:290-295 (L2.prox with Op=None, b=None, q=None). *)
Definition fl_l2_prox (sigma : fl) (x : list fl) (tau : fl) : result (list fl) :=
  fl_check tau (map (fun a => fl_div a (fl_add Bone (fl_mul tau sigma))) x).
(** proximal/L0.py:106-111 (L0.prox, scalar sigma). *)
Definition fl_l0_prox (sigma : fl) (x : list fl) (tau : fl) : result (list fl) :=
  fl_check tau (map (fun a => fl_hard a (fl_mul tau sigma)) x).
(** proximal/Box.py:38-43 (Box.__call__ and Box.prox, scalar bounds). *)
Definition fl_box_call (lo up : fl) (x : list fl) : bool := forallb (fun a => fl_le lo a && fl_le a up) x.
Definition fl_box_prox (lo up : fl) (x : list fl) (tau : fl) : result (list fl) := fl_check tau (map (fl_clip lo up) x).
(** proximal/L1.py:117,148-154 (L1.proxdual without g): the box [-sigma, sigma]. *)
Definition fl_l1_dual (sigma : fl) (x : list fl) (tau : fl) : result (list fl) := fl_check tau (map (fl_clip (Bopp sigma) sigma) x).

(** The Euclidean ball and the half-space, on arrays of one entry (for longer
    arrays the order of the additions in np.dot is not specified).
    np.linalg.norm(x) = sqrt(dot(x, x)); python's max(a, b) keeps a unless b > a. *)
Definition fl_norm1 (a : fl) : fl := fl_sqrt (fl_mul a a).
Definition py_max (a b : fl) : fl := if fl_lt a b then b else a.
(** projection/Euclidean.py:39-43, proximal/Euclidean.py:92-97. *)
Definition fl_ball_call (c r x : fl) : bool := fl_le (fl_norm1 (fl_sub x c)) r.
Definition fl_ball_prox (c r x tau : fl) : result fl :=
  fl_check tau (fl_add c (fl_mul (fl_div r (py_max (fl_norm1 (fl_sub x c)) r)) (fl_sub x c))).
(** projection/HalfSpace.py:46-53, proximal/HalfSpace.py:35-40. *)
Definition fl_half_call (w b x : fl) : bool := fl_le (fl_mul w x) b.
Definition fl_half_prox (w b x tau : fl) : result fl :=
  fl_check tau (if fl_le (fl_mul w x) b then x else fl_sub x (fl_mul (fl_div (fl_sub (fl_mul w x) b) (fl_mul w w)) w)).
End Float.
