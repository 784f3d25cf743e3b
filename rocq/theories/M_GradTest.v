(** * Model of the gradient self-tests (utils/gradtest.py) *)
From Verif Require Import Base.
Open Scope result_scope.
Open Scope R_scope.

(** A complex number; a real entry has imaginary part 0. *)
Record cx : Type := Cx { cre : R; cim : R }.
Definition cadd (a b : cx) : cx := Cx (cre a + cre b) (cim a + cim b).

(** [x[i] = v] in an array of length > i *)
Fixpoint set_at {A} (l : list A) (i : nat) (a : A) : list A :=
  match l, i with
  | [], _ => []
  | _ :: l, O => a :: l
  | b :: l, S i => b :: set_at l i a
  end.

(** gradtest.py:98-104: [x[iqx] = x[iqx] + delta1].  In an array of a real dtype the assignment keeps
    the real part only (numpy casts with a ComplexWarning); an index past the end raises IndexError. *)
Definition perturb (isreal : bool) (x : list cx) (iqx : nat) (d : cx) : result (list cx) :=
  match nth_error x iqx with
  | Some v => let w := cadd v d in Ok (set_at x iqx (if isreal then Cx (cre w) 0 else w))
  | None => Err IndexError
  end.

(** [np.isclose(a, b, rtol, atol)]: |a - b| <= atol + rtol * |b| *)
Definition isclose (a b rtol atol : R) : bool := Rleb (Rabs (a - b)) (atol + rtol * Rabs b).

(** gradtest.py:110-112 (and 238-242): the quotient uses |delta|; the complex draw compares with the imaginary part.
    delta = 0 gives a numpy nan or inf, for which isclose is False. *)
Definition passed_test (f fdelta delta : R) (g : cx) (imag : bool) (rtol atol : R) : bool :=
  if Reqb delta 0 then false
  else isclose ((fdelta - f) / Rabs delta - (if imag then cim g else cre g)) 0 rtol atol.

(** gradtest.py:80-126, [gradtest_proximal] with its two random draws [iqx] and [r_or_i] (line 95-96) as arguments.
    [opcall] and [opgrad] are the tested operator.  Result: the flag, and the content of the caller's x, which is
    modified in place (line 103).  [verb] only prints. *)
Definition gradtest_proximal (opcall : list cx -> result R) (opgrad : list cx -> result (list cx)) (isreal : bool) (x : list cx)
  (delta rtol atol : R) (raiseerror : bool) (iqx r_or_i : nat) : result (bool * list cx) :=
  f <- opcall x ;;
  g <- opgrad x ;;
  let imag := negb (Nat.eqb r_or_i 0) in
  let delta1 := if imag then Cx 0 delta else Cx delta 0 in
  x' <- perturb isreal x iqx delta1 ;;
  gi <- (match nth_error g iqx with Some v => Ok v | None => Err IndexError end) ;;
  fdelta <- opcall x' ;;
  let passed := passed_test f fdelta delta gi imag rtol atol in
  if andb (negb passed) raiseerror then Err AssertionError else Ok (passed, x').

(** gradtest.py:199-256, [gradtest_bilinear]; the draws are [iqx], [iqy], [x_or_y] and, with complexflag, [r_or_i].
    [x] and [y] are [Op.x.ravel()] and [Op.y.ravel()], views of the arrays held by the operator when the test starts
    (those given to its constructor): the returned pair is the content of those arrays after the call.  (The operator
    itself may have replaced its factors meanwhile: [__call__] in bilinear.py:150-165 does.) *)
Definition gradtest_bilinear (opcall : list cx -> list cx -> result R) (gradx grady : list cx -> result (list cx)) (isreal : bool) (x y : list cx)
  (delta rtol atol : R) (complexflag raiseerror : bool) (iqx iqy x_or_y r_or_i : nat) : result (bool * (list cx * list cx)) :=
  f <- opcall x y ;;
  gx <- gradx x ;;
  gy <- grady y ;;
  let imag := andb complexflag (Nat.eqb r_or_i 1) in
  let delta1 := if imag then Cx 0 delta else Cx delta 0 in
  if Nat.eqb x_or_y 0 then
    x' <- perturb isreal x iqx delta1 ;;
    gi <- (match nth_error gx iqx with Some v => Ok v | None => Err IndexError end) ;;
    fdelta <- opcall x' y ;;
    let passed := passed_test f fdelta delta gi imag rtol atol in
    if andb (negb passed) raiseerror then Err AssertionError else Ok (passed, (x', y))
  else
    y' <- perturb isreal y iqy delta1 ;;
    gi <- (match nth_error gy iqy with Some v => Ok v | None => Err IndexError end) ;;
    fdelta <- opcall x y' ;;
    let passed := passed_test f fdelta delta gi imag rtol atol in
    if andb (negb passed) raiseerror then Err AssertionError else Ok (passed, (x, y')).
