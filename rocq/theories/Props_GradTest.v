(** Property theorems for GradTest: statements only; every proof is [exact] a lemma of P_GradTest.v.
    Generated from the tagged lemmas of that file. *)
From Coq Require Import Psatz.
From Verif Require Import Base M_GradTest.
From Verif Require Import S_GradTest.
From Verif Require Import P_GradTest.
Open Scope result_scope.
Open Scope R_scope.


(** what gradtest_proximal decides: with the draw r_or_i = 0, or with a complex x, it compares
    the difference quotient in the real or imaginary direction of entry iqx with the real or
    imaginary part of the gradient entry, and passes exactly when they differ by at most
    atol; rtol has no influence; a failed test raises or returns False as asked *)
Theorem C62_outcome : forall (F : list cx -> R) (G : list cx -> list cx) isreal x delta rtol atol raiseerror iqx r, (iqx < length x)%nat -> (iqx < length (G x))%nat -> delta <> 0 ->
  (isreal = true -> all_real x /\ r = 0%nat) ->
  exists b x', verdict raiseerror b x' (gradtest_proximal (fun v => Ok (F v)) (fun v => Ok (G v)) isreal x delta rtol atol raiseerror iqx r) /\
    shifted_at x iqx (if Nat.eqb r 0 then Cx delta 0 else Cx 0 delta) x' /\
    (b = true <-> Rabs ((F x' - F x) / Rabs delta - (if Nat.eqb r 0 then cre (nth iqx (G x) (Cx 0 0)) else cim (nth iqx (G x) (Cx 0 0)))) <= atol).
Proof. exact C62_outcome_l. Qed.
Print Assumptions C62_outcome.

(** real x, draw r_or_i = 0: if D is the partial derivative at entry iqx up to a second-order
    term with curvature L, then a test that passes has a gradient entry within atol + L
    |delta| / 2 of D, and every entry within atol - L |delta| / 2 of D passes (positive
    delta) *)
Theorem C62_detects : forall (F : list cx -> R) (G : list cx -> list cx) isreal x delta rtol atol raiseerror iqx D L, (iqx < length x)%nat -> (iqx < length (G x))%nat -> 0 < delta -> all_real x ->
  (forall x', shifted_at x iqx (Cx delta 0) x' -> Rabs (F x' - F x - delta * D) <= L / 2 * (delta * delta)) ->
  exists b x', verdict raiseerror b x' (gradtest_proximal (fun v => Ok (F v)) (fun v => Ok (G v)) isreal x delta rtol atol raiseerror iqx 0) /\
    (b = true -> Rabs (cre (nth iqx (G x) (Cx 0 0)) - D) <= atol + L * delta / 2) /\ (Rabs (cre (nth iqx (G x) (Cx 0 0)) - D) <= atol - L * delta / 2 -> b = true).
Proof. exact C62_detects_l. Qed.
Print Assumptions C62_detects.

(** with a real x half of the draws check nothing: when r_or_i is not 0 the perturbation is
    dropped by the assignment and the test passes for every function and every real
    "gradient", however wrong *)
Theorem C62_imaginary_draw_refuted : forall (F : list cx -> R) (G : list cx -> list cx) x delta rtol atol raiseerror iqx r, (iqx < length x)%nat -> (iqx < length (G x))%nat -> delta <> 0 -> 0 <= atol ->
  all_real x -> all_real (G x) -> r <> 0%nat -> gradtest_proximal (fun v => Ok (F v)) (fun v => Ok (G v)) true x delta rtol atol raiseerror iqx r = Ok (true, x).
Proof. exact C62_imaginary_draw_refuted_l. Qed.
Print Assumptions C62_imaginary_draw_refuted.

(** with the default delta, rtol and atol the test rejects correct gradients: for f(t) = t^2 and
    its exact gradient 2t, at every point, the real draw raises AssertionError, since only
    atol = 1e-21 is granted for a truncation error of delta = 1e-6 *)
Theorem C62_default_refuted : forall t, (forall h, sqf [Cx (t + h) 0] - sqf [Cx t 0] - h * cre (nth 0 (sqg [Cx t 0]) (Cx 0 0)) = h * h) /\
  gradtest_proximal (fun v => Ok (sqf v)) (fun v => Ok (sqg v)) true [Cx t 0] (/ 10 ^ 6) (/ 10 ^ 6) (/ 10 ^ 21) true 0 0 = Err AssertionError.
Proof. exact C62_default_refuted_l. Qed.
Print Assumptions C62_default_refuted.

(** a negative delta compares with the opposite of the derivative, because the quotient divides
    by |delta|: the exact gradient of f(t) = t is rejected unless atol >= 2 *)
Theorem C62_negative_delta_refuted : forall t delta rtol atol, delta < 0 -> atol < 2 ->
  gradtest_proximal (fun v => Ok (match v with [] => 0 | a :: _ => cre a end)) (fun v => Ok (map (fun _ => Cx 1 0) v)) true [Cx t 0] delta rtol atol true 0 0 = Err AssertionError.
Proof. exact C62_negative_delta_refuted_l. Qed.
Print Assumptions C62_negative_delta_refuted.

(** the test is not read-only: with the draw r_or_i = 0 the caller's x is left perturbed at
    entry iqx, whether the test passes or not *)
Theorem C62_mutation_refuted : forall (F : list cx -> R) (G : list cx -> list cx) isreal x delta rtol atol iqx, (iqx < length x)%nat -> (iqx < length (G x))%nat -> delta <> 0 -> all_real x ->
  exists b x', gradtest_proximal (fun v => Ok (F v)) (fun v => Ok (G v)) isreal x delta rtol atol false iqx 0 = Ok (b, x') /\ cre (nth iqx x' (Cx 0 0)) = cre (nth iqx x (Cx 0 0)) + delta /\ x' <> x.
Proof. exact C62_mutation_refuted_l. Qed.
Print Assumptions C62_mutation_refuted.

(** gradtest_bilinear on real factors always perturbs the real part of the drawn entry of x or y
    and passes exactly when the difference quotient is within atol of that gradient entry *)
Theorem C62_bilinear : forall (F : list cx -> list cx -> R) (GX GY : list cx -> list cx) isreal x y delta rtol atol raiseerror iqx iqy xy r, (iqx < length x)%nat -> (iqy < length y)%nat -> (iqx < length (GX x))%nat -> (iqy < length (GY y))%nat ->
  delta <> 0 -> all_real x -> all_real y -> let test := gradtest_bilinear (fun u v => Ok (F u v)) (fun v => Ok (GX v)) (fun v => Ok (GY v)) isreal x y delta rtol atol false raiseerror iqx iqy xy r in
  (xy = 0%nat -> exists b x', verdict raiseerror b (x', y) test /\ shifted_at x iqx (Cx delta 0) x' /\ (b = true <-> Rabs ((F x' y - F x y) / Rabs delta - cre (nth iqx (GX x) (Cx 0 0))) <= atol)) /\
  (xy <> 0%nat -> exists b y', verdict raiseerror b (x, y') test /\ shifted_at y iqy (Cx delta 0) y' /\ (b = true <-> Rabs ((F x y' - F x y) / Rabs delta - cre (nth iqy (GY y) (Cx 0 0))) <= atol)).
Proof. exact C62_bilinear_l. Qed.
Print Assumptions C62_bilinear.

(** the square function at the point 3 with the tolerance 1e-3 of the project's own tests: the
    exact gradient passes, the wrong gradient 2t + 1 raises *)
Example C62_example : (exists x', gradtest_proximal (fun v => Ok (sqf v)) (fun v => Ok (sqg v)) true [Cx 3 0] (/ 10 ^ 6) (/ 10 ^ 6) (/ 10 ^ 3) true 0 0 = Ok (true, x')) /\
  gradtest_proximal (fun v => Ok (sqf v)) (fun v => Ok (map (fun a => Cx (2 * cre a + 1) 0) v)) true [Cx 3 0] (/ 10 ^ 6) (/ 10 ^ 6) (/ 10 ^ 3) true 0 0 = Err AssertionError.
Proof. exact C62_example_l. Qed.
