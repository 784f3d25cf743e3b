(** Property theorems for PALM2: statements only; every proof is [exact] a lemma of P_PALM2.v.
    Generated from the tagged lemmas of that file. *)
From Verif Require Import Base Space Spec SpecOps ConvexFacts Smooth M_ProxOp P_ProxOp M_Norms P_Norms M_Loop LoopFacts M_PALM SeqFacts P_PALM.
From Coq Require Import Psatz.
From Verif Require Import S_PALM2.
From Verif Require Import P_PALM2.
Open Scope result_scope.


(** PALM returns for every start, stored arrays, iteration count and every combination of fixed
    steps and backtracking, as long as the block constants in use are positive *)
Theorem C60_palm_runs : forall (E F : IPS) (H : Bilin E F) h gx gy lx ly hx0 hy0 proxf proxg (f : efun E) (g : efun F) x0 y0 gammaf gammag beta n nb,
  bilin_spec H h gx gy lx ly -> 0 < beta ->
  opt_impl (option_map on_x proxf) f -> opt_impl (match gammag with None => option_map on_y proxf | Some _ => proxg end) g ->
  (forall gm, gammaf = Some gm -> 0 < gm /\ forall y, 0 < ly y) -> (forall gm, gammag = Some gm -> 0 < gm /\ forall x, 0 < lx x) ->
  exists r, PALM H hx0 hy0 proxf proxg x0 y0 gammaf gammag beta n nb = Ok r.
Proof. exact C60_palm_runs_l. Qed.
Print Assumptions C60_palm_runs.

(** with backtracking for y (gammag=None) the operator given for g is never used: the result is
    the same for any two of them *)
Theorem C60_g_ignored_refuted : forall (E F : IPS) (H : Bilin E F) hx0 hy0 proxf proxg proxg' x0 y0 gammaf beta n nb,
  PALM H hx0 hy0 proxf proxg x0 y0 gammaf None beta n nb = PALM H hx0 hy0 proxf proxg' x0 y0 gammaf None beta n nb.
Proof. exact C60_g_ignored_refuted_l. Qed.
Print Assumptions C60_g_ignored_refuted.

(** concretely, f = 0 (None), g the indicator of y >= 0, H = (-4 - x y)^2/2 from x = y = 1 with
    gammaf = 10, gammag=None: after one iteration PALM returns x = 1/2, y = -5/4, outside
    the domain of g *)
Theorem C60_constraint_violated_refuted :
  opt_impl (Some nonneg1) (indic (fun y : R_IPS => 0 <= (y : R))) /\
  PALM (lr1 (-4)) (1 : R_IPS) (1 : R_IPS) None (Some nonneg1) (1 : R_IPS) (1 : R_IPS) (Some 10) None (1 / 2) 1 100 =
    Ok ((1 / 2 : R), (- 5 / 4 : R), [((1 / 2 : R), (- 5 / 4 : R))]).
Proof. exact C60_constraint_violated_refuted_l. Qed.
Print Assumptions C60_constraint_violated_refuted.

(** the first x step reads the y stored in H, not y0: starting at an exact solution x = y = 1 of
    H = (1 - x y)^2/2 with 2 stored in H (as a previous run leaves), gammaf = 1, gammag = 2,
    one iteration raises H from 0 to 1/2 *)
Theorem C60_stale_y_refuted : exists x y : R_IPS,
  PALM (lr1 1) (1 : R_IPS) (2 : R_IPS) None None (1 : R_IPS) (1 : R_IPS) (Some 1) (Some 2) (1 / 2) 1 10 = Ok (x, y, [(x, y)]) /\
  h_call (lr1 1) (1 : R_IPS) (1 : R_IPS) = Ok 0 /\ h_call (lr1 1) x y = Ok (1 / 2).
Proof. exact C60_stale_y_refuted_l. Qed.
Print Assumptions C60_stale_y_refuted.

(** y0 = 0 makes the block constant of the low-rank function zero and PALM raises
    ZeroDivisionError *)
Theorem C60_zero_start_refuted : forall d hx0 hy0 proxf proxg x0 gm gammag beta n nb, (0 < n)%nat ->
  PALM (lr1 d) hx0 hy0 proxf proxg x0 (0 : R_IPS) (Some gm) gammag beta n nb = Err ZeroDivisionError.
Proof. exact C60_zero_start_refuted_l. Qed.
Print Assumptions C60_zero_start_refuted.

(** the hypotheses of C60_palm_descent and C60_palm_runs hold for H = (x-y)^2/2, f = 0, g the
    indicator of y >= 0, gammaf = None (backtracking), gammag = 2; and those of
    C60_palm_descent for the low-rank H with gammaf = gammag = 2, from x0 = 1, y0 = 1 *)
Example C60_example : let z := etot (E:=R_IPS) (fun _ : R_IPS => 0) in let g := indic (fun y : R_IPS => 0 <= (y : R)) in
  bilin_spec cpl1 (fun x y => (x - y) * (x - y) / 2) (fun x y => (x - y) : R_IPS) (fun x y => (y - x) : R_IPS) (fun _ => 1) (fun _ => 1) /\
  0 < 1 / 2 < 1 /\ opt_impl (E:=R_IPS) None z /\ opt_impl (Some nonneg1) g /\ mode_ok None (1 / 2) 1 5 1 /\ mode_ok (Some 2) (1 / 2) 1 5 1 /\
  edom z (3 : R) /\ edom g (2 : R) /\
  (exists r, PALM cpl1 (3 : R_IPS) (2 : R_IPS) None (Some nonneg1) (3 : R_IPS) (2 : R_IPS) None (Some 2) (1 / 2) 7 5 = Ok r) /\
  (exists lx ly hx gx gy, bilin_spec (lr1 4) hx gx gy lx ly /\ forall y : R_IPS, mode_ok (Some 2) (1 / 2) 1 5 (ly y)).
Proof. exact C60_example_l. Qed.

(** with a = (0, 0) and both steps of the same kind (both fixed or both backtracking) iPALM
    returns exactly what PALM returns *)
Theorem C60_ipalm_no_inertia : forall (E F : IPS) (H : Bilin E F) hx0 hy0 proxf proxg x0 y0 gammaf gammag beta n nb,
  is_none gammaf = is_none gammag ->
  iPALM H hx0 hy0 proxf proxg x0 y0 gammaf gammag 0 0 beta n nb = PALM H hx0 hy0 proxf proxg x0 y0 gammaf gammag beta n nb.
Proof. exact C60_ipalm_no_inertia_l. Qed.
Print Assumptions C60_ipalm_no_inertia.

(** a fixed step for x with backtracking for y (gammag=None), which the documentation allows,
    never runs: iPALM raises UnboundLocalError in the first iteration *)
Theorem C60_ipalm_gammag_none_refuted : forall (E F : IPS) (H : Bilin E F) h gx gy lx ly hx0 hy0 proxf proxg (f : efun E) x0 y0 gm ax ay beta n nb,
  bilin_spec H h gx gy lx ly -> opt_impl (option_map on_x proxf) f -> 0 < gm -> 0 < ly y0 -> (0 < n)%nat ->
  iPALM H hx0 hy0 proxf proxg x0 y0 (Some gm) None ax ay beta n nb = Err UnboundLocalError.
Proof. exact C60_ipalm_gammag_none_refuted_l. Qed.
Print Assumptions C60_ipalm_gammag_none_refuted.

(** in backtracking mode the inertial parameter of y has no effect: the result is the same for
    all values *)
Theorem C60_ipalm_y_inertia_refuted : forall (E F : IPS) (H : Bilin E F) hx0 hy0 proxf proxg proxg' x0 y0 gammaf ax ay ay' beta n nb,
  iPALM H hx0 hy0 proxf proxg x0 y0 gammaf None ax ay beta n nb = iPALM H hx0 hy0 proxf proxg' x0 y0 gammaf None ax ay' beta n nb.
Proof. exact C60_ipalm_y_inertia_refuted_l. Qed.
Print Assumptions C60_ipalm_y_inertia_refuted.

(** both steps fixed, inertia in [0,1], H with stored y equal to y0 and two-sided block-
    quadratic bounds. Whenever iPALM returns, its callbacks follow the documented inertial
    recursion, and if dx, dy separate the constants ((gamma a + 2 a^2 - a) L <= d <=
    (gamma-1)(1-a) L) then f + g + H + dx/2 |x_j - x_(j-1)|^2 + dy/2 |y_j - y_(j-1)|^2 never
    increases *)
Theorem C60_ipalm_inertial : forall (E F : IPS) (H : Bilin E F) h gx gy lx ly hx0 proxf proxg (f : efun E) (g : efun F) x0 y0 gf gg ax ay beta n nb r,
  bilin_spec H h gx gy lx ly -> opt_impl (option_map on_x proxf) f -> opt_impl proxg g -> 1 <= gf -> 1 <= gg ->
  edom f x0 -> edom g y0 ->
  iPALM H hx0 y0 proxf proxg x0 y0 (Some gf) (Some gg) ax ay beta n nb = Ok r ->
  exists xs ys, r = (xs n, ys n, map (fun j => (xs j, ys j)) (seq 1 n)) /\ xs 0%nat = x0 /\ ys 0%nat = y0 /\
    ipalm_doc f g gx gy lx ly gf gg ax ay xs ys n /\
    (0 <= ax <= 1 -> 0 <= ay <= 1 -> (forall y, q_lower (fun x => h x y) (fun x => gx x y) (ly y)) -> (forall x, q_lower (h x) (gy x) (lx x)) ->
     forall dx dy, (forall y, edom g y -> (gf * ax + 2 * (ax * ax) - ax) * ly y <= dx <= (gf - 1) * (1 - ax) * ly y) ->
       (forall x, edom f x -> (gg * ay + 2 * (ay * ay) - ay) * lx x <= dy <= (gg - 1) * (1 - ay) * lx x) ->
     let V j := palm_obj f g h (xs j) (ys j) + dx / 2 * norm2 (xs j [-] xs (pred j)) + dy / 2 * norm2 (ys j [-] ys (pred j)) in
     forall j, (j < n)%nat -> V (S j) <= V j).
Proof. exact C60_ipalm_inertial_l. Qed.
Print Assumptions C60_ipalm_inertial.

(** H = (x-y)^2/2, gammaf = gammag = 2, inertia 1/4 on both blocks, dx = dy = 3/4: the
    conditions of C60_ipalm_inertial hold, and those of C60_ipalm_gammag_none_refuted *)
Example C60_ipalm_example :
  bilin_spec cpl1 (fun x y => (x - y) * (x - y) / 2) (fun x y => (x - y) : R_IPS) (fun x y => (y - x) : R_IPS) (fun _ => 1) (fun _ => 1) /\
  (forall y : R_IPS, q_lower (E:=R_IPS) (fun x => (x - y) * (x - y) / 2) (fun x => (x - y) : R_IPS) 1) /\
  (forall x : R_IPS, q_lower (E:=R_IPS) (fun y => (x - y) * (x - y) / 2) (fun y => (y - x) : R_IPS) 1) /\
  (2 * (1 / 4) + 2 * (1 / 4 * (1 / 4)) - 1 / 4) * 1 <= 3 / 4 <= (2 - 1) * (1 - 1 / 4) * 1 /\
  exists r, iPALM cpl1 (3 : R_IPS) (2 : R_IPS) None None (3 : R_IPS) (2 : R_IPS) (Some 2) (Some 2) (1 / 4) (1 / 4) (1 / 2) 1 10 = Ok r.
Proof. exact C60_ipalm_example_l. Qed.
