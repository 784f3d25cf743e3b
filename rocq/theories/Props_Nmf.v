(** Property theorems for Nmf: statements only; every proof is [exact] a lemma of P_Nmf.v.
    Generated from the tagged lemmas of that file. *)
From Coq Require Import ZArith Psatz.
From Verif Require Import Base Space Spec ConvexFacts VSum MatFacts M_ProxOp SpecOps P_ProxOp M_L1 S_L1 P_L1 M_Norms P_Norms M_Loop LoopFacts SeqFacts S_Seq Fejer Compact IterMath M_Bilin S_Bilin P_Bilin S_Bilin2 P_Bilin2 M_PALM S_PALM P_PALM S_Exist S_Breg2 S_Sparse P_Sparse S_Noncvx NoncvxMath P_Noncvx P_TV2 P_Iter P_Denoise.
From Verif Require Import S_Nmf.
From Verif Require Import P_Nmf.
Open Scope result_scope.
Open Scope R_scope.


(** non-negative matrix factorisation: data d with non-negative entries, Box objects with lower
    bound 0 (and any upper bounds) for both factors, non-zero starts inside the boxes,
    gammaf, gammag > 1, stored y equal to y0, any sizes and iteration count: PALM always
    returns (it never divides by zero), all iterates stay in the boxes and non-zero, 1/2 |d
    - XY|^2 decreases by at least the stated multiple of the squared moves, and every limit
    point of the iterates with two non-zero factors is a pair where neither factor can be
    improved alone *)
Theorem C99_nonneg_runs : forall H n k m (X Y0 : _) (d : Vec (n * m)) (lu : nlist bounds (n * k)) (lv : nlist bounds (k * m)) pf pg x0 gf gg beta nb,
  lr_holds H (X : Vec (n * k)) (Y0 : Vec (k * m)) d (id_linop _) -> lr_op H = None -> nonneg_entries d -> from_zero lu -> from_zero lv -> is_box (on_x pf) lu -> is_box pg lv -> 1 < gf -> 1 < gg ->
  box_set lu x0 -> box_set lv Y0 -> x0 <> vzero -> Y0 <> vzero ->
  exists ps : nat -> Prod_IPS (Vec (n * k)) (Vec (k * m)), ps 0%nat = (x0, Y0) /\
    (forall N, PALM (lr_bilin H n k m) X Y0 (Some pf) (Some pg) x0 Y0 (Some gf) (Some gg) beta N nb = Ok (fst (ps N), snd (ps N), map ps (seq 1 N))) /\
    (forall N, box_set lu (fst (ps N)) /\ box_set lv (snd (ps N)) /\ fst (ps N) <> vzero /\ snd (ps N) <> vzero /\
       misfit n k m d (fst (ps (S N))) (snd (ps (S N))) + (gf - 1) * norm2 (snd (ps N)) / (2 * INR k) * norm2 (fst (ps (S N)) [-] fst (ps N)) +
         (gg - 1) * norm2 (fst (ps (S N))) / (2 * INR k) * norm2 (snd (ps (S N)) [-] snd (ps N)) <= misfit n k m d (fst (ps N)) (snd (ps N))) /\
    forall a b, cluster ps ((a, b) : Prod_IPS _ _) -> a <> vzero -> b <> vzero -> best_pair n k m d (indic (box_set lu)) (indic (box_set lv)) a b.
Proof. exact C99_nonneg_runs_l. Qed.
Print Assumptions C99_nonneg_runs.

(** any f >= 0 and g >= 0 with correct proximal operators (or none), gammaf, gammag >= 1, a
    start that is better than the zero product (f(x0) + g(y0) + 1/2 |d - x0 y0|^2 <
    |d|^2/2), any sizes and iteration count: PALM always returns, the objective decreases by
    at least the stated multiple of the squared moves, and |XY| stays at least |d| - sqrt(2
    J(x0, y0)); if moreover gammaf, gammag > 1 and f, g are convex and closed, every limit
    point of the iterates is a pair where neither factor can be improved alone *)
Theorem C99_better_runs : forall H n k m (X : Vec (n * k)) (Y0 : Vec (k * m)) (d : Vec (n * m)) f g proxf proxg x0 gf gg beta nb,
  lr_holds H X Y0 d (id_linop _) -> lr_op H = None -> opt_impl (option_map on_x proxf) f -> opt_impl proxg g -> 1 <= gf -> 1 <= gg ->
  (forall x, edom f x -> 0 <= eval f x) -> (forall y, edom g y -> 0 <= eval g y) -> edom f x0 -> edom g Y0 -> eval f x0 + eval g Y0 + misfit n k m d x0 Y0 < norm2 d / 2 ->
  let J := fun p : Prod_IPS (Vec (n * k)) (Vec (k * m)) => eval f (fst p) + eval g (snd p) + misfit n k m d (fst p) (snd p) in
  exists ps : nat -> Prod_IPS (Vec (n * k)) (Vec (k * m)), ps 0%nat = (x0, Y0) /\
    (forall N, PALM (lr_bilin H n k m) X Y0 proxf proxg x0 Y0 (Some gf) (Some gg) beta N nb = Ok (fst (ps N), snd (ps N), map ps (seq 1 N))) /\
    (forall N, edom f (fst (ps N)) /\ edom g (snd (ps N)) /\ norm d - sqrt (2 * J (ps 0%nat)) <= norm (mm n k m (fst (ps N)) (snd (ps N))) /\
       J (ps (S N)) + (gf - 1) * norm2 (snd (ps N)) / (2 * INR k) * norm2 (fst (ps (S N)) [-] fst (ps N)) +
         (gg - 1) * norm2 (fst (ps (S N))) / (2 * INR k) * norm2 (snd (ps (S N)) [-] snd (ps N)) <= J (ps N)) /\
    (1 < gf -> 1 < gg -> convex f -> convex g -> closed f -> closed g -> forall a b, cluster ps ((a, b) : Prod_IPS _ _) -> best_pair n k m d f g a b).
Proof. exact C99_better_runs_l. Qed.
Print Assumptions C99_better_runs.

(** under the hypotheses of C99_better_runs with gammaf, gammag > 1, if moreover the pairs that
    are no worse than the start have factors of norm at most R (for example because the
    boxes are bounded): among the first N iterations there is one with squared moves |dx|^2
    + |dy|^2 <= 2 k J(x0,y0) R^2 / ((min(gammaf, gammag) - 1) c^2 N), c = |d| - sqrt(2
    J(x0,y0)), and for convex and closed f, g the iterates approach the set of pairs where
    neither factor can be improved alone *)
Theorem C99_rate : forall H n k m (X : Vec (n * k)) (Y0 : Vec (k * m)) (d : Vec (n * m)) f g proxf proxg x0 gf gg beta nb Rm,
  lr_holds H X Y0 d (id_linop _) -> lr_op H = None -> opt_impl (option_map on_x proxf) f -> opt_impl proxg g -> 1 < gf -> 1 < gg ->
  (forall x, edom f x -> 0 <= eval f x) -> (forall y, edom g y -> 0 <= eval g y) -> edom f x0 -> edom g Y0 -> eval f x0 + eval g Y0 + misfit n k m d x0 Y0 < norm2 d / 2 ->
  let J := fun p : Prod_IPS (Vec (n * k)) (Vec (k * m)) => eval f (fst p) + eval g (snd p) + misfit n k m d (fst p) (snd p) in
  (forall p, edom f (fst p) -> edom g (snd p) -> J p <= J (x0, Y0) -> norm (fst p) <= Rm /\ norm (snd p) <= Rm) ->
  let c := norm d - sqrt (2 * J (x0, Y0)) in
  exists ps : nat -> Prod_IPS (Vec (n * k)) (Vec (k * m)), ps 0%nat = (x0, Y0) /\ 0 < c /\
    (forall N, PALM (lr_bilin H n k m) X Y0 proxf proxg x0 Y0 (Some gf) (Some gg) beta N nb = Ok (fst (ps N), snd (ps N), map ps (seq 1 N))) /\
    (forall N, (0 < N)%nat -> exists j, (j < N)%nat /\ norm2 (fst (ps (S j)) [-] fst (ps j)) + norm2 (snd (ps (S j)) [-] snd (ps j)) <= 2 * INR k * J (x0, Y0) * (Rm * Rm) / ((Rmin gf gg - 1) * (c * c) * INR N)) /\
    (convex f -> convex g -> closed f -> closed g -> approaches (fun p : Prod_IPS (Vec (n * k)) (Vec (k * m)) => best_pair n k m d f g (fst p) (snd p)) ps).
Proof. exact C99_rate_l. Qed.
Print Assumptions C99_rate.

(** Box objects with any bounds for both factors: a pair is one where neither factor can be
    improved alone if and only if both factors are in their boxes and, at every entry, the
    derivative of 1/2 |d - XY|^2 is negative only at the upper bound and positive only at
    the lower bound *)
Theorem C99_kkt : forall n k m (d : Vec (n * m)) (lu : nlist bounds (n * k)) (lv : nlist bounds (k * m)) x y,
  best_pair n k m d (indic (box_set lu)) (indic (box_set lv)) x y <-> box_set lu x /\ box_set lv y /\
    (forall i l, (i < n)%nat -> (l < k)%nat -> (slopex n k m d x y i l < 0 -> upper_of lu (i * k + l) = Some (get x (i * k + l))) /\ (0 < slopex n k m d x y i l -> lower_of lu (i * k + l) = Some (get x (i * k + l)))) /\
    (forall l j, (l < k)%nat -> (j < m)%nat -> (slopey n k m d x y l j < 0 -> upper_of lv (l * m + j) = Some (get y (l * m + j))) /\ (0 < slopey n k m d x y l j -> lower_of lv (l * m + j) = Some (get y (l * m + j)))).
Proof. exact C99_kkt_l. Qed.
Print Assumptions C99_kkt.

(** Box(lower=0) for both factors: a pair is one where neither factor can be improved alone if
    and only if all entries of both factors are non-negative, all derivatives of 1/2 |d -
    XY|^2 are non-negative, and at every entry the entry or its derivative is zero *)
Theorem C99_kkt_nonneg : forall n k m (d : Vec (n * m)) (lu : nlist bounds (n * k)) (lv : nlist bounds (k * m)) x y, only_zero lu -> only_zero lv ->
  (best_pair n k m d (indic (box_set lu)) (indic (box_set lv)) x y <-> nonneg_entries x /\ nonneg_entries y /\
    (forall i l, (i < n)%nat -> (l < k)%nat -> 0 <= slopex n k m d x y i l /\ get x (i * k + l) * slopex n k m d x y i l = 0) /\
    (forall l j, (l < k)%nat -> (j < m)%nat -> 0 <= slopey n k m d x y l j /\ get y (l * m + j) * slopey n k m d x y l j = 0)).
Proof. exact C99_kkt_nonneg_l. Qed.
Print Assumptions C99_kkt_nonneg.

(** without the sign condition on the data PALM can fail: one negative datum d = -1,
    Box(lower=0) for both factors, start x0 = y0 = 1, gammaf = gammag = 2: the first x step
    gives 0 and PALM raises ZeroDivisionError for every iteration count >= 1 *)
Theorem C99_negative_refuted : forall bx (bg : Op (Vec (1 * 1))) beta N nb, is_box bx (zb (1 * 1)) -> is_box bg (zb (1 * 1)) -> (1 <= N)%nat ->
  PALM (lr_bilin (lr1 (-1) 1 1) 1 1 1) (v1 1) (v1 1) (Some (mkOp2 bx bg)) (Some bg) (v1 1) (v1 1) (Some 2) (Some 2) beta N nb = Err ZeroDivisionError.
Proof. exact C99_negative_refuted_l. Qed.
Print Assumptions C99_negative_refuted.

(** gamma > 1 cannot be weakened to gamma = 1 in C99_nonneg_runs: zero data, Box(lower=0), start
    x0 = y0 = 1 and gammaf = 1 give x = 0 after one step and ZeroDivisionError *)
Theorem C99_gamma_one_refuted : forall bx (bg : Op (Vec (1 * 1))) gg beta N nb, is_box bx (zb (1 * 1)) -> is_box bg (zb (1 * 1)) -> (1 <= N)%nat ->
  PALM (lr_bilin (lr1 0 1 1) 1 1 1) (v1 1) (v1 1) (Some (mkOp2 bx bg)) (Some bg) (v1 1) (v1 1) (Some 1) (Some gg) beta N nb = Err ZeroDivisionError.
Proof. exact C99_gamma_one_refuted_l. Qed.
Print Assumptions C99_gamma_one_refuted.

(** the inertial variant does not share this: one positive datum d = 1, Box(lower=0), start x0 =
    y0 = 10, gammaf = gammag = 2 and a = [0.8, 0.8] as in the tutorial: PALM returns for
    every iteration count, iPALM raises ZeroDivisionError for every iteration count >= 3 *)
Theorem C99_ipalm_refuted : forall bx (bg : Op (Vec (1 * 1))) beta nb, is_box bx (zb (1 * 1)) -> is_box bg (zb (1 * 1)) ->
  (forall N, exists r, PALM (lr_bilin (lr1 1 10 10) 1 1 1) (v1 10) (v1 10) (Some (mkOp2 bx bg)) (Some bg) (v1 10) (v1 10) (Some 2) (Some 2) beta N nb = Ok r) /\
  forall N, (3 <= N)%nat -> iPALM (lr_bilin (lr1 1 10 10) 1 1 1) (v1 10) (v1 10) (Some (mkOp2 bx bg)) (Some bg) (v1 10) (v1 10) (Some 2) (Some 2) (4 / 5) (4 / 5) beta N nb = Err ZeroDivisionError.
Proof. exact C99_ipalm_refuted_l. Qed.
Print Assumptions C99_ipalm_refuted.

(** a pair where neither factor can be improved alone need not be a best factorisation, and PALM
    can stay there: d = diag(2, 1), rank 1, Box(lower=0), start x0 = (0, 1), y0 = (0, 1):
    for every gammaf, gammag >= 1 and iteration count PALM returns the start, with misfit 2,
    although the non-negative factors (2, 0), (1, 0) have misfit 1/2 *)
Theorem C99_global_refuted : forall bx (bo : Op (Vec (1 * 2))) (bg : Op (Vec (1 * 2))) gf gg beta nb, is_box bx (zb (2 * 1)) -> is_box bg (zb (1 * 2)) -> 1 <= gf -> 1 <= gg ->
  (forall N, PALM (lr_bilin glr 2 1 2) gx0 gy0 (Some (mkOp2 bx bo)) (Some bg) gx0 gy0 (Some gf) (Some gg) beta N nb = Ok (gx0, gy0, repeat (gx0, gy0) N)) /\
  misfit 2 1 2 gd gx0 gy0 = 2 /\ nonneg_entries gx1 /\ nonneg_entries gy1 /\ misfit 2 1 2 gd gx1 gy1 = 1 / 2.
Proof. exact C99_global_refuted_l. Qed.
Print Assumptions C99_global_refuted.

(** the hypotheses of the theorems hold for d = [[2, 1], [1, 1]], rank 1, Box(0, 3) for both
    factors and the start x0 = y0 = (1, 1), gamma = 2, with R = 5; and the pair (0, 1), (0,
    1) for diag(2, 1) is one where neither factor can be improved alone *)
Example C99_example : lr_holds elr ex1 ey1 ed (id_linop (Vec (2 * 2))) /\ lr_op elr = None /\ nonneg_entries ed /\ from_zero (ub (2 * 1)) /\ from_zero (ub (1 * 2)) /\ is_box ebx (ub (2 * 1)) /\ is_box eby (ub (1 * 2)) /\
  box_set (ub (2 * 1)) ex1 /\ box_set (ub (1 * 2)) ey1 /\ ex1 <> vzero /\ ey1 <> vzero /\
  opt_impl (Some ebx) (indic (box_set (ub (2 * 1)))) /\ opt_impl (Some eby) (indic (box_set (ub (1 * 2)))) /\ convex (indic (box_set (ub (2 * 1)))) /\ convex (indic (box_set (ub (1 * 2)))) /\ closed (indic (box_set (ub (2 * 1)))) /\ closed (indic (box_set (ub (1 * 2)))) /\
  misfit 2 1 2 ed ex1 ey1 < norm2 ed / 2 /\ (forall x, box_set (ub (2 * 1)) x -> norm x <= 5) /\ (forall y, box_set (ub (1 * 2)) y -> norm y <= 5) /\
  best_pair 2 1 2 gd (indic (box_set (zb (2 * 1)))) (indic (box_set (zb (1 * 2)))) gx0 gy0.
Proof. exact C99_example_l. Qed.
