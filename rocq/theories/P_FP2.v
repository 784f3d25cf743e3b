(** * Double precision: examples and counterexamples *)
From Coq Require Import Reals ZArith List Lra Lia.
From Flocq Require Import Core.Core IEEE754.BinarySingleNaN.
From Verif Require Import Base Space Spec M_FP S_FP P_FP.
Import ListNotations.
Open Scope R_scope.

(*! C76_l1 : In floating-point arithmetic (any precision, rounding to nearest), L1.prox(x, tau) of an array of numbers is an array of numbers; each entry is within u*(tau*sigma + |x|) plus half the least positive number of the exact proximal point (u = 2^-53 for float64), never exceeds |x| in size and never changes sign. This holds even when tau*sigma overflows. *)
Lemma fl_l1_all : forall (prec emax : Z) {Hp : Prec_gt_0 prec} {He : Prec_lt_emax prec emax} (sigma tau : binary_float prec emax) (xs : list (binary_float prec emax)),
  fin sigma -> 0 <= B2R sigma -> fin tau -> 0 < B2R tau -> Forall fin xs ->
  exists ys, fl_l1_prox sigma None xs tau = Ok ys /\
    Forall2 (fun x y => fin y /\ Rabs (B2R y) <= Rabs (B2R x) /\ 0 <= B2R y * B2R x /\
      exists p, is_prox (E:=R_IPS) (etot (E:=R_IPS) (fun a : R => B2R sigma * Rabs a)) (B2R tau) (B2R x) p /\
        Rabs (B2R y - p) <= ulpu prec * (B2R tau * B2R sigma + Rabs (B2R x)) + tiny prec emax) xs ys.
Proof. intros prec emax Hp He. first [exact (@fl_l1 prec emax Hp He) | exact (@fl_l1 prec emax)]. Qed.

(*! C76_threshold : When tau*sigma does not overflow, L1.prox uses one threshold t, the floating-point number nearest to tau*sigma, and each entry of the result is the floating-point number nearest to the exact proximal point for that threshold; it is exactly that point when |x| <= 2t, and it is zero exactly when |x| <= t. *)
Lemma fl_threshold_all : forall (prec emax : Z) {Hp : Prec_gt_0 prec} {He : Prec_lt_emax prec emax} (sigma tau big : binary_float prec emax) (xs : list (binary_float prec emax)),
  fin sigma -> 0 <= B2R sigma -> fin tau -> 0 < B2R tau -> Forall fin xs ->
  B2R tau * B2R sigma <= B2R big ->
  exists (t : binary_float prec emax) (ys : list (binary_float prec emax)), nearest (B2R tau * B2R sigma) t /\ fl_l1_prox sigma None xs tau = Ok ys /\
    Forall2 (fun x y => exists p, is_prox (E:=R_IPS) (etot (E:=R_IPS) (fun a : R => B2R t * Rabs a)) 1 (B2R x) p /\
      nearest p y /\ (Rabs (B2R x) <= 2 * B2R t -> B2R y = p) /\ (B2R y = 0 <-> Rabs (B2R x) <= B2R t)) xs ys.
Proof. intros prec emax Hp He. first [exact (@fl_threshold prec emax Hp He) | exact (@fl_threshold prec emax)]. Qed.

(*! C76_l1_monotone : In floating-point arithmetic L1.prox preserves order: if x <= x' entry by entry, so are the results. *)
Lemma fl_l1_monotone_all : forall (prec emax : Z) {Hp : Prec_gt_0 prec} {He : Prec_lt_emax prec emax} (sigma tau : binary_float prec emax) (xs xs' ys ys' : list (binary_float prec emax)),
  fin sigma -> 0 <= B2R sigma -> fin tau -> 0 < B2R tau ->
  Forall2 (fun x x' => fin x /\ fin x' /\ B2R x <= B2R x') xs xs' ->
  fl_l1_prox sigma None xs tau = Ok ys -> fl_l1_prox sigma None xs' tau = Ok ys' ->
  Forall2 (fun y y' => B2R y <= B2R y') ys ys'.
Proof. intros prec emax Hp He. first [exact (@fl_l1_monotone prec emax Hp He) | exact (@fl_l1_monotone prec emax)]. Qed.

(*! C76_nan : A NaN entry stays NaN through the prox of L1, L2, L0 and Box, and a NaN step passes the positivity check made by every prox. *)
Lemma fl_nan_all : forall (prec emax : Z) {Hp : Prec_gt_0 prec} {He : Prec_lt_emax prec emax} (sigma tau lo up : binary_float prec emax) (xs : list (binary_float prec emax)) i,
  Bleb tau (B754_zero false) = false -> nth_error xs i = Some B754_nan ->
  (exists ys, fl_l1_prox sigma None xs tau = Ok ys /\ nth_error ys i = Some B754_nan) /\
  (exists ys, fl_l2_prox sigma xs tau = Ok ys /\ nth_error ys i = Some B754_nan) /\
  (exists ys, fl_l0_prox sigma xs tau = Ok ys /\ nth_error ys i = Some B754_nan) /\
  (exists ys, fl_box_prox lo up xs tau = Ok ys /\ nth_error ys i = Some B754_nan) /\
  (forall r : list (binary_float prec emax), fl_check (B754_nan : binary_float prec emax) r = Ok r).
Proof. intros prec emax Hp He. first [exact (@fl_nan prec emax Hp He) | exact (@fl_nan prec emax)]. Qed.

(*! C76_box : In floating-point arithmetic Box.prox is exact: for bounds lower <= upper, infinite bounds included, the result is the exact projection of each entry on [lower, upper], Box accepts it, and projecting it again changes nothing, not even the sign of a zero. *)
Lemma fl_box_all : forall (prec emax : Z) {Hp : Prec_gt_0 prec} {He : Prec_lt_emax prec emax} (lo up tau : binary_float prec emax) (xs : list (binary_float prec emax)),
  Bleb lo up = true -> lo <> B754_infinity false -> up <> B754_infinity true ->
  fin tau -> 0 < B2R tau -> Forall fin xs ->
  exists ys, fl_box_prox lo up xs tau = Ok ys /\ fl_box_call lo up ys = true /\ fl_box_prox lo up ys tau = Ok ys /\
    Forall2 (fun x y => fin y /\ is_proj (E:=R_IPS) (fun z : R => above lo z /\ below up z) (B2R x) (B2R y)) xs ys.
Proof. intros prec emax Hp He. first [exact (@fl_box prec emax Hp He) | exact (@fl_box prec emax)]. Qed.

(*! C76_l1_dual : In floating-point arithmetic L1.proxdual (without g) is exact: each entry of the result is the exact projection of the entry on [-sigma, sigma]. *)
Lemma fl_dual_all : forall (prec emax : Z) {Hp : Prec_gt_0 prec} {He : Prec_lt_emax prec emax} (sigma tau : binary_float prec emax) (xs : list (binary_float prec emax)),
  fin sigma -> 0 <= B2R sigma -> fin tau -> 0 < B2R tau -> Forall fin xs ->
  exists ys, fl_l1_dual sigma xs tau = Ok ys /\
    Forall2 (fun x y => fin y /\ is_proj (E:=R_IPS) (fun z : R => Rabs z <= B2R sigma) (B2R x) (B2R y)) xs ys.
Proof. intros prec emax Hp He. first [exact (@fl_dual prec emax Hp He) | exact (@fl_dual prec emax)]. Qed.

(*! C76_l0_twice : In floating-point arithmetic applying L0.prox twice with the same step gives, bit for bit, the same array as applying it once. *)
Lemma fl_l0_twice_all : forall (prec emax : Z) {Hp : Prec_gt_0 prec} {He : Prec_lt_emax prec emax} (sigma tau : binary_float prec emax) (xs ys : list (binary_float prec emax)),
  fl_l0_prox sigma xs tau = Ok ys -> fl_l0_prox sigma ys tau = Ok ys.
Proof. intros prec emax Hp He. first [exact (@fl_l0_twice prec emax Hp He) | exact (@fl_l0_twice prec emax)]. Qed.

(*! C76_shift : With a vector g, every x for which some floating-point number lies between |x - g| and tau*sigma is sent to g exactly, in floating-point arithmetic too. *)
Lemma fl_shift_all : forall (prec emax : Z) {Hp : Prec_gt_0 prec} {He : Prec_lt_emax prec emax} (sigma tau : binary_float prec emax) (xs gs ys : list (binary_float prec emax)),
  fin sigma -> 0 <= B2R sigma -> fin tau -> 0 < B2R tau ->
  Forall2 (fun x g => fin x /\ fin g /\ exists s : binary_float prec emax, Rabs (B2R x - B2R g) <= B2R s <= B2R tau * B2R sigma) xs gs ->
  fl_l1_prox sigma (Some gs) xs tau = Ok ys -> Forall2 (fun g y => fin y /\ B2R y = B2R g) gs ys.
Proof. intros prec emax Hp He. first [exact (@fl_shift prec emax Hp He) | exact (@fl_shift prec emax)]. Qed.

(*! C76_l2 : In floating-point arithmetic L2.prox (no operator, no data) of an array of numbers is an array of numbers; each entry is within 5u|x| plus half the least positive number of the exact proximal point, never exceeds |x| in size and never changes sign, even when tau*sigma overflows. *)
Lemma fl_l2_all : forall (prec emax : Z) {Hp : Prec_gt_0 prec} {He : Prec_lt_emax prec emax} (sigma tau : binary_float prec emax) (xs : list (binary_float prec emax)),
  fin sigma -> 0 <= B2R sigma -> fin tau -> 0 < B2R tau -> Forall fin xs ->
  exists ys, fl_l2_prox sigma xs tau = Ok ys /\
    Forall2 (fun x y => fin y /\ Rabs (B2R y) <= Rabs (B2R x) /\ 0 <= B2R y * B2R x /\
      exists p, is_prox (E:=R_IPS) (etot (E:=R_IPS) (fun a : R => B2R sigma / 2 * a ^ 2)) (B2R tau) (B2R x) p /\
        Rabs (B2R y - p) <= 5 * ulpu prec * Rabs (B2R x) + tiny prec emax) xs ys.
Proof. intros prec emax Hp He. first [exact (@fl_l2 prec emax Hp He) | exact (@fl_l2 prec emax)]. Qed.

Lemma lt_dec_fl (a b : b64) : is_finite a = true -> is_finite b = true -> fl_lt a b = true -> B2R a < B2R b.
Proof. intros Fa Fb. apply (lt_fin a b Fa Fb). Qed.
Lemma le_dec_fl (a b : b64) : is_finite a = true -> is_finite b = true -> fl_le a b = true -> B2R a <= B2R b.
Proof. intros Fa Fb. apply (le_fin a b Fa Fb). Qed.

(*! C76_ball_refuted : In double precision the point returned by EuclideanBall.prox can be rejected by that EuclideanBall, and projecting it again can move it: radius 7, centre 0, x = [25.]. *)
Lemma fl_ball_refuted : exists (c r x tau y : b64), fin c /\ fin r /\ fin x /\ fin tau /\ 0 < B2R tau /\ 0 < B2R r /\
  fl_ball_prox c r x tau = Ok y /\ fin y /\ fl_ball_call c r y = false /\
  exists y', fl_ball_prox c r y tau = Ok y' /\ fin y' /\ B2R y' < B2R y.
Proof.
  exists (dbl 0 0), (dbl 7 0), (dbl 25 0), (dbl 1 0). eexists.
  split; [reflexivity|]. split; [reflexivity|]. split; [reflexivity|]. split; [reflexivity|].
  split; [apply (lt_dec_fl (dbl 0 0) (dbl 1 0)); reflexivity|]. split; [apply (lt_dec_fl (dbl 0 0) (dbl 7 0)); reflexivity|].
  split; [reflexivity|]. split; [vm_compute; reflexivity|]. split; [vm_compute; reflexivity|].
  eexists. split; [reflexivity|]. split; [vm_compute; reflexivity|]. apply lt_dec_fl; vm_compute; reflexivity.
Qed.

(*! C76_halfspace_refuted : In double precision the point returned by HalfSpace.prox can lie outside the half-space and be rejected by that HalfSpace: w = [3.], b = 1, x = [3.]. *)
Lemma fl_half_refuted : exists (w b x tau y : b64), fin w /\ fin b /\ fin x /\ fin tau /\ 0 < B2R tau /\
  fl_half_prox w b x tau = Ok y /\ fin y /\ fl_half_call w b y = false /\ B2R b < B2R w * B2R y.
Proof.
  exists (dbl 3 0), (dbl 1 0), (dbl 3 0), (dbl 1 0). eexists.
  split; [reflexivity|]. split; [reflexivity|]. split; [reflexivity|]. split; [reflexivity|].
  split; [apply (lt_dec_fl (dbl 0 0) (dbl 1 0)); reflexivity|].
  split; [reflexivity|]. split; [vm_compute; reflexivity|]. split; [vm_compute; reflexivity|].
  match goal with |- _ < _ * B2R ?y => set (z := y) end.
  assert (E : B2SF z = SpecFloat.S754_finite false 6004799503160664 (-54)) by (vm_compute; reflexivity).
  rewrite <- (SF2R_B2SF _ _ z), E. rewrite <- !SF2R_B2SF.
  replace (B2SF (dbl 1 0)) with (SpecFloat.S754_finite false 4503599627370496 (-52)) by (vm_compute; reflexivity).
  replace (B2SF (dbl 3 0)) with (SpecFloat.S754_finite false 6755399441055744 (-51)) by (vm_compute; reflexivity).
  cbn -[IZR]. unfold F2R. cbn -[IZR]. lra.
Qed.

(*! C76_l1_expands_refuted : In double precision L1.prox is not non-expansive: two arrays can be moved further apart, although only by rounding. *)
Lemma fl_expands_refuted : exists (sigma tau x x' y y' : b64), fin sigma /\ fin tau /\ fin x /\ fin x' /\ 0 < B2R sigma /\ 0 < B2R tau /\
  fl_l1_prox sigma None [x] tau = Ok [y] /\ fl_l1_prox sigma None [x'] tau = Ok [y'] /\
  Rabs (B2R x' - B2R x) < Rabs (B2R y' - B2R y).
Proof.
  exists (dbl 5 (-56)), (dbl 1 0), (dbl 1 0), (dbl 4503599627370497 (-52)). do 2 eexists.
  split; [reflexivity|]. split; [reflexivity|]. split; [reflexivity|]. split; [reflexivity|].
  split; [apply (lt_dec_fl (dbl 0 0) (dbl 5 (-56))); reflexivity|]. split; [apply (lt_dec_fl (dbl 0 0) (dbl 1 0)); reflexivity|].
  split; [reflexivity|]. split; [reflexivity|].
  match goal with |- _ < Rabs (B2R ?y' - B2R ?y) => set (z' := y'); set (z := y) end.
  assert (E : B2SF z = SpecFloat.S754_finite false 9007199254740991 (-53)) by (vm_compute; reflexivity).
  assert (E' : B2SF z' = SpecFloat.S754_finite false 4503599627370497 (-52)) by (vm_compute; reflexivity).
  rewrite <- (SF2R_B2SF _ _ z), E. rewrite <- (SF2R_B2SF _ _ z'), E'. rewrite <- !SF2R_B2SF.
  replace (B2SF (dbl 1 0)) with (SpecFloat.S754_finite false 4503599627370496 (-52)) by (vm_compute; reflexivity).
  replace (B2SF (dbl 4503599627370497 (-52))) with (SpecFloat.S754_finite false 4503599627370497 (-52)) by (vm_compute; reflexivity).
  cbn -[IZR]. unfold F2R. cbn -[IZR]. rewrite !Rabs_pos_eq by lra. lra.
Qed.

(*!ex C76_example : Double precision, sigma = 1/10 (rounded), tau = 1/2, x = [1, -3, 1/32]: the hypotheses of C76_l1, C76_threshold, C76_l2 and C76_l1_dual hold and the last entry of the L1 result is zero. *)
Lemma fl_example : exists (sigma tau big a b c : b64), fin sigma /\ 0 <= B2R sigma /\ fin tau /\ 0 < B2R tau /\ Forall fin [a; b; c] /\
  B2R tau * B2R sigma <= B2R big /\
  exists y1 y2 y3, fl_l1_prox sigma None [a; b; c] tau = Ok [y1; y2; y3] /\ 0 < B2R y1 < B2R a /\ B2R b < B2R y2 < 0 /\ B2R y3 = 0.
Proof.
  exists (fl_div (dbl 1 0) (dbl 10 0)), (dbl 1 (-1)), (dbl 1 0), (dbl 1 0), (dbl (-3) 0), (dbl 1 (-5)).
  split; [vm_compute; reflexivity|]. split; [apply (le_dec_fl (dbl 0 0)); vm_compute; reflexivity|].
  split; [reflexivity|]. split; [apply (lt_dec_fl (dbl 0 0)); vm_compute; reflexivity|].
  split; [repeat constructor|]. split.
  { rewrite <- !SF2R_B2SF. replace (B2SF (fl_div (dbl 1 0) (dbl 10 0))) with (SpecFloat.S754_finite false 7205759403792794 (-56)) by (vm_compute; reflexivity).
    replace (B2SF (dbl 1 0)) with (SpecFloat.S754_finite false 4503599627370496 (-52)) by (vm_compute; reflexivity).
    replace (B2SF (dbl 1 (-1))) with (SpecFloat.S754_finite false 4503599627370496 (-53)) by (vm_compute; reflexivity).
    cbn -[IZR]. unfold F2R. cbn -[IZR]. lra. }
  do 3 eexists. split; [reflexivity|].
  split; [split; [apply (lt_dec_fl (dbl 0 0))|apply lt_dec_fl]; vm_compute; reflexivity|].
  split; [split; [apply lt_dec_fl|apply (lt_dec_fl _ (dbl 0 0))]; vm_compute; reflexivity|].
  match goal with |- B2R ?y = 0 => set (z := y) end.
  rewrite <- (SF2R_B2SF _ _ z). replace (B2SF z) with (SpecFloat.S754_zero false) by (vm_compute; reflexivity). reflexivity.
Qed.

(*!ex C76_overflow_example : Double precision, sigma = tau = 2^1000: tau*sigma overflows to infinity and L1.prox still returns zero. *)
Lemma fl_overflow_example : fin (dbl 1 1000) /\ 0 < B2R (dbl 1 1000) /\ fl_mul (dbl 1 1000) (dbl 1 1000) = B754_infinity false /\
  fl_l1_prox (dbl 1 1000) None [dbl 1 0] (dbl 1 1000) = Ok [B754_zero false].
Proof.
  split; [reflexivity|]. split; [apply (lt_dec_fl (dbl 0 0)); vm_compute; reflexivity|]. split; reflexivity.
Qed.

(*!ex C76_box_example : Double precision, Box(0, inf) on [-1/3, 2]: the hypotheses of C76_box hold and the result is [0, 2]. *)
Lemma fl_box_example : let lo := dbl 0 0 in let up := B754_infinity false : b64 in let xs := [fl_div (dbl (-1) 0) (dbl 3 0); dbl 2 0] in
  Bleb lo up = true /\ lo <> B754_infinity false /\ up <> B754_infinity true /\ fin (dbl 1 0) /\ 0 < B2R (dbl 1 0) /\ Forall fin xs /\
  fl_box_prox lo up xs (dbl 1 0) = Ok [dbl 0 0; dbl 2 0].
Proof.
  cbv zeta. split; [reflexivity|]. split; [discriminate|]. split; [discriminate|]. split; [reflexivity|].
  split; [apply (lt_dec_fl (dbl 0 0)); vm_compute; reflexivity|]. split; [repeat constructor; vm_compute; reflexivity|].
  reflexivity.
Qed.

(*!ex C76_shift_example : Double precision, sigma = tau = 1, g = [5], x = [11/2]: the hypotheses of C76_shift hold and the result is g. *)
Lemma fl_shift_example : let one := dbl 1 0 in let g := dbl 5 0 in let x := dbl 11 (-1) in
  fin one /\ 0 < B2R one /\
  Forall2 (fun x g => fin x /\ fin g /\ exists s : b64, Rabs (B2R x - B2R g) <= B2R s <= B2R one * B2R one) [x] [g] /\
  fl_l1_prox one (Some [g]) [x] one = Ok [g].
Proof.
  cbv zeta. split; [reflexivity|]. split; [apply (lt_dec_fl (dbl 0 0)); vm_compute; reflexivity|]. split; [|reflexivity].
  repeat constructor. exists (dbl 1 0).
  rewrite <- !SF2R_B2SF. replace (B2SF (dbl 1 0)) with (SpecFloat.S754_finite false 4503599627370496 (-52)) by (vm_compute; reflexivity).
  replace (B2SF (dbl 11 (-1))) with (SpecFloat.S754_finite false 6192449487634432 (-50)) by (vm_compute; reflexivity).
  replace (B2SF (dbl 5 0)) with (SpecFloat.S754_finite false 5629499534213120 (-50)) by (vm_compute; reflexivity).
  cbn -[IZR]. unfold F2R. cbn -[IZR]. rewrite Rabs_pos_eq; lra.
Qed.
