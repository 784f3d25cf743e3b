(** Property theorems for Log1: statements only; every proof is [exact] a lemma of P_Log1.v.
    Generated from the tagged lemmas of that file. *)
From Verif Require Import Base Space Spec ConvexFacts Sep M_ProxOp SpecOps P_ProxOp M_L1 P_L1 M_Pen P_Pen P_Pen2 Smooth MatFacts M_Log1.
From Coq Require Import Psatz Rtrigo1 Ratan Rpower Ranalysis.
From Verif Require Import P_Log1.
Open Scope result_scope.


(** Log1.prox on arrays of every length, 2 delta^2 <= sigma tau: entries with |x_i| <= sqrt(2
    sigma tau) - delta become 0; every other entry keeps its sign, gets smaller in absolute
    value, and minimises (sigma/2) log(|z| + delta) + (z - x_i)^2/(2 tau) (half the
    documented weight) among all z with |z| >= (|x_i| - delta)/2 *)
Theorem C28_log1_local : forall n fuel sigma delta tau (x : Vec n), 0 < sigma -> 0 < tau -> 0 < delta ->
  2 * (delta * delta) <= sigma * tau ->
  exists p : Vec n, o_prox (obj (S fuel) (sep_body (n:=n) (log1_elem delta) (log1_pr sigma delta))) x tau = Ok p /\
  forall i, (i < n)%nat ->
    let a := get x i in let r := get p i in let thresh := sqrt (2 * (sigma * tau)) - delta in
    (Rabs a <= thresh -> r = 0) /\
    (thresh < Rabs a -> 0 < r * a /\ (Rabs a - delta) / 2 <= Rabs r < Rabs a /\
       forall z, (Rabs a - delta) / 2 <= Rabs z ->
         sigma / 2 * ln (Rabs r + delta) + (r - a) * (r - a) / (2 * tau) <=
         sigma / 2 * ln (Rabs z + delta) + (z - a) * (z - a) / (2 * tau)).
Proof. exact C28_log1_local_l. Qed.
Print Assumptions C28_log1_local.

(** it is a global minimiser of the sum of (sigma/2) log(|z_i| + delta) plus quadratic when
    every non-zero result comes from an |x_i| >= sigma tau/(2 delta), in particular for all
    inputs when 2 delta^2 = sigma tau *)
Theorem C28_log1_exact : forall n fuel sigma delta tau (x : Vec n), 0 < sigma -> 0 < tau -> 0 < delta ->
  2 * (delta * delta) = sigma * tau \/
  (2 * (delta * delta) <= sigma * tau /\ forall a, In a (proj1_sig (x : nlist R n)) -> sigma * tau / (2 * delta) <= Rabs a) ->
  exists p : Vec n, o_prox (obj (S fuel) (sep_body (n:=n) (log1_elem delta) (log1_pr sigma delta))) x tau = Ok p /\
    is_prox (etot (sumf (fun a => sigma / 2 * ln (Rabs a + delta)))) tau x p.
Proof. exact C28_log1_exact_l. Qed.
Print Assumptions C28_log1_exact.

(** whenever Log1.prox (2 delta^2 <= sigma tau) leaves an entry non-zero, its result is not a
    minimiser of w sum_i log(|x_i| + delta) plus quadratic for any weight w other than
    sigma/2: neither for the documented penalty (w = sigma) nor, unless sigma = 2, for the
    function that call evaluates (w = 1); all lengths, inputs and parameters *)
Theorem C28_log1_refuted : forall n fuel sigma delta tau w (x : Vec n) a, 0 < sigma -> 0 < tau -> 0 < delta ->
  2 * (delta * delta) <= sigma * tau -> In a (proj1_sig (x : nlist R n)) -> sqrt (2 * (sigma * tau)) - delta < Rabs a ->
  w <> sigma / 2 ->
  exists p : Vec n, o_prox (obj (S fuel) (sep_body (n:=n) (log1_elem delta) (log1_pr sigma delta))) x tau = Ok p /\
    ~ is_prox (etot (sumf (fun b => w * ln (Rabs b + delta)))) tau x p.
Proof. exact C28_log1_refuted_l. Qed.
Print Assumptions C28_log1_refuted.

(** when 2 delta^2 < sigma tau it is not even a minimiser of (sigma/2) sum log for all inputs:
    just above the threshold an entry is kept although 0 is strictly better, for all sigma,
    tau and delta *)
Theorem C28_log1_threshold_refuted : forall fuel sigma delta tau, 0 < sigma -> 0 < tau -> 0 < delta ->
  2 * (delta * delta) < sigma * tau ->
  exists (x p : Vec 1), o_prox (obj (S fuel) (sep_body (n:=1) (log1_elem delta) (log1_pr sigma delta))) x tau = Ok p /\
    ~ is_prox (etot (sumf (fun b => sigma / 2 * ln (Rabs b + delta)))) tau x p.
Proof. exact C28_log1_threshold_refuted_l. Qed.
Print Assumptions C28_log1_threshold_refuted.

(** when sigma tau < 2 delta^2 <= 4 sigma tau some positive entries become negative *)
Theorem C28_log1_sign_refuted : forall fuel sigma delta tau, 0 < sigma -> 0 < tau -> 0 < delta ->
  sigma * tau < 2 * (delta * delta) <= 4 * (sigma * tau) ->
  exists (x p : Vec 1), o_prox (obj (S fuel) (sep_body (n:=1) (log1_elem delta) (log1_pr sigma delta))) x tau = Ok p /\
    0 < get x 0 /\ get p 0 < 0.
Proof. exact C28_log1_sign_refuted_l. Qed.
Print Assumptions C28_log1_sign_refuted.

(** when 2 sigma tau < delta^2 the two masks overlap and prox(0) is a positive number *)
Theorem C28_log1_zero_refuted : forall fuel sigma delta tau, 0 < sigma -> 0 < tau -> 0 < delta ->
  2 * (sigma * tau) < delta * delta ->
  exists p : Vec 1, o_prox (obj (S fuel) (sep_body (n:=1) (log1_elem delta) (log1_pr sigma delta))) (nl [0] : Vec 1) tau = Ok p /\ 0 < get p 0.
Proof. exact C28_log1_zero_refuted_l. Qed.
Print Assumptions C28_log1_zero_refuted.

(** the complex branch does not agree with the real one on the same numbers: sigma = 1, tau =
    1/2, delta = 1/2, x = -2 stored in a complex array gives -(3/2 + sqrt(5/4))/2, in a real
    array -(3/2 + sqrt(21/4))/2; and an entry above the threshold can give NaN: x = -3/4 as
    a complex number *)
Theorem C28_log1_complex_refuted :
  log1c_pr 1 (1/2) (1/2) ((-2, 0) : C_IPS) = Some ((- ((3/2 + sqrt (5/4)) / 2), 0) : C_IPS) /\
  log1_pr 1 (1/2) (1/2) (-2) = - ((3/2 + sqrt (21/4)) / 2) /\ sqrt (5/4) <> sqrt (21/4) /\
  log1c_pr 1 (1/2) (1/2) ((-3/4, 0) : C_IPS) = None.
Proof. exact C28_log1_complex_refuted_l. Qed.
Print Assumptions C28_log1_complex_refuted.

(** sigma = 2, tau = 1, delta = 1 (threshold 1, 2 delta^2 = sigma tau): 3 is mapped to 1 + sqrt
    3 *)
Example C28_log1_example : log1_pr 2 1 1 3 = 1 + sqrt 3 /\ log1_pr 2 1 1 1 = 0 /\ 2 * (1 * 1) = 2 * 1 /\
  2 * 1 / (2 * 1) <= Rabs 3 /\ sqrt (2 * (2 * 1)) - 1 < Rabs 3.
Proof. exact C28_log1_example_l. Qed.
