(** Property theorems for L1: statements only; every proof is [exact] a lemma of P_L1.v.
    Generated from the tagged lemmas of that file. *)
From Verif Require Import Base Space Spec ConvexFacts Sep M_ProxOp SpecOps P_ProxOp M_Norms P_Norms M_L1.
From Coq Require Import Psatz.
From Verif Require Import S_L1.
From Verif Require Import P_L1.
Open Scope result_scope.


(** L1.prox(x, tau) for tau > 0 is the exact proximal point of sum_i w_i |y_i - g_i|, for every
    size, every x, every g (absent = 0), every counter state and every non-negative per-
    entry weights (scalar sigma = equal weights; callable sigma = the weights of that call) *)
Theorem C11_prox_exact : forall n (sig : nat -> nlist R n) (g : option (Vec n)) count (x : Vec n) tau,
  nonneg_list (sig (S count)) -> 0 < tau ->
  exists p, snd (l1_prox sig g count x tau) = Ok p /\
    is_prox (etot (wl1 (sig (S count)) (gvec g))) tau x p.
Proof. exact C11_prox_exact_l. Qed.
Print Assumptions C11_prox_exact.

(** the value returned by L1's call is that weighted norm, with the weights of the current
    counter *)
Theorem C11_call : forall n (sig : nat -> nlist R n) (g : option (Vec n)) count (x : Vec n),
  l1_call sig g count x = wl1 (sig count) (gvec g) x.
Proof. exact C11_call_l. Qed.
Print Assumptions C11_call.

(** the numpy expression in the code gives the weighted norm for a scalar sigma on a vector, and
    for one sigma per column on a matrix (columns listed one after the other) *)
Theorem C11_call_literal :
  (forall s x, l1_call_1d [s] x = Rsum (map2 (fun s a => s * Rabs a) (repeat s (length x)) x)) /\
  (forall sigma cols, length sigma = length cols ->
     l1_call_columns sigma cols =
     Rsum (map2 (fun s a => s * Rabs a) (concat (map2 (fun s c => repeat s (length c)) sigma cols)) (concat cols))).
Proof. exact C11_call_literal_l. Qed.
Print Assumptions C11_call_literal.

(** for a 1-D x and an array sigma of per-entry weights the value returned by call is (sum
    sigma)(sum |x|), which is not the weighted norm whose prox the same object computes *)
Theorem C11_call_array_refuted :
  exists (w x : list R), length w = length x /\
    l1_call_1d w x <> Rsum (map2 (fun s a => s * Rabs a) w x).
Proof. exact C11_call_array_refuted_l. Qed.
Print Assumptions C11_call_array_refuted.

(** for a sigma that does not depend on the counter, proxdual is the exact proximal point of the
    convex conjugate, and that conjugate is <z,g> on the box |z_i| <= w_i (both with and
    without g) *)
Theorem C11_dual_exact : forall n (w : nlist R n) (g : option (Vec n)) count (x : Vec n) tau,
  nonneg_list w -> 0 < tau ->
  is_conj (etot (wl1 w (gvec g))) (mkEfun (wlinf_ball w) (fun z => << z, gvec g >>)) /\
  exists p, snd (l1_proxdual (fun _ => w) g count x tau) = Ok p /\
    is_prox (mkEfun (wlinf_ball w) (fun z => << z, gvec g >>)) tau x p.
Proof. exact C11_dual_exact_l. Qed.
Print Assumptions C11_dual_exact.

(** x = prox(x, tau) + tau * proxdual(x/tau, 1/tau) for every x and tau > 0, any two counter
    states (sigma not callable) *)
Theorem C11_moreau : forall n (w : nlist R n) (g : option (Vec n)) c1 c2 (x : Vec n) tau,
  nonneg_list w -> 0 < tau ->
  exists p d, snd (l1_prox (fun _ => w) g c1 x tau) = Ok p /\
    snd (l1_proxdual (fun _ => w) g c2 (/ tau [*] x) (1 / tau)) = Ok d /\
    x = p [+] tau [*] d.
Proof. exact C11_moreau_l. Qed.
Print Assumptions C11_moreau.

(** with a callable sigma (and no g) proxdual keeps the box built from sigma(0) for ever: the
    Moreau identity fails after any prox call as soon as sigma(k) differs from sigma(0) *)
Theorem C11_callable_dual_refuted :
  exists (sig : nat -> nlist R 1), (forall k, nonneg_list (sig k)) /\
  exists (x p d : Vec 1),
    snd (l1_prox sig None 0 x 1) = Ok p /\
    snd (l1_proxdual sig None (fst (l1_prox sig None 0 x 1)) (/ 1 [*] x) (1 / 1)) = Ok d /\
    x <> p [+] 1 [*] d.
Proof. exact C11_callable_dual_refuted_l. Qed.
Print Assumptions C11_callable_dual_refuted.

(** on complex arrays L1.prox is the exact proximal point of sigma * sum_i |z_i - g_i|
    (modulus), for every sigma >= 0, tau > 0 and size *)
Theorem C11_complex : forall n sigma (g : option (Pow C_IPS n)) (x : Pow C_IPS n) tau,
  0 <= sigma -> 0 < tau ->
  exists p, l1_prox_complex sigma g x tau = Ok p /\
    is_prox (etot (fun z : Pow C_IPS n => Rsum (map (fun c : C_IPS => sigma * norm c)
       (proj1_sig (match g with Some g => z [-] g | None => z end : nlist C_IPS n))))) tau x p.
Proof. exact C11_complex_l. Qed.
Print Assumptions C11_complex.

(** what the code does for every history of calls on one L1 object: after any sequence of prox,
    proxdual and value calls the next prox call with tau > 0 is exact for sigma(1 + number
    of earlier prox attempts, rejected ones included, plus earlier accepted proxdual calls
    when g is given) *)
Theorem C33_history : forall n (sig : nat -> nlist R n) (g : option (Vec n)) h (x : Vec n) tau,
  (forall k, nonneg_list (sig k)) -> 0 < tau ->
  exists p, snd (l1_prox sig g (fst (l1_session sig g 0 h)) x tau) = Ok p /\
    is_prox (etot (wl1 (sig (1 + total (counted g) h)%nat) (gvec g))) tau x p.
Proof. exact C33_history_l. Qed.
Print Assumptions C33_history.

(** for no offset c does the k-th successful prox call use sigma(k+c): a rejected call shifts
    the index. The witness is sigma(k) = k on vectors of one entry *)
Theorem C33_offset_refuted :
  exists (sig : nat -> nlist R 1), (forall k, nonneg_list (sig k)) /\
  forall c, ~ (forall h (x : Vec 1) tau, 0 < tau ->
     exists p, snd (l1_prox sig None (fst (l1_session sig None 0 h)) x tau) = Ok p /\
       is_prox (etot (wl1 (sig (total is_success h + c)%nat) vzero)) tau x p).
Proof. exact C33_offset_l. Qed.
Print Assumptions C33_offset_refuted.

(** the documented indexing (k-th successful prox call, k from 0, uses sigma(k)) is false of the
    code already for the first call *)
Theorem C33_indexing_refuted :
  exists (sig : nat -> nlist R 1), (forall k, nonneg_list (sig k)) /\
  ~ (forall h (x : Vec 1) tau, 0 < tau ->
     exists p, snd (l1_prox sig None (fst (l1_session sig None 0 h)) x tau) = Ok p /\
       is_prox (etot (wl1 (sig (total is_success h)) vzero)) tau x p).
Proof. exact C33_indexing_refuted_l. Qed.
Print Assumptions C33_indexing_refuted.

(** a prox call rejected for tau <= 0 still advances the operator's call counter *)
Theorem C01_rejected_counted_refuted : forall n (sig : nat -> nlist R n) g count (x : Vec n) tau, tau <= 0 ->
  l1_prox sig g count x tau = (S count, Err ValueError).
Proof. exact C01_rejected_counted_refuted_l. Qed.
Print Assumptions C01_rejected_counted_refuted.

(** two prox calls on a one-entry array with sigma(k) = k+1: they soft-threshold by 2 and by 3 *)
Example C33_example :
  let sig := fun k => nl [INR k + 1] in
  let x := nl [10] in
  (forall k, nonneg_list (sig k)) /\
  exists p q, snd (l1_prox sig None 0 x 1) = Ok p /\
    snd (l1_prox sig None (fst (l1_prox sig None 0 x 1)) x 1) = Ok q /\
    proj1_sig (p : nlist R 1) = [8] /\ proj1_sig (q : nlist R 1) = [7].
Proof. exact C33_example_l. Qed.

(** weights (1,2), x = (3,-4), g = (0,1), tau = 1: the prox is (2,-2) *)
Example C11_example :
  let w := nl [1; 2] in
  let x := nl [3; -4] in
  let g := nl [0; 1] in
  nonneg_list w /\ exists p, snd (l1_prox (fun _ => w) (Some g) 0 x 1) = Ok p /\ proj1_sig (p : nlist R 2) = [2; -2].
Proof. exact C11_example_l. Qed.

(** for bounds with lower <= upper entrywise (either may be absent), Box.prox returns for every
    tau > 0 the Euclidean projection on the box; Box's call is exactly membership, and the
    result is a member *)
Theorem C15_box : forall n fuel (lu : nlist bounds n), Forall bounds_ok (proj1_sig lu) ->
  (forall x, exists b, o_call (obj (S fuel) (box_body lu)) x = Ok (VBool b) /\ (b = true <-> box_set lu x)) /\
  (forall (x : Vec n) tau, 0 < tau -> exists p, o_prox (obj (S fuel) (box_body lu)) x tau = Ok p /\
     is_proj (box_set lu) x p /\ o_call (obj (S fuel) (box_body lu)) p = Ok (VBool true)).
Proof. exact C15_box_l. Qed.
Print Assumptions C15_box.

(** projecting twice is projecting once, and points of the box are returned unchanged *)
Theorem C15_idempotent : forall n fuel (lu : nlist bounds n) (x : Vec n) t1 t2 p,
  Forall bounds_ok (proj1_sig lu) -> 0 < t1 -> 0 < t2 ->
  (o_prox (obj (S fuel) (box_body lu)) x t1 = Ok p -> o_prox (obj (S fuel) (box_body lu)) p t2 = Ok p) /\
  (box_set lu x -> o_prox (obj (S fuel) (box_body lu)) x t1 = Ok x).
Proof. exact C15_idempotent_l. Qed.
Print Assumptions C15_idempotent.

(** without lower <= upper the result is still returned silently (the upper bound) and is
    rejected by the operator's own call *)
Theorem C15_crossed_refuted : forall fuel (l u : R), u < l -> forall (x : Vec 1) tau, 0 < tau ->
  let o := obj (S fuel) (box_body (nl [(Some l, Some u)] : nlist bounds 1)) in
  exists p, o_prox o x tau = Ok p /\ o_call o p = Ok (VBool false).
Proof. exact C15_crossed_refuted_l. Qed.
Print Assumptions C15_crossed_refuted.

(** bounds [0,1] and [2,inf): (5, 0) is projected on (1, 2) *)
Example C15_example :
  let lu := nl [(Some 0, Some 1); (Some 2, None)] : nlist bounds 2 in
  Forall bounds_ok (proj1_sig lu) /\
  exists p, o_prox (obj 1 (box_body lu)) (nl [5; 0]) 1 = Ok p /\ proj1_sig (p : nlist R 2) = [1; 2].
Proof. exact C15_example_l. Qed.
