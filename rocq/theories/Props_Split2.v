(** Property theorems for Split2: statements only; every proof is [exact] a lemma of P_Split2.v.
    Generated from the tagged lemmas of that file. *)
From Coq Require Import Psatz.
From Verif Require Import Base Space Spec ConvexFacts Smooth M_ProxOp SpecOps P_ProxOp M_Norms P_Norms M_Loop LoopFacts Trace SeqFacts M_PG M_Split SplitMath P_PG P_PG2 P_PG3 P_Split.
From Verif Require Import S_Split2.
From Verif Require Import P_Split2.
Open Scope result_scope.
Open Scope R_scope.


(** for all operators whose prox at tau always returns (any deterministic maps pf, pg, convex or
    not), every starting point and number of iterations: gfirst=False: the z-vectors given
    to ADMM's callback are exactly the x-vectors of DouglasRachford(eta=1, gfirst=True)
    started at pf(z0), and x_(k+1)+u_k are its y-vectors; gfirst=True: the x-vectors of ADMM
    are the x-vectors of DouglasRachford(eta=1, gfirst=False) started at pg(x0) *)
Theorem C48_equivalence : forall (E : IPS) (proxf proxg : Op E) pf pg tau x0 z0 x z n,
  (forall v, o_prox proxf v tau = Ok (pf v)) -> (forall v, o_prox proxg v tau = Ok (pg v)) -> x0z0_init x0 z0 = Ok (x, z) ->
  (exists xa za tra xd yd trd, ADMM proxf proxg x0 tau (S n) z0 false = Ok (xa, za, tra) /\
     DouglasRachford proxf proxg (pf z) tau 1 (S n) true = Ok (xd, yd, trd) /\ za = xd /\ map snd tra = map fst trd) /\
  (exists xa za tra xd yd trd, ADMM proxf proxg x0 tau (S n) z0 true = Ok (xa, za, tra) /\
     DouglasRachford proxf proxg (pg x) tau 1 (S n) false = Ok (xd, yd, trd) /\ xa = xd /\ map fst tra = map fst trd).
Proof. exact C48_equivalence_l. Qed.
Print Assumptions C48_equivalence.

(** gfirst=False, f, g convex, any tau > 0, any start: the run never raises and follows the
    documented recursion; x_k in dom f and z_k in dom g for k >= 1; for every solution (xs,
    u): V_k = |z_k - xs|^2 + |u_k + tau u|^2 never increases, decreases by |z_(k+1)-z_k|^2 +
    |x_(k+1)-z_(k+1)|^2 from the second iteration on, so the squared residuals sum to at
    most V_0; an iteration that leaves (z,u) unchanged has x = z minimising f + g *)
Theorem C47_lyapunov : forall (E : IPS) (proxf proxg : Op E) f g tau x0 z0 n x z,
  impl_prox proxf f -> impl_prox proxg g -> convex f -> convex g -> 0 < tau -> x0z0_init x0 z0 = Ok (x, z) ->
  exists xs zs us, ADMM proxf proxg x0 tau n z0 false = Ok (xs n, zs n, map (fun j => (xs j, zs j)) (seq 1 n)) /\
    zs 0%nat = z /\ admm_doc f g tau xs zs us n /\
    (forall j, (1 <= j <= n)%nat -> edom f (xs j) /\ edom g (zs j)) /\
    (forall j, (j < n)%nat -> zs (S j) = zs j -> us (S j) = us j -> xs (S j) = zs (S j) /\ is_min (eadd f g) (xs (S j))) /\
    forall xo u, kkt f g xo u -> let V := fun j => norm2 (zs j [-] xo) + norm2 (us j [+] tau [*] u) in
      (forall j, (j < n)%nat -> V (S j) <= V j) /\
      (forall j, (1 <= j < n)%nat -> V (S j) + norm2 (zs (S j) [-] zs j) + norm2 (xs (S j) [-] zs (S j)) <= V j) /\
      (forall m, (1 <= m <= n)%nat -> V m + Rsum (map (fun j => norm2 (xs j [-] zs j) + norm2 (zs j [-] zs (j - 1)%nat)) (seq 2 (m - 1))) <= V 0%nat).
Proof. exact C47_lyapunov_l. Qed.
Print Assumptions C47_lyapunov.

(** the same for gfirst=True with V_k = |x_k - xs|^2 + |u_k + tau u|^2 *)
Theorem C47_lyapunov_gfirst : forall (E : IPS) (proxf proxg : Op E) f g tau x0 z0 n x z,
  impl_prox proxf f -> impl_prox proxg g -> convex f -> convex g -> 0 < tau -> x0z0_init x0 z0 = Ok (x, z) ->
  exists xs zs us, ADMM proxf proxg x0 tau n z0 true = Ok (xs n, zs n, map (fun j => (xs j, zs j)) (seq 1 n)) /\
    xs 0%nat = x /\ admm_doc_gfirst f g tau xs zs us n /\
    (forall j, (1 <= j <= n)%nat -> edom f (xs j) /\ edom g (zs j)) /\
    (forall j, (j < n)%nat -> xs (S j) = xs j -> us (S j) = us j -> xs (S j) = zs (S j) /\ is_min (eadd f g) (xs (S j))) /\
    forall xo u, kkt f g xo u -> let V := fun j => norm2 (xs j [-] xo) + norm2 (us j [+] tau [*] u) in
      (forall j, (j < n)%nat -> V (S j) <= V j) /\
      (forall j, (1 <= j < n)%nat -> V (S j) + norm2 (xs (S j) [-] xs j) + norm2 (xs (S j) [-] zs (S j)) <= V j) /\
      (forall m, (1 <= m <= n)%nat -> V m + Rsum (map (fun j => norm2 (xs j [-] zs j) + norm2 (xs j [-] xs (j - 1)%nat)) (seq 2 (m - 1))) <= V 0%nat).
Proof. exact C47_lyapunov_gfirst_l. Qed.
Print Assumptions C47_lyapunov_gfirst.

(** f, g convex, one tau > 0, either order, any start: the run never raises, executes the
    documented alternation, x_k in dom f, z_k in dom g, the penalised objective P(x,z) =
    f(x)+g(z)+|x-z|^2/(2 tau) never increases along the callbacks and P(x_k,z_k) - P(w,v) <=
    D/(2 tau k) for all (w,v), D = |x0-w|^2 (gfirst=True) or |z0-v|^2 (gfirst=False) *)
Theorem C50_hqs : forall (E : IPS) (proxf proxg : Op E) f g tau x0 z0 n (gfirst : bool) x z,
  impl_prox proxf f -> impl_prox proxg g -> convex f -> convex g -> 0 < tau -> x0z0_init x0 z0 = Ok (x, z) ->
  exists xs zs, HQS proxf proxg x0 [tau] n z0 gfirst = Ok (xs n, zs n, map (fun j => (xs j, zs j)) (seq 1 n)) /\
    xs 0%nat = x /\ zs 0%nat = z /\
    (forall j, (j < n)%nat -> if gfirst then is_prox g tau (xs j) (zs (S j)) /\ is_prox f tau (zs (S j)) (xs (S j))
       else is_prox f tau (zs j) (xs (S j)) /\ is_prox g tau (xs (S j)) (zs (S j))) /\
    (forall j, (1 <= j <= n)%nat -> edom (penalised f g tau) (xs j, zs j)) /\
    (forall j, (1 <= j < n)%nat -> eval (penalised f g tau) (xs (S j), zs (S j)) <= eval (penalised f g tau) (xs j, zs j)) /\
    (forall k w v, (1 <= k <= n)%nat -> edom (penalised f g tau) (w, v) ->
       eval (penalised f g tau) (xs k, zs k) - eval (penalised f g tau) (w, v)
         <= (if gfirst then norm2 (x [-] w) else norm2 (z [-] v)) / (2 * tau * INR k)).
Proof. exact C50_hqs_l. Qed.
Print Assumptions C50_hqs.

(** with one tau per iteration (a list of at least niter positive entries, not of length one)
    iteration k uses tau[k] *)
Theorem C50_taus : forall (E : IPS) (proxf proxg : Op E) f g tau (taus : nat -> R) x0 z0 n (gfirst : bool) x z,
  impl_prox proxf f -> impl_prox proxg g -> List.length tau <> 1%nat ->
  (forall j, (j < n)%nat -> nth_error tau j = Some (taus j) /\ 0 < taus j) -> x0z0_init x0 z0 = Ok (x, z) ->
  exists xs zs, HQS proxf proxg x0 tau n z0 gfirst = Ok (xs n, zs n, map (fun j => (xs j, zs j)) (seq 1 n)) /\
    xs 0%nat = x /\ zs 0%nat = z /\
    (forall j, (j < n)%nat -> if gfirst then is_prox g (taus j) (xs j) (zs (S j)) /\ is_prox f (taus j) (zs (S j)) (xs (S j))
       else is_prox f (taus j) (zs j) (xs (S j)) /\ is_prox g (taus j) (xs (S j)) (zs (S j))).
Proof. exact C50_taus_l. Qed.
Print Assumptions C50_taus.

(** HQS does not minimise f + g: f = (x-1)^2/2, g = x^2/2, tau = 1, x0 = 2/3: for every number
    of iterations it returns x = 2/3, z = 1/3, although f + g is minimised only at 1/2 *)
Theorem C50_bias_refuted :
  let f := etot (E:=R_IPS) (fun x : R_IPS => 1 / 2 * ((x - 1) * (x - 1))) in let g := etot (E:=R_IPS) (fun x : R_IPS => 1 / 2 * (x * x)) in
  impl_prox shifted1 f /\ impl_prox (quad1 1) g /\
  (forall n, exists tr, HQS shifted1 (quad1 1) (Some (2/3 : R_IPS)) [1] (S n) None true = Ok (2/3, 1/3, tr)) /\
  (forall x, is_min (eadd f g) x <-> x = 1/2).
Proof. exact C50_bias_refuted_l. Qed.
Print Assumptions C50_bias_refuted.

(** f = (x-1)^2/2 and g = x^2/2 on the real line meet the hypotheses of the ADMM, HQS and
    Douglas-Rachford theorems, with solution 1/2 and multiplier -1/2 *)
Example C47_example :
  let f := etot (E:=R_IPS) (fun x : R_IPS => 1 / 2 * ((x - 1) * (x - 1))) in let g := etot (E:=R_IPS) (fun x : R_IPS => 1 / 2 * (x * x)) in
  impl_prox shifted1 f /\ impl_prox (quad1 1) g /\ convex f /\ convex g /\ kkt f g (1/2 : R_IPS) (-(1/2)) /\
  x0z0_init (E:=R_IPS) None (Some 3) = Ok (3, 3).
Proof. exact C47_example_l. Qed.

(** with neither x0 nor z0, HQS and ADMM (any order) and LinearizedADMM / ADMML2 raise
    ValueError; the latter two also when only x0 is missing *)
Theorem C46_missing_guess : forall (E F : IPS) (proxf proxg : Op E) (proxh : Op F) (A : linop E F) reginv taus tau mu n gfirst (z : option F),
  HQS proxf proxg None taus n None gfirst = Err ValueError /\ ADMM proxf proxg None tau n None gfirst = Err ValueError /\
  LinearizedADMM proxf proxh A None tau mu n z = Err ValueError /\ ADMML2 proxh A reginv None tau n z gfirst = Err ValueError.
Proof. exact C46_missing_guess_l. Qed.
Print Assumptions C46_missing_guess.

(** a missing z0 (or x0) is replaced by the other one: same run as passing that vector twice;
    for LinearizedADMM and ADMML2 a missing z0 is A x0 *)
Theorem C46_derived_guess : forall (E F : IPS) (proxf proxg : Op E) (proxh : Op F) (A : linop E F) reginv taus tau mu n gfirst (x : E),
  HQS proxf proxg None taus n (Some x) gfirst = HQS proxf proxg (Some x) taus n (Some x) gfirst /\
  HQS proxf proxg (Some x) taus n None gfirst = HQS proxf proxg (Some x) taus n (Some x) gfirst /\
  ADMM proxf proxg None tau n (Some x) gfirst = ADMM proxf proxg (Some x) tau n (Some x) gfirst /\
  ADMM proxf proxg (Some x) tau n None gfirst = ADMM proxf proxg (Some x) tau n (Some x) gfirst /\
  LinearizedADMM proxf proxh A (Some x) tau mu n None = LinearizedADMM proxf proxh A (Some x) tau mu n (Some (lapp A x)) /\
  ADMML2 proxh A reginv (Some x) tau n None gfirst = ADMML2 proxh A reginv (Some x) tau n (Some (lapp A x)) gfirst.
Proof. exact C46_derived_guess_l. Qed.
Print Assumptions C46_derived_guess.

(** the vector documented as "not required" is indeed irrelevant once an iteration is run: with
    gfirst=False x0 does not influence ADMM/HQS when z0 is given, with gfirst=True z0 does
    not influence them when x0 is given *)
Theorem C46_unused_guess : forall (E : IPS) (proxf proxg : Op E) taus tau n (v a b : E),
  HQS proxf proxg (Some a) taus (S n) (Some v) false = HQS proxf proxg (Some b) taus (S n) (Some v) false /\
  HQS proxf proxg (Some v) taus (S n) (Some a) true = HQS proxf proxg (Some v) taus (S n) (Some b) true /\
  ADMM proxf proxg (Some a) tau (S n) (Some v) false = ADMM proxf proxg (Some b) tau (S n) (Some v) false /\
  ADMM proxf proxg (Some v) tau (S n) (Some a) true = ADMM proxf proxg (Some v) tau (S n) (Some b) true.
Proof. exact C46_unused_guess_l. Qed.
Print Assumptions C46_unused_guess.
