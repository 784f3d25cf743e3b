(** Property theorems for Seg2: statements only; every proof is [exact] a lemma of P_Seg2.v.
    Generated from the tagged lemmas of that file. *)
From Coq Require Import Psatz.
From Verif Require Import Base Space Spec SpecOps ConvexFacts VSum MatFacts M_ProxOp P_ProxOp M_Bilin M_L1 M_VStack P_VStack M_Loop LoopFacts M_PG M_PD P_PD M_Proj P_Proj P_Proj2 P_Inter M_TV P_TV P_TV3 M_Seg P_Seg.
From Verif Require Import P_Seg2.
Open Scope result_scope.
Open Scope R_scope.


(** Segment, any image of any dimension, any gradient operator, classes, options and start, n +
    1 iterations, any simplex projection that only returns points of the simplex: whenever
    it returns, every pixel has a row of probabilities (entries >= 0, sum 1), and its label
    is a class whose probability is the largest of the row and strictly larger than those of
    the classes before it *)
Theorem C64_output : forall dims G y (cl : list R) sigma alpha cs z n x0 P X lab tr, (forall v w, P v = Ok w -> simplex_set 1 w) ->
  Segment dims G y cl sigma alpha cs z (S n) x0 P = Ok (X, lab, tr) ->
  length lab = nprod dims /\ forall i, (i < nprod dims)%nat ->
    let p c := get (X : Vec (nprod dims * length cl)) (i * length cl + c) in let l := nth i lab 0%nat in
    RS (length cl) p = 1 /\ (forall c, (c < length cl)%nat -> 0 <= p c) /\ (l < length cl)%nat /\ (forall c, (c < length cl)%nat -> p c <= p l) /\ (forall c, (c < l)%nat -> p c < p l).
Proof. exact C64_output_l. Qed.
Print Assumptions C64_output.

(** the same with the library's own bisection in Simplex, any maxiter and tolerance: every row
    is a result of that projection, so its entries are >= 0 and its sum is 1 up to the
    accuracy of the bisection, ncl (xtol + rtol max(1, 2 sum_c |q_c - v_c|)) with q the
    exact projection of its argument v; the label is the first class of largest value *)
Theorem C64_output_bisect : forall dims G y (cl : list R) sigma alpha cs z n x0 maxiter xtol fuel X lab tr,
  Segment dims G y cl sigma alpha cs z (S n) x0 (simplex_proj 1 maxiter xtol fuel) = Ok (X, lab, tr) ->
  length lab = nprod dims /\ forall i, (i < nprod dims)%nat ->
    let p c := get (X : Vec (nprod dims * length cl)) (i * length cl + c) in let l := nth i lab 0%nat in
    (forall c, (c < length cl)%nat -> 0 <= p c) /\
    (exists v q, simplex_proj 1 maxiter xtol fuel v = Ok (rowv X i) /\ is_proj (simplex_set 1) v q /\
       Rabs (RS (length cl) p - 1) <= INR (length cl) * (xtol + bisect_rtol * Rmax 1 (2 * RS (length cl) (fun c => Rabs (get q c - get v c))))) /\
    (l < length cl)%nat /\ (forall c, (c < length cl)%nat -> p c <= p l) /\ (forall c, (c < l)%nat -> p c < p l).
Proof. exact C64_output_bisect_l. Qed.
Print Assumptions C64_output_bisect.

(** Segment on a 1-D or 2-D image (axes of at least 2), forward-difference Gradient, alpha > 0,
    one standard deviation <> 0 per class or none, exact simplex projection, any start, any
    n: it never raises; the callback sees n iterates xs 1 .. xs n, each a probability at
    every pixel; the last one is returned; and for M <= n the mean of the first M is
    feasible and its objective sigma/2 x.f + x.z + alpha/2 ||grad x||_21 is within (|x0 -
    u|^2/2 + ncl N alpha^2)/M of that of EVERY feasible u (O(1/M) to the minimum); without a
    start the bound is N (1/2 + ncl alpha^2)/M *)
Theorem C64_optimal : forall dims G y (cl : list R) sigma alpha cs z x0 P n,
  forward_gradient dims G -> (forall k, In k dims -> (2 <= k)%nat) -> (1 <= length dims <= 2)%nat -> (1 <= length cl)%nat -> 0 < alpha -> sds_ok (length cl) cs -> exact_simplex P ->
  exists xs lab, Segment dims G y cl sigma alpha cs z n x0 P = Ok (transp (r:=length cl) (c:=nprod dims) (xs n), lab, map xs (seq 1 n)) /\
    xs 0%nat = match x0 with Some x => x | None => vzero end /\ (forall j, (1 <= j <= n)%nat -> probabilities (xs j)) /\
    forall M, (1 <= M <= n)%nat -> let mean := avg M (fun j => xs (S j)) in let J := seg_obj dims y cl sigma alpha cs z in
      probabilities mean /\ forall u, probabilities u ->
        J mean - J u <= (1 / 2 * norm2 (xs 0%nat [-] u) + INR (length cl) * INR (nprod dims) * (alpha * alpha)) / INR M /\
        (x0 = None -> J mean - J u <= INR (nprod dims) * (1 / 2 + INR (length cl) * (alpha * alpha)) / INR M).
Proof. exact C64_optimal_l. Qed.
Print Assumptions C64_optimal.

(** with niter = 0 the rows are not probabilities: Segment returns the start unprojected, by
    default zeros (every row sums to 0 and every label is 0) *)
Theorem C64_zero_iter_refuted : forall dims G y (cl : list R) sigma alpha cs z P, (1 <= length cl)%nat -> sds_ok (length cl) cs ->
  exists X lab, Segment dims G y cl sigma alpha cs z 0 None P = Ok (X, lab, []) /\ forall i, (i < nprod dims)%nat -> nth i lab 1%nat = 0%nat /\ RS (length cl) (fun c => get (X : Vec (nprod dims * length cl)) (i * length cl + c)) = 0.
Proof. exact C64_zero_iter_refuted_l. Qed.
Print Assumptions C64_zero_iter_refuted.

(** no class raises; so do standard deviations whose number is neither 1 nor the number of
    classes *)
Theorem C64_errors : forall dims G y (cl : list R) sigma alpha z n x0 P,
  (forall cs, length cl = 0%nat -> exists e, Segment dims G y cl sigma alpha cs z n x0 P = Err e) /\
  (forall s, length s <> length cl -> length s <> 1%nat -> (forall a, In a s -> a <> 0) -> Segment dims G y cl sigma alpha (Some s) z n x0 P = Err ValueError).
Proof. exact C64_errors_l. Qed.
Print Assumptions C64_errors.

(** the fixed steps tau = 1, mu = 1/8 assume |grad|^2 <= 8, false for the 3-D images the
    documentation allows ("2 or more dimensions"): on a 4 x 4 x 4 checkerboard |grad x|^2 =
    9 |x|^2, so tau mu |grad|^2 > 1 and the condition under which the primal-dual method is
    known to converge fails *)
Theorem C64_step_3d_refuted : forall G : linop (Vec (nprod [4; 4; 4]%nat)) (Vec (length [4; 4; 4]%nat * nprod [4; 4; 4]%nat)), forward_gradient [4; 4; 4]%nat G ->
  exists x, norm2 x = 64 /\ norm2 (G x) = 9 * norm2 x /\ ~ 1 * (1 / 8) * norm2 (G x) <= norm2 x.
Proof. exact C64_step_3d_refuted_l. Qed.
Print Assumptions C64_step_3d_refuted.

(** the hypotheses of C64_optimal and C64_output hold for a 2 x 3 image and two classes: the
    forward-difference gradient is a linear operator with an adjoint, the exact projection
    on the simplex of R^2 is computable, and Segment runs for every number of iterations; G
    is also available on the 4 x 4 x 4 grid of C64_step_3d_refuted *)
Example C64_example : exists G : linop (Vec (nprod [2; 3]%nat)) (Vec (length [2; 3]%nat * nprod [2; 3]%nat)), forward_gradient [2; 3]%nat G /\ exact_simplex simplex2 /\ sds_ok 2 (Some [1; 2]) /\
  (forall y n, exists X lab tr, Segment [2; 3]%nat G y [0; 5] 1 2 (Some [1; 2]) None n None simplex2 = Ok (X, lab, tr)) /\
  exists G3 : linop (Vec (nprod [4; 4; 4]%nat)) (Vec (length [4; 4; 4]%nat * nprod [4; 4; 4]%nat)), forward_gradient [4; 4; 4]%nat G3.
Proof. exact C64_example_l. Qed.
