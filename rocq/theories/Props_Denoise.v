(** Property theorems for Denoise: statements only; every proof is [exact] a lemma of P_Denoise.v.
    Generated from the tagged lemmas of that file. *)
From Coq Require Import String Psatz ZArith Classical.
From Verif Require Import Base Space Spec ConvexFacts Sep Smooth VSum MatFacts M_ProxOp SpecOps P_ProxOp M_Norms P_Norms M_L1 P_L1 M_Bilin P_Bilin M_L2 S_L2 P_L2 M_Loop LoopFacts LoopFacts2 SeqFacts M_PG M_PD M_Split SplitMath P_PG P_PG2 S_Iter M_TV S_TV S_TV2 S_TV3 P_TV P_TV2 P_TV3 M_Seg M_Objs S_Lasso P_Lasso S_Seq S_Exist P_Exist S_Qual P_Qual S_Split3 S_Inexact InexactMath P_Inexact P_Iter S_PD P_Proj DualTV P_Iht M_Denoise.
From Verif Require Import S_Denoise.
From Verif Require Import P_Denoise.
Open Scope result_scope.
Open Scope R_scope.


(** L21(ndim, sigma) on the flat array of ndim * N entries (one axis after the other), sigma >
    0: calling it gives sigma times the sum over the N pixels of the norm of their ndim
    entries, prox the exact proximal point of that function, proxdual that of its conjugate
    (the indicator of all pixel norms <= sigma); a length that is not a multiple of ndim
    raises ValueError *)
Theorem C98_l21 : (forall d N fuel lam, (1 <= d)%nat -> 0 < lam -> let o := obj (S fuel) (l21_flat (n:=d * N) d lam) in
    impl_call o (etot (pixels (d:=d) (N:=N) lam)) /\ impl_prox o (etot (pixels (d:=d) (N:=N) lam)) /\
    is_conj (etot (pixels (d:=d) (N:=N) lam)) (indic (pixels_le lam)) /\ impl_proxdual o (indic (pixels_le (d:=d) (N:=N) lam))) /\
  (forall d n fuel lam (x : Vec n) tau, (1 <= d)%nat -> (n mod d <> 0)%nat -> let o := obj (S fuel) (l21_flat (n:=n) d lam) in
    o_call o x = Err ValueError /\ o_prox o x tau = Err ValueError /\ o_proxdual o x tau = Err ValueError).
Proof. exact C98_l21_l. Qed.
Print Assumptions C98_l21.

(** images of any shape with axes of length at least 2, any data term with an exact prox,
    L21(ndim, sigma=lam) and the forward-difference gradient (scaled by c > 0): PrimalDual
    with theta = 1 and 4 ndim c^2 tau mu <= 1 and LinearizedADMM with 4 ndim c^2 mu <= tau
    converge to an image that minimises data term + lam c times the isotropic total
    variation, from any start, in either order; the second variable of LinearizedADMM
    converges to the gradient of that image *)
Theorem C98_isotropic : forall dims c G lam f proxf fuel, dims_ok dims -> (1 <= length dims)%nat -> is_gradient dims c G -> 0 < c -> 0 < lam -> impl_prox proxf f -> data_term dims (lam * c) f ->
  let proxg := obj (S fuel) (l21_flat (n:=length dims * nprod dims) (length dims) lam) in
  (forall alias x0 tau mu y0 gfirst, 0 < tau -> 0 < mu -> 4 * INR (length dims) * (c * c) * (tau * mu) <= 1 ->
     exists xs ys l yl, (forall n, exists tr, PrimalDual proxf proxg G alias x0 (Scalar tau) (Scalar mu) y0 None 1 n gfirst = Ok (xs n, ys n, tr)) /\ denoised dims f (lam * c) l /\ vcv xs l /\ vcv ys yl) /\
  (forall tau mu x0 z0 x z, 0 < tau -> 0 < mu -> 4 * INR (length dims) * (c * c) * mu <= tau -> x0z0_initA (lapp G) x0 z0 = Ok (x, z) ->
     exists xs zs l, (forall n, exists tr, LinearizedADMM proxf proxg G x0 tau mu n z0 = Ok (xs n, zs n, tr)) /\ denoised dims f (lam * c) l /\ vcv xs l /\ vcv zs (G l)).
Proof. exact C98_isotropic_l. Qed.
Print Assumptions C98_isotropic.

(** the same with L1(sigma=lam) in place of L21: the limits minimise data term + lam c times the
    anisotropic total variation, the sum over samples and axes of the absolute differences *)
Theorem C98_anisotropic : forall dims c G lam f proxf proxg, dims_ok dims -> (1 <= length dims)%nat -> is_gradient dims c G -> 0 < c -> 0 < lam -> impl_prox proxf f -> data_term dims (lam * c) f -> is_L1 proxg lam ->
  (forall alias x0 tau mu y0 gfirst, 0 < tau -> 0 < mu -> 4 * INR (length dims) * (c * c) * (tau * mu) <= 1 ->
     exists xs ys l yl, (forall n, exists tr, PrimalDual proxf proxg G alias x0 (Scalar tau) (Scalar mu) y0 None 1 n gfirst = Ok (xs n, ys n, tr)) /\ denoised1 dims f (lam * c) l /\ vcv xs l /\ vcv ys yl) /\
  (forall tau mu x0 z0 x z, 0 < tau -> 0 < mu -> 4 * INR (length dims) * (c * c) * mu <= tau -> x0z0_initA (lapp G) x0 z0 = Ok (x, z) ->
     exists xs zs l, (forall n, exists tr, LinearizedADMM proxf proxg G x0 tau mu n z0 = Ok (xs n, zs n, tr)) /\ denoised1 dims f (lam * c) l /\ vcv xs l /\ vcv zs (G l)).
Proof. exact C98_anisotropic_l. Qed.
Print Assumptions C98_anisotropic.

(** an image x minimises data term + lam c times the isotropic total variation exactly when
    there is a dual field p of pixel norms <= lam with <p, G x> = lam c TV(x) such that -G^T
    p is a subgradient of the data term at x; for the data term s/2 |x - b|^2 this means s
    (b - x) = G^T p *)
Theorem C98_certificate : forall dims c G lam, dims_ok dims -> is_gradient dims c G -> 0 < c -> 0 < lam ->
  (forall f x, convex f -> (exists y, edom f y) -> (denoised dims f (lam * c) x <-> exists p, pixels_le lam p /\ << p, G x >> = lam * c * variation dims (get x) /\ is_subgrad f x (vopp (ladj G p)))) /\
  (forall b s x, 0 < s -> (denoised dims (near2 b s) (lam * c) x <-> exists p, pixels_le lam p /\ << p, G x >> = lam * c * variation dims (get x) /\ s [*] (b [-] x) = ladj G p)).
Proof. exact C98_certificate_l. Qed.
Print Assumptions C98_certificate.

(** the total variation controls an image up to a constant: |x_i - x_0| <= i TV(x) for the flat
    index i; in particular TV vanishes exactly on constant images *)
Theorem C98_variation : forall dims, dims_ok dims -> (forall x i, (i < nprod dims)%nat -> Rabs (x i - x 0%nat) <= INR i * variation dims x) /\
  (forall x, variation dims x = 0 <-> forall i, (i < nprod dims)%nat -> x i = x 0%nat).
Proof. exact C98_variation_l. Qed.
Print Assumptions C98_variation.

(** data terms these theorems apply to, with the objects that provide their prox: s/2 |x - b|^2
    (L2(b, sigma=s)), s |x - b|_1 (L1(g=b, sigma=s)), and s/2 |A x - b|^2 (L2(Op=A, b,
    sigma=s)) as soon as A does not map constant images to zero *)
Theorem C98_data_terms : forall dims s w, dims_ok dims -> 0 < s -> 0 < w ->
  (forall b, data_term dims w (near2 b s) /\ forall o, is_L2b o b s -> impl_prox o (near2 b s)) /\
  (forall b, data_term dims w (near1 b s) /\ forall fuel c0 ch, impl_prox (obj (S fuel) (l1_body (fun _ => const_sigma (nprod dims) s) (Some b) c0 ch)) (near1 b s)) /\
  (forall m (A : linop (Vec (nprod dims)) (Vec m)) b, A (vtab (nprod dims) (fun _ => 1)) <> vzero -> data_term dims w (near2A A b s) /\ forall o, is_L2 o A b s -> impl_prox o (near2A A b s)).
Proof. exact C98_data_terms_l. Qed.
Print Assumptions C98_data_terms.

(** s/2 |x - b|^2 + lam TV(x) with s, lam > 0 has exactly one minimiser, the proximal point of
    lam TV at b with step 1/s; it has the same mean as b, stays between the bounds of b,
    moves by at most |b - b'| when b does, and is the constant mean image as soon as lam >=
    s sum_i i |b_i - mean| *)
Theorem C98_rof : forall dims lam s, dims_ok dims -> (1 <= length dims)%nat -> 0 < lam -> 0 < s ->
  (forall b, exists x, denoised dims (near2 b s) lam x /\ (forall y, denoised dims (near2 b s) lam y -> y = x) /\ tv_exact lam dims (/ s) b x /\ RS (nprod dims) (get x) = RS (nprod dims) (get b)) /\
  (forall b x lo hi, denoised dims (near2 b s) lam x -> (forall i, (i < nprod dims)%nat -> lo <= get b i <= hi) -> forall i, (i < nprod dims)%nat -> lo <= get x i <= hi) /\
  (forall b b' x x', denoised dims (near2 b s) lam x -> denoised dims (near2 b' s) lam x' -> norm (x [-] x') <= norm (b [-] b')) /\
  (forall b x, let m := RS (nprod dims) (get b) / INR (nprod dims) in s * RS (nprod dims) (fun i => INR i * Rabs (get b i - m)) <= lam -> denoised dims (near2 b s) lam x ->
     forall i, (i < nprod dims)%nat -> get x i = m).
Proof. exact C98_rof_l. Qed.
Print Assumptions C98_rof.

(** ProximalGradient (no acceleration, 0 < tau < 2/s) on L2(b, sigma=s) and TV(dims, sigma=lam,
    rtol=0) with at least K inner iterations per prox, on 1 to 4 axes of length at least 2,
    weights of maximum mt >= 1: it never fails and after n iterations is within q^n |x0 - l|
    + 12 lam tau mt sqrt(axes * size) / (K (1 - q)) of the minimiser l, q = |1 - tau s| < 1 *)
Theorem C98_tv_operator : forall dims lam s b proxf ws ch K x0 tau beta nb accel fuel, dims_ok dims -> (1 <= length dims <= 4)%nat -> 0 < lam -> 0 < s -> is_L2b proxf b s -> 1 <= tv_mt ws ->
  (1 <= K)%nat -> (forall x t, (Z.of_nat K <= ch x t)%Z) -> 0 < tau < 2 / s -> unaccelerated accel 1 ->
  let q := Rabs (1 - tau * s) in q < 1 /\
  exists l, denoised dims (near2 b s) lam l /\
    forall n, exists x tr, ProximalGradient proxf (obj (S fuel) (tv_flat dims lam 0 ws ch)) x0 [1] (Some tau) false beta 1 (S n) nb accel None = Ok (x, tr) /\
      norm (x [-] l) <= q ^ S n * norm (x0 [-] l) + 12 * lam * tau * tv_mt ws * sqrt (INR (length dims * nprod dims)) / (INR K * (1 - q)).
Proof. exact C98_tv_operator_l. Qed.
Print Assumptions C98_tv_operator.

(** with an early stop (any rtol in (0, 1], the default is 1e-4) this fails: ProximalGradient
    with tau = 1 on L2(b) and TV(dims=(2,), sigma=1/4, niter, rtol), b = (0, 1/2), returns
    (1/8, 3/8) after every number n >= 1 of iterations, from every start, for every niter >=
    1; the minimiser is (1/4, 1/4) *)
Theorem C98_stop_refuted : forall proxf K rtol x0 beta nb n fuel, is_L2b proxf stop_x 1 -> (1 <= K)%nat -> 0 < rtol <= 1 ->
  (exists x tr, ProximalGradient proxf (obj (S fuel) (tv_flat [2%nat] (1 / 4) rtol [] (fun _ _ => Z.of_nat K))) x0 [1] (Some 1) false beta 1 (S n) nb None None = Ok (x, tr) /\ lst x = [1 / 8; 3 / 8]) /\
  denoised [2%nat] (near2 stop_x 1) (1 / 4) (ofl (nprod [2%nat]) [1 / 4; 1 / 4]).
Proof. exact C98_stop_refuted_l. Qed.
Print Assumptions C98_stop_refuted.

(** a 2 x 2 image b: an object L2(b) exists, PrimalDual with tau = 1/4 and mu = 1/2 on it,
    L21(2, sigma=1/10) and the gradient converges to the minimiser; for b = (0, 1) and lam =
    1/2 the minimiser of 1/2 |x-b|^2 + lam TV(x) is (1/2, 1/2) *)
Example C98_example :
  (forall b : Vec (nprod [2%nat; 2%nat]), exists proxf G, is_L2b proxf b 1 /\ is_gradient [2%nat; 2%nat] 1 G /\
    exists xs ys l yl, (forall n, exists tr, PrimalDual proxf (obj 2 (l21_flat 2 (1 / 10))) G None vzero (Scalar (1 / 4)) (Scalar (1 / 2)) None None 1 n false = Ok (xs n, ys n, tr)) /\
      denoised [2%nat; 2%nat] (near2 b 1) (1 / 10 * 1) l /\ vcv xs l /\ vcv ys yl) /\
  denoised [2%nat] (near2 (ofl (nprod [2%nat]) [0; 1]) 1) (1 / 2) (ofl (nprod [2%nat]) [1 / 2; 1 / 2]).
Proof. exact C98_example_l. Qed.
