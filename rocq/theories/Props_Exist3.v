(** Property theorems for Exist3: statements only; every proof is [exact] a lemma of P_Exist3.v.
    Generated from the tagged lemmas of that file. *)
From Coq Require Import String Psatz Classical.
From Verif Require Import Base Space Spec Cplx ConvexFacts Smooth VSum MatFacts M_ProxOp SpecOps P_ProxOp M_Norms P_Norms M_L1 M_L2 P_L1 P_L2 P_L21 M_Objs S_Lasso P_Lasso M_Loop LoopFacts LoopFacts2 SeqFacts M_PG M_Split M_PD M_Multi SplitMath P_PG P_PG2 P_PG3 P_Split P_Split2 P_Split3 P_PD P_PD2 P_Multi P_Multi2 P_Multi3 S_Seq Compact Fejer P_Iter P_Iter2 P_Iter3 HahnBanach P_Qual M_Expr P_Expr P_Expr2 ExistMath P_Exist P_Exist2.
From Verif Require Import P_Exist3.
Open Scope result_scope.
Open Scope R_scope.


(** f any curved admissible expression (for instance L2 with data b, sigma > 0), g any
    admissible expression, A any bounded linear operator, Slater's condition, finite
    dimension: f + g(A .) has exactly one minimiser xm, its value grows quadratically away
    from xm, and from every start, with all steps satisfying the documented conditions and
    either order, LinearizedADMM and PrimalDual converge to xm *)
Theorem C85_unique : forall fuel (E F : IPS) (e1 : expr E) (e2 : expr F) (A : linop E F) C s, bw E -> bw F -> hb F -> complete E -> admissible e1 -> admissible e2 -> closed_others e1 -> closed_others e2 ->
  0 < s -> curved e1 s -> (forall v, norm (A v) <= C * norm v) -> qualified (denote e1) (denote e2) A ->
  let J := eadd (denote e1) (epre (denote e2) (lapp A)) in
  exists o1 o2 xm, build fuel e1 = Ok o1 /\ build fuel e2 = Ok o2 /\ is_min J xm /\ (forall y, is_min J y -> y = xm) /\ (forall y, edom J y -> eval J xm + s / 4 * norm2 (y [-] xm) <= eval J y) /\
  forall x0 tau mu kappa gfirst, 0 < tau -> 0 < mu -> 0 <= kappa <= 1 ->
  ((forall a, mu * norm2 (lapp A a) <= kappa * tau * norm2 a) -> exists xs zs, (forall n, exists tr, LinearizedADMM o1 o2 A (Some x0) tau mu n None = Ok (xs n, zs n, tr)) /\ vcv xs xm /\ vcv zs (lapp A xm)) /\
  ((forall a, tau * mu * norm2 (lapp A a) <= kappa * norm2 a) -> exists xs ys yl, (forall n, exists tr, PrimalDual o1 o2 A None x0 (Scalar tau) (Scalar mu) None None 1 n gfirst = Ok (xs n, ys n, tr)) /\ vcv xs xm /\ vcv ys yl).
Proof. exact C85_unique_l. Qed.
Print Assumptions C85_unique.

(** the same for f + g: one minimiser, found by DouglasRachfordSplitting and ADMM from every
    start, for every tau > 0 and 0 < eta < 2, in either order *)
Theorem C85_unique_sum : forall fuel (E : IPS) (e1 e2 : expr E) s, bw E -> hb E -> complete E -> admissible e1 -> admissible e2 -> closed_others e1 -> closed_others e2 ->
  0 < s -> curved e1 s -> qualified2 (denote e1) (denote e2) ->
  exists o1 o2 xm, build fuel e1 = Ok o1 /\ build fuel e2 = Ok o2 /\ is_min (eadd (denote e1) (denote e2)) xm /\ (forall y, is_min (eadd (denote e1) (denote e2)) y -> y = xm) /\
  forall x0 tau eta gfirst, 0 < tau -> 0 < eta < 2 ->
  (exists xs ys, (forall n, exists tr, DouglasRachford o1 o2 x0 tau eta (S n) gfirst = Ok (xs n, ys n, tr)) /\ vcv xs xm) /\
  (exists xs zs, (forall n, exists tr, ADMM o1 o2 (Some x0) tau n None gfirst = Ok (xs n, zs n, tr)) /\ vcv xs xm /\ vcv zs xm).
Proof. exact C85_unique_sum_l. Qed.
Print Assumptions C85_unique_sum.

(** f = L2(b=b, sigma) and g = L21 (lam times the sum of the norms of the groups) or L1 on real
    arrays, composed with any linear operator A (a gradient: total-variation denoising),
    sigma, lam > 0: the problem sigma/2 |x - b|^2 + lam |A x| has exactly one minimiser, and
    PrimalDual (tau mu |A a|^2 <= kappa |a|^2, kappa <= 1) and LinearizedADMM (mu |A a|^2 <=
    kappa tau |a|^2) converge to it from every start *)
Theorem C85_denoising : forall fuel n (G : IPS) (ext : L2Ext (Vec n) G) cfg b sigma xw st ch m k lam (A : linop (Vec n) (Pow (Vec m) k)) (A' : linop (Vec n) (Vec m)) w,
  l2_exact ext -> l2_reached ext cfg sigma xw st -> (forall x tau, l2_reached ext cfg sigma xw (ch x tau)) -> l2_d cfg = OnlyB b -> l2_q cfg = None -> 0 < sigma -> 0 < lam -> nonneg_list w ->
  let e1 := XL2 (Vec n) G ext cfg sigma xw st ch in
  exists o1 o2 o3 x2 x3, build fuel e1 = Ok o1 /\ build fuel (XL21 m k lam) = Ok o2 /\ (forall c0 c, build fuel (XL1 m w None c0 c) = Ok (o3 c0 c)) /\
  (forall y, is_min (etot (fun x => sigma / 2 * norm2 (x [-] b) + group_norm lam (A x))) y <-> y = x2) /\
  (forall y, is_min (etot (fun x => sigma / 2 * norm2 (x [-] b) + wl1 w vzero (A' x))) y <-> y = x3) /\
  forall x0 tau mu kappa gfirst c0 c, 0 < tau -> 0 < mu -> 0 <= kappa <= 1 ->
  ((forall a, tau * mu * norm2 (A a) <= kappa * norm2 a) -> exists xs ys, (forall n, exists tr, PrimalDual o1 o2 A None x0 (Scalar tau) (Scalar mu) None None 1 n gfirst = Ok (xs n, ys n, tr)) /\ vcv xs x2) /\
  ((forall a, mu * norm2 (A a) <= kappa * tau * norm2 a) -> exists xs zs, (forall n, exists tr, LinearizedADMM o1 o2 A (Some x0) tau mu n None = Ok (xs n, zs n, tr)) /\ vcv xs x2) /\
  ((forall a, tau * mu * norm2 (A' a) <= kappa * norm2 a) -> exists xs ys, (forall n, exists tr, PrimalDual o1 (o3 c0 c) A' None x0 (Scalar tau) (Scalar mu) None None 1 n gfirst = Ok (xs n, ys n, tr)) /\ vcv xs x3) /\
  ((forall a, mu * norm2 (A' a) <= kappa * tau * norm2 a) -> exists xs zs, (forall n, exists tr, LinearizedADMM o1 (o3 c0 c) A' (Some x0) tau mu n None = Ok (xs n, zs n, tr)) /\ vcv xs x3).
Proof. exact C85_denoising_l. Qed.
Print Assumptions C85_denoising.

(** without bounded level sets there may be nothing to converge to. On the real line f =
    Quadratic(b=1), f(x) = x, and g = Quadratic(b=0), g = 0: admissible, convex, closed,
    Slater's condition holds, no minimiser exists, and for every start, tau > 0, eta > 0 the
    x returned by DouglasRachfordSplitting after n+1 iterations is x0 - n eta tau
    (gfirst=True), x0 - n eta tau - tau (gfirst=False) *)
Theorem C85_unbounded_refuted : let e b := XQuadratic R_IPS (fun _ y => y) (fun _ y _ => y) None (Some (b : R_IPS)) 0 true true (fun _ _ => None) in
  admissible (e 1) /\ admissible (e 0) /\ closed (denote (e 1)) /\ closed (denote (e 0)) /\ qualified2 (denote (e 1)) (denote (e 0)) /\ ~ (exists m, is_min (eadd (denote (e 1)) (denote (e 0))) m) /\
  forall fuel o1 o0, build fuel (e 1) = Ok o1 -> build fuel (e 0) = Ok o0 -> forall (x0 : R_IPS) tau eta n (gfirst : bool), 0 < tau ->
    exists ys tr, DouglasRachford o1 o0 x0 tau eta (S n) gfirst = Ok (x0 - INR n * (eta * tau) - (if gfirst then 0 else tau), ys, tr).
Proof. exact C85_unbounded_refuted_l. Qed.
Print Assumptions C85_unbounded_refuted.

(** on the real line f = Quadratic(Op=I, b=-3), f(x) = x^2/2 - 3 x, and g = Euclidean(1) = |.|
    composed with 2: admissible, curved with s = 1, Slater's condition holds, level sets
    bounded, 1 is the minimiser of f + g(2 .), tau = mu = 1/4 satisfy the step conditions
    with kappa = 1/2; the indicator of [0, 2] has bounded level sets and f + g + it
    satisfies the hypotheses of PPXA; for arrays of any length, L2 objects with data b,
    exact inner solvers and the state they have after construction exist *)
Example C85_example : let f := XQuadratic R_IPS (fun M y => (y : R) / (M (1 : R_IPS) : R)) (fun M y _ => (y : R) / (M (1 : R_IPS) : R)) (Some (id_linop R_IPS)) (Some ((-3) : R_IPS)) 0 true true (fun _ _ => None) in
  let g := XEuclidean R_IPS 1 in let h := XBall R_IPS 1 1 in let A := scal_linop R_IPS 2 in
  admissible f /\ admissible g /\ admissible h /\ curved f 1 /\ bw R_IPS /\ hb R_IPS /\ complete R_IPS /\ described R_IPS /\ qualified (denote f) (denote g) A /\ qualified2 (denote f) (denote h) /\
  is_min (eadd (denote f) (epre (denote g) (lapp A))) 1 /\ (forall a, 1 / 4 * (1 / 4) * norm2 (lapp A a) <= 1 / 2 * norm2 a) /\
  level_bounded (eadd (denote f) (epre (denote g) (lapp A))) /\ level_bounded (denote h) /\
  qualified_sum 3 (fun i => denote (nth i [f; g; h] f)) /\ level_bounded (esum 3 (fun i => denote (nth i [f; g; h] f))) /\
  forall n (G : IPS) (b : Vec n), exists (ext : L2Ext (Vec n) G) cfg, l2_exact ext /\ l2_d cfg = OnlyB b /\ l2_q cfg = None /\ l2_reached ext cfg 1 None (l2_init ext cfg 1 None).
Proof. exact C85_example_l. Qed.
