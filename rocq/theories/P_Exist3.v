(** * Strongly convex problems (denoising): one solution, found by every solver from every start *)
From Coq Require Import String Psatz Classical.
From Verif Require Import Base Space Spec Cplx ConvexFacts Smooth VSum MatFacts M_ProxOp SpecOps P_ProxOp M_Norms P_Norms M_L1 M_L2 P_L1 P_L2 P_L21 M_Objs S_Lasso P_Lasso M_Loop LoopFacts LoopFacts2 SeqFacts M_PG M_Split M_PD M_Multi SplitMath P_PG P_PG2 P_PG3 P_Split P_Split2 P_Split3 P_PD P_PD2 P_Multi P_Multi2 P_Multi3 S_Seq Compact Fejer P_Iter P_Iter2 P_Iter3 HahnBanach P_Qual M_Expr P_Expr P_Expr2 ExistMath P_Exist P_Exist2.
Open Scope result_scope.
Open Scope R_scope.

(*! C85_unique : f any curved admissible expression (for instance L2 with data b, sigma > 0), g any admissible expression, A any bounded linear
   operator, Slater's condition, finite dimension: f + g(A .) has exactly one minimiser xm, its value grows quadratically away from xm, and from every start,
   with all steps satisfying the documented conditions and either order, LinearizedADMM and PrimalDual converge to xm *)
Lemma C85_unique_l : forall fuel (E F : IPS) (e1 : expr E) (e2 : expr F) (A : linop E F) C s, bw E -> bw F -> hb F -> complete E -> admissible e1 -> admissible e2 -> closed_others e1 -> closed_others e2 ->
  0 < s -> curved e1 s -> (forall v, norm (A v) <= C * norm v) -> qualified (denote e1) (denote e2) A ->
  let J := eadd (denote e1) (epre (denote e2) (lapp A)) in
  exists o1 o2 xm, build fuel e1 = Ok o1 /\ build fuel e2 = Ok o2 /\ is_min J xm /\ (forall y, is_min J y -> y = xm) /\ (forall y, edom J y -> eval J xm + s / 4 * norm2 (y [-] xm) <= eval J y) /\
  forall x0 tau mu kappa gfirst, 0 < tau -> 0 < mu -> 0 <= kappa <= 1 ->
  ((forall a, mu * norm2 (lapp A a) <= kappa * tau * norm2 a) -> exists xs zs, (forall n, exists tr, LinearizedADMM o1 o2 A (Some x0) tau mu n None = Ok (xs n, zs n, tr)) /\ vcv xs xm /\ vcv zs (lapp A xm)) /\
  ((forall a, tau * mu * norm2 (lapp A a) <= kappa * norm2 a) -> exists xs ys yl, (forall n, exists tr, PrimalDual o1 o2 A None x0 (Scalar tau) (Scalar mu) None None 1 n gfirst = Ok (xs n, ys n, tr)) /\ vcv xs xm /\ vcv ys yl).
Proof.
  intros fuel E F e1 e2 A C s BE BF HF HE A1 A2 O1 O2 Hs Hc HA Hq J.
  destruct (C85_expressions_l E e1 A1 O1) as (C1 & L1 & _ & M1 & S1). destruct (C85_expressions_l F e2 A2 O2) as (C2 & L2 & _ & M2 & _).
  destruct (proj1 (proj2 C85_existence_l) E F s (denote e1) (denote e2) A C HE Hs (S1 s Hc) C2 L1 L2 M1 M2 HA (qual_dom _ _ A Hq)) as (xm & Hm & Hg & Hu).
  destruct (expr_good fuel E e1 A1) as (o1 & B1 & _). destruct (expr_good fuel F e2 A2) as (o2 & B2 & _).
  exists o1, o2, xm. split; [exact B1|]. split; [exact B2|]. split; [exact Hm|]. split; [exact Hu|]. split; [intros y [H1 H2]; apply Hg; assumption|].
  intros x0 tau mu kappa gfirst Ht Hmu Hk.
  destruct (C82_composite_l fuel E F e1 e2 A x0 tau mu kappa gfirst BE BF HF A1 A2 Ht Hmu Hk Hq (ex_intro _ xm Hm)) as (o1' & o2' & B1' & B2' & R1 & R2).
  rewrite B1 in B1'. rewrite B2 in B2'. injection B1' as <-. injection B2' as <-. split; intro H.
  - destruct (R1 H) as (xs & zs & l & H1 & H2 & H3 & H4). rewrite (Hu l H2) in *. exists xs, zs. auto.
  - destruct (R2 H) as (xs & ys & l & yl & H1 & H2 & H3 & H4). rewrite (Hu l H2) in *. exists xs, ys, yl. auto.
Qed.

Lemma curved_fast {E : IPS} (e : expr E) s : admissible e -> closed_others e -> 0 < s -> curved e s -> fast_growing (denote e).
Proof. intros Ha Ho Hs Hc. destruct (C85_expressions_l E e Ha Ho) as (_ & _ & _ & M & S). apply (fast_strong s); auto. Qed.

(*! C85_unique_sum : the same for f + g: one minimiser, found by DouglasRachfordSplitting and ADMM from every start, for every tau > 0 and
   0 < eta < 2, in either order *)
Lemma C85_unique_sum_l : forall fuel (E : IPS) (e1 e2 : expr E) s, bw E -> hb E -> complete E -> admissible e1 -> admissible e2 -> closed_others e1 -> closed_others e2 ->
  0 < s -> curved e1 s -> qualified2 (denote e1) (denote e2) ->
  exists o1 o2 xm, build fuel e1 = Ok o1 /\ build fuel e2 = Ok o2 /\ is_min (eadd (denote e1) (denote e2)) xm /\ (forall y, is_min (eadd (denote e1) (denote e2)) y -> y = xm) /\
  forall x0 tau eta gfirst, 0 < tau -> 0 < eta < 2 ->
  (exists xs ys, (forall n, exists tr, DouglasRachford o1 o2 x0 tau eta (S n) gfirst = Ok (xs n, ys n, tr)) /\ vcv xs xm) /\
  (exists xs zs, (forall n, exists tr, ADMM o1 o2 (Some x0) tau n None gfirst = Ok (xs n, zs n, tr)) /\ vcv xs xm /\ vcv zs xm).
Proof.
  intros fuel E e1 e2 s BE HF HE A1 A2 O1 O2 Hs Hc Hq.
  destruct (C85_expressions_l E e1 A1 O1) as (C1 & L1 & _ & M1 & S1). destruct (C85_expressions_l E e2 A2 O2) as (C2 & L2 & _ & M2 & _).
  destruct (proj1 (proj2 C85_existence_l) E E s (denote e1) (denote e2) (id_linop E) 1 HE Hs (S1 s Hc) C2 L1 L2 M1 M2) as (xm & Hm & Hg & Hu).
  { intro v. cbn. lra. }
  { destruct Hq as (x & H). assert (K : forall h : efun E, interior (edom h) x -> edom h x). { intros h (d & Hd & Hh). specialize (Hh vzero). replace (x [+] vzero) with x in Hh by vring. apply Hh. rewrite norm_zero. lra. }
    exists x. destruct H as [[H1 H2]|[H1 H2]]; apply K in H2; split; assumption. }
  destruct (expr_good fuel E e1 A1) as (o1 & B1 & _). destruct (expr_good fuel E e2 A2) as (o2 & B2 & _).
  exists o1, o2, xm. split; [exact B1|]. split; [exact B2|]. split; [exact Hm|]. split; [exact Hu|].
  intros x0 tau eta gfirst Ht He.
  destruct (C82_splitting_l fuel E e1 e2 x0 tau eta gfirst BE HF A1 A2 Ht He Hq (ex_intro _ xm Hm)) as (o1' & o2' & B1' & B2' & R1 & R2).
  rewrite B1 in B1'. rewrite B2 in B2'. injection B1' as <-. injection B2' as <-. split.
  - destruct R1 as (xs & ys & l & H1 & H2 & H3). rewrite (Hu l H2) in *. exists xs, ys. auto.
  - destruct R2 as (xs & zs & l & H1 & H2 & H3 & H4). rewrite (Hu l H2) in *. exists xs, zs. auto.
Qed.

(*! C85_denoising : f = L2(b=b, sigma) and g = L21 (lam times the sum of the norms of the groups) or L1 on real arrays, composed with any linear
   operator A (a gradient: total-variation denoising), sigma, lam > 0: the problem sigma/2 |x - b|^2 + lam |A x| has exactly one minimiser, and
   PrimalDual (tau mu |A a|^2 <= kappa |a|^2, kappa <= 1) and LinearizedADMM (mu |A a|^2 <= kappa tau |a|^2) converge to it from every start *)
Lemma C85_denoising_l : forall fuel n (G : IPS) (ext : L2Ext (Vec n) G) cfg b sigma xw st ch m k lam (A : linop (Vec n) (Pow (Vec m) k)) (A' : linop (Vec n) (Vec m)) w,
  l2_exact ext -> l2_reached ext cfg sigma xw st -> (forall x tau, l2_reached ext cfg sigma xw (ch x tau)) -> l2_d cfg = OnlyB b -> l2_q cfg = None -> 0 < sigma -> 0 < lam -> nonneg_list w ->
  let e1 := XL2 (Vec n) G ext cfg sigma xw st ch in
  exists o1 o2 o3 x2 x3, build fuel e1 = Ok o1 /\ build fuel (XL21 m k lam) = Ok o2 /\ (forall c0 c, build fuel (XL1 m w None c0 c) = Ok (o3 c0 c)) /\
  (forall y, is_min (etot (fun x => sigma / 2 * norm2 (x [-] b) + group_norm lam (A x))) y <-> y = x2) /\
  (forall y, is_min (etot (fun x => sigma / 2 * norm2 (x [-] b) + wl1 w vzero (A' x))) y <-> y = x3) /\
  forall x0 tau mu kappa gfirst c0 c, 0 < tau -> 0 < mu -> 0 <= kappa <= 1 ->
  ((forall a, tau * mu * norm2 (A a) <= kappa * norm2 a) -> exists xs ys, (forall n, exists tr, PrimalDual o1 o2 A None x0 (Scalar tau) (Scalar mu) None None 1 n gfirst = Ok (xs n, ys n, tr)) /\ vcv xs x2) /\
  ((forall a, mu * norm2 (A a) <= kappa * tau * norm2 a) -> exists xs zs, (forall n, exists tr, LinearizedADMM o1 o2 A (Some x0) tau mu n None = Ok (xs n, zs n, tr)) /\ vcv xs x2) /\
  ((forall a, tau * mu * norm2 (A' a) <= kappa * norm2 a) -> exists xs ys, (forall n, exists tr, PrimalDual o1 (o3 c0 c) A' None x0 (Scalar tau) (Scalar mu) None None 1 n gfirst = Ok (xs n, ys n, tr)) /\ vcv xs x3) /\
  ((forall a, mu * norm2 (A' a) <= kappa * tau * norm2 a) -> exists xs zs, (forall n, exists tr, LinearizedADMM o1 (o3 c0 c) A' (Some x0) tau mu n None = Ok (xs n, zs n, tr)) /\ vcv xs x3).
Proof.
  intros fuel n G ext cfg b sigma xw st ch m k lam A A' w H1 H2 H3 Hd Hqn Hs Hl Hw e1.
  assert (A1 : admissible e1) by (cbn [admissible e1]; auto). assert (K1 : curved e1 sigma) by (cbn [curved e1]; rewrite Hd; apply Rle_refl).
  assert (V1 : forall x, eval (denote e1) x = sigma / 2 * norm2 (x [-] b)) by (intro x; cbn [denote e1 eval etot]; rewrite Hd, Hqn; unfold l2_fun; ring).
  assert (T1 : forall x, edom (denote e1) x) by (intro x; exact I).
  destruct (vec_bounded n _ A) as (CA & CA0 & HA). destruct (vec_bounded n _ A') as (CB & CB0 & HB).
  assert (Q : forall (F : IPS) (g : efun F) (B : linop (Vec n) F), (forall x, edom g x) -> qualified (denote e1) g B) by (intros F g B Hg; exists vzero; split; [exact I|exists 1; split; [lra|intros; apply Hg]]).
  pose proof (fun F (e2 : expr F) (B : linop (Vec n) F) C bF hF a2 o2 hB q => C85_unique_l fuel (Vec n) F e1 e2 B C sigma (proj1 (proj2 C75_arrays_l) n) bF hF (complete_pow R_IPS n complete_R) A1 a2 I o2 Hs K1 hB q) as U.
  destruct (U (Pow (Vec m) k) (XL21 m k lam) A (sqrt (CA / 1))) as (o1 & o2 & x2 & B1 & B2 & M2 & U2 & _ & R2);
    [apply bw_pow, (proj1 (proj2 C75_arrays_l))|apply hb_pow, hb_vec|exact Hl|exact I|apply bound_of_step; [lra|exact CA0|intro v; rewrite Rmult_1_l; apply HA]|apply Q; intro; exact I|].
  assert (X : exists x3, (forall y, is_min (etot (fun x => sigma / 2 * norm2 (x [-] b) + wl1 w vzero (A' x))) y <-> y = x3)).
  { destruct (U (Vec m) (XL1 m w None 0 (fun _ _ => 0%nat)) A' (sqrt (CB / 1))) as (_ & _ & x3 & _ & _ & M3 & U3 & _);
    [apply (proj1 (proj2 C75_arrays_l))|apply hb_vec|exact Hw|exact I|apply bound_of_step; [lra|exact CB0|intro v; rewrite Rmult_1_l; apply HB]|apply Q; intro; exact I|].
    exists x3. intro y. split.
    - intros [_ Y]. apply U3. split; [split; exact I|]. intros z _. specialize (Y z I). cbn [eval eadd epre etot] in *. rewrite !V1. cbn [denote eval etot gvec]. exact Y.
    - intros ->. split; [exact I|]. intros z _. destruct M3 as [_ M3]. specialize (M3 z (Logic.conj I I)). cbn [eval eadd epre etot] in *. rewrite !V1 in M3. cbn [denote eval etot gvec] in M3. exact M3. }
  destruct X as [x3 X3]. exists o1, o2, (fun c0 c => obj (S (S fuel)) (l1_body (fun _ => w) None c0 c)), x2, x3.
  split; [exact B1|]. split; [exact B2|]. split; [reflexivity|]. split.
  { intro y. split.
    - intros [_ Y]. apply U2. split; [split; exact I|]. intros z _. specialize (Y z I). cbn [eval eadd epre etot] in *. rewrite !V1. exact Y.
    - intros ->. split; [exact I|]. intros z _. destruct M2 as [_ M2]. specialize (M2 z (Logic.conj I I)). cbn [eval eadd epre etot] in *. rewrite !V1 in M2. exact M2. }
  split; [exact X3|]. intros x0 tau mu kappa gfirst c0 c Ht Hmu Hk.
  destruct (R2 x0 tau mu kappa gfirst Ht Hmu Hk) as [R21 R22]. split; [|split; [|]].
  - intro H. destruct (R22 H) as (xs & ys & yl & E1 & E2 & _). exists xs, ys. auto.
  - intro H. destruct (R21 H) as (xs & zs & E1 & E2 & _). exists xs, zs. auto.
  - destruct (U (Vec m) (XL1 m w None c0 c) A' (sqrt (CB / 1))) as (o1' & o3 & x3' & B1' & B3 & M3 & U3 & _ & R3);
    [apply (proj1 (proj2 C75_arrays_l))|apply hb_vec|exact Hw|exact I|apply bound_of_step; [lra|exact CB0|intro v; rewrite Rmult_1_l; apply HB]|apply Q; intro; exact I|].
    rewrite B1 in B1'. injection B1' as <-. injection B3 as <-.
    assert (Z : x3' = x3). { apply X3. split; [exact I|]. intros z _. destruct M3 as [_ M3]. specialize (M3 z (Logic.conj I I)). cbn [eval eadd epre etot] in *. rewrite !V1 in M3. cbn [denote eval etot gvec] in M3. exact M3. }
    subst x3'. destruct (R3 x0 tau mu kappa gfirst Ht Hmu Hk) as [R31 R32]. split.
    + intro H. destruct (R32 H) as (xs & ys & yl & E1 & E2 & _). exists xs, ys. auto.
    + intro H. destruct (R31 H) as (xs & zs & E1 & E2 & _). exists xs, zs. auto.
Qed.

(*! C85_unbounded_refuted : without bounded level sets there may be nothing to converge to.  On the real line f = Quadratic(b=1), f(x) = x, and
   g = Quadratic(b=0), g = 0: admissible, convex, closed, Slater's condition holds, no minimiser exists, and for every start, tau > 0, eta > 0 the x returned by
   DouglasRachfordSplitting after n+1 iterations is x0 - n eta tau (gfirst=True), x0 - n eta tau - tau (gfirst=False) *)
Lemma C85_unbounded_refuted_l : let e b := XQuadratic R_IPS (fun _ y => y) (fun _ y _ => y) None (Some (b : R_IPS)) 0 true true (fun _ _ => None) in
  admissible (e 1) /\ admissible (e 0) /\ closed (denote (e 1)) /\ closed (denote (e 0)) /\ qualified2 (denote (e 1)) (denote (e 0)) /\ ~ (exists m, is_min (eadd (denote (e 1)) (denote (e 0))) m) /\
  forall fuel o1 o0, build fuel (e 1) = Ok o1 -> build fuel (e 0) = Ok o0 -> forall (x0 : R_IPS) tau eta n (gfirst : bool), 0 < tau ->
    exists ys tr, DouglasRachford o1 o0 x0 tau eta (S n) gfirst = Ok (x0 - INR n * (eta * tau) - (if gfirst then 0 else tau), ys, tr).
Proof.
  intro e. assert (Ha : forall b, admissible (e b)). { intro b. cbn. split; [discriminate|]. intros tau y Ht. split; [|intros _]; ring. }
  split; [apply Ha|]. split; [apply Ha|]. split; [apply expr_closed; [apply Ha|exact I]|]. split; [apply expr_closed; [apply Ha|exact I]|].
  split; [exists vzero; left; split; [exact I|exists 1; split; [lra|intros; exact I]]|]. split.
  - intros [m [_ Hm]]. specialize (Hm ((m : R) - 1 : R_IPS) (Logic.conj I I)). cbn in Hm. lra.
  - intros fuel o1 o0 B1 B0 x0 tau eta n gfirst Ht.
    assert (P : forall b o, build fuel (e b) = Ok o -> forall x : R_IPS, exists p, o_prox o x tau = Ok p /\ p = (x : R) - tau * b).
    { intros b o Bo x. destruct (expr_good fuel R_IPS (e b) (Ha b)) as (o' & Bo' & _ & Hi & _). rewrite Bo in Bo'. injection Bo' as <-. destruct (Hi x tau Ht) as (p & Hp & Hpp). exists p. split; [exact Hp|].
      assert (C : convex (denote (e b))) by (destruct (expr_good 0 R_IPS (e b) (Ha b)) as (? & _ & C & _); exact C).
      apply (prox_unique (denote (e b)) tau x p); auto. split; [exact I|]. intros y _. cbn. match goal with |- ?a <= ?c => assert (Q : c - a = / (2 * tau) * (((y : R) - x + tau * b) * ((y : R) - x + tau * b))) by (field; lra) end.
      assert (0 <= / (2 * tau) * (((y : R) - x + tau * b) * ((y : R) - x + tau * b))) by (apply Rmult_le_pos; [left; apply Rinv_0_lt_compat; lra|apply Rle_0_sqr]). lra. }
    destruct (dr_run o1 o0 (fun t (x : R_IPS) (p : R_IPS) => p = (x : R) - tau * 1) (fun t (x : R_IPS) (p : R_IPS) => p = (x : R) - tau * 0) tau eta x0 n gfirst (P 1 o1 B1) (P 0 o0 B0)) as (xs & ps & ys & Er & Y0 & Hj).
    assert (Y : forall j, (j <= S n)%nat -> ys j = x0 - INR j * (eta * tau)).
    { induction j as [|j IH]; intro Hle; [rewrite Y0; simpl; apply Rminus_diag_uniq; ring|]. destruct (Hj j ltac:(lia)) as [Hp ->]. specialize (IH ltac:(lia)). rewrite S_INR. destruct gfirst; destruct Hp as [-> ->]; rewrite IH; unfold vsub; cbn; apply Rminus_diag_uniq; ring. }
    exists (ys (S n)). eexists. rewrite Er. repeat f_equal. destruct (Hj n ltac:(lia)) as [Hp _]. destruct gfirst; destruct Hp as [-> _]; rewrite (Y n) by lia; cbn; apply Rminus_diag_uniq; ring.
Qed.

(*!ex C85_example : on the real line f = Quadratic(Op=I, b=-3), f(x) = x^2/2 - 3 x, and g = Euclidean(1) = |.| composed with 2: admissible, curved with s = 1,
   Slater's condition holds, level sets bounded, 1 is the minimiser of f + g(2 .), tau = mu = 1/4 satisfy the step conditions with kappa = 1/2; the indicator
   of [0, 2] has bounded level sets and f + g + it satisfies the hypotheses of PPXA; for arrays of any length, L2 objects with data b, exact inner
   solvers and the state they have after construction exist *)
Lemma C85_example_l : let f := XQuadratic R_IPS (fun M y => (y : R) / (M (1 : R_IPS) : R)) (fun M y _ => (y : R) / (M (1 : R_IPS) : R)) (Some (id_linop R_IPS)) (Some ((-3) : R_IPS)) 0 true true (fun _ _ => None) in
  let g := XEuclidean R_IPS 1 in let h := XBall R_IPS 1 1 in let A := scal_linop R_IPS 2 in
  admissible f /\ admissible g /\ admissible h /\ curved f 1 /\ bw R_IPS /\ hb R_IPS /\ complete R_IPS /\ described R_IPS /\ qualified (denote f) (denote g) A /\ qualified2 (denote f) (denote h) /\
  is_min (eadd (denote f) (epre (denote g) (lapp A))) 1 /\ (forall a, 1 / 4 * (1 / 4) * norm2 (lapp A a) <= 1 / 2 * norm2 a) /\
  level_bounded (eadd (denote f) (epre (denote g) (lapp A))) /\ level_bounded (denote h) /\
  qualified_sum 3 (fun i => denote (nth i [f; g; h] f)) /\ level_bounded (esum 3 (fun i => denote (nth i [f; g; h] f))) /\
  forall n (G : IPS) (b : Vec n), exists (ext : L2Ext (Vec n) G) cfg, l2_exact ext /\ l2_d cfg = OnlyB b /\ l2_q cfg = None /\ l2_reached ext cfg 1 None (l2_init ext cfg 1 None).
Proof.
  intros f g h A.
  assert (Af : admissible f). { cbn. split; [intros B HB; injection HB as <-; split; [intros; cbn; ring|intro x; cbn; apply Rle_0_sqr]|]. intros tau y Ht. split; [|intros _]; cbn; field; lra. }
  assert (Ag : admissible g) by (cbn; lra). assert (Ah : admissible h) by (cbn; lra). assert (Cf : curved f 1) by (intro v; cbn; right; unfold norm2; cbn; ring).
  assert (Nr : forall v : R_IPS, norm v = Rabs v) by (intro v; unfold norm, norm2; cbn; change (sqrt (Rsqr v) = Rabs v); apply sqrt_Rsqr_abs).
  assert (Tot : forall (e : efun R_IPS) x, (forall y, edom e y) -> interior (edom e) x) by (intros e x He; exists 1; split; [lra|intros; apply He]).
  assert (Ih : forall v : R_IPS, norm v <= 1 / 2 -> edom (denote h) ((1 : R_IPS) [+] v)). { intros v Hv. cbn [denote h indic edom]. replace ((1 : R_IPS) [+] v [-] (1 : R_IPS)) with v by vring. lra. }
  assert (Lf : fast_growing (denote f)) by (apply (curved_fast f 1); [exact Af|exact I|lra|exact Cf]).
  assert (Mg : minorised (denote g)) by apply (C85_expressions_l R_IPS g Ag I). assert (Mh : minorised (denote h)) by apply (C85_expressions_l R_IPS h Ah I).
  split; [exact Af|]. split; [exact Ag|]. split; [exact Ah|]. split; [exact Cf|]. split; [exact bw_R|]. split; [exact hb_R|]. split; [exact complete_R|]. split; [exact described_R|].
  split; [exists vzero; split; [exact I|apply Tot; intro; exact I]|]. split; [exists 1; right; split; [specialize (Ih vzero); replace ((1 : R_IPS) [+] vzero) with (1 : R_IPS) in Ih by vring; apply Ih; rewrite norm_zero; lra|apply Tot; intro; exact I]|].
  split.
  { split; [split; exact I|]. intros y _. cbn [eval eadd epre denote f g etot]. rewrite !Nr. cbn. pose proof (Rle_abs (2 * y)). rewrite (Rabs_right (2 * 1)) by lra. pose proof (Rle_0_sqr (y - 1)) as Z. unfold Rsqr in Z. lra. }
  split; [intro a; unfold norm2; cbn; pose proof (Rle_0_sqr a) as Z; unfold Rsqr in Z; lra|].
  split; [apply level_fast; [exact Lf|apply minor_pre; exact Mg]|].
  split; [intro c; exists 2; intros x Hx _; cbn [denote h indic edom] in Hx; pose proof (norm_triangle (x [-] (1 : R_IPS)) (1 : R_IPS)) as T; replace (x [-] (1 : R_IPS) [+] (1 : R_IPS)) with x in T by vring; rewrite (Nr 1), (Rabs_right 1) in T by lra; lra|].
  split.
  { exists 1, 3%nat. intros i Hi. destruct i as [|[|[|i]]]; [| | |lia]; (split; [|intros _]).
    - exact I.
    - apply Tot. intro. exact I.
    - exact I.
    - apply Tot. intro. exact I.
    - specialize (Ih vzero). replace ((1 : R_IPS) [+] vzero) with (1 : R_IPS) in Ih by vring. apply Ih. rewrite norm_zero. lra.
    - exists (1 / 2). split; [lra|]. exact Ih. }
  split.
  { intro c. destruct (level_fast _ _ Lf (minor_add _ _ Mg Mh) c) as [M HM]. exists M. intros x Hx Hv. apply HM.
    - split; [exact (Hx 0%nat ltac:(lia))|]. split; [exact (Hx 1%nat ltac:(lia))|exact (Hx 2%nat ltac:(lia))].
    - cbn [eval esum RS nth] in Hv. cbn [eval eadd]. lra. }
  intros n G b. set (cfg := mkL2 (E:=Vec n) (F:=G) (OnlyB b) None 1 true (fun _ => 10%nat) true Legacy DenseDefault). exists (gs_ext n G), cfg. split; [apply gs_ext_exact|]. split; [reflexivity|]. split; [reflexivity|]. apply reached_init.
Qed.
