(** * Low-rank estimation: the solvers on L2 and Nuclear, QuadraticEnvelopeRankL2 and Hankel, and the balls *)
From Coq Require Import String ZArith Permutation Sorted Psatz IndefiniteDescription.
From Verif Require Import Base Space Spec ConvexFacts Smooth VSum MatFacts M_ProxOp SpecOps P_ProxOp M_L1 M_L2 P_L2 M_Proj P_Proj2 P_Proj3 M_L0 S_L0 P_L0 P_Hankel M_SVD SVD SVD2 S_SVD P_SVD M_QE P_QE P_QE6 S_Lasso P_Lasso M_Loop LoopFacts SeqFacts M_PG M_Split S_PG2 P_PG P_PG2 S_Seq Fejer P_Iter S_Qual P_Qual S_Exist P_Exist P_Iht Sep P_Breg M_Low.
From Verif Require Export S_Low.
Open Scope result_scope.
Open Scope R_scope.

Section N.
Context {m n : nat}.
Notation k := (Nat.min m n).
Definition nuc (X : Vec (m * n)) : R := RS k (svals X).
Lemma nuc_sv X s : sing_vals X s -> RS k s = nuc X.
Proof. intro H. apply RS_ext. intros i Hi. symmetry. apply svals_eq; auto. Qed.
Lemma nuc_is X r : is_nuclear X r <-> r = nuc X.
Proof. split; [intros (s & H & ->); apply nuc_sv, H|intros ->; exists (svals X); split; [apply svals_ok|reflexivity]]. Qed.
Lemma RS_sq_le j (h : nat -> R) : (forall i, (i < j)%nat -> 0 <= h i) -> RS j (fun i => h i * h i) <= RS j h * RS j h.
Proof.
  induction j; intro H; cbn [RS]; [lra|]. assert (H' : forall i, (i < j)%nat -> 0 <= h i) by (intros; apply H; lia). specialize (IHj H'). pose proof (RS_nonneg j h H'). pose proof (H j ltac:(lia)).
  assert (0 <= RS j h * h j) by (apply Rmult_le_pos; auto). lra.
Qed.
Lemma nuc_nonneg X : 0 <= nuc X.
Proof. destruct (svals_ok m n X) as (u & v & [_ H] & _). apply RS_nonneg, H. Qed.
Lemma norm_nuc X : norm X <= nuc X.
Proof.
  apply norm_le_of_sq; [apply nuc_nonneg|]. destruct (svals_ok m n X) as (u & v & [_ H0] & Hu & Hv & EX). rewrite EX at 1. unfold norm2. rewrite synth_same by auto.
  apply RS_sq_le, H0.
Qed.
Lemma nuc_scal t X : 0 <= t -> nuc (t [*] X) = t * nuc X.
Proof.
  intro Ht. destruct (svals_ok m n X) as (u & v & [H1 H2] & Hu & Hv & EX). rewrite <- (nuc_sv (t [*] X) (fun i => t * svals X i)); [apply RS_scal|].
  exists u, v. split; [split; intros; [apply Rmult_le_compat_l|apply Rmult_le_pos]; auto|]. split; [exact Hu|split; [exact Hv|]]. rewrite EX at 1. unfold synth. rewrite <- VS_scal. apply VS_ext. intros i Hi. vring.
Qed.
Lemma inner_nuc (G : Vec (m * n)) c X : spectral_le G c -> << G, X >> <= c * nuc X.
Proof.
  intro H. destruct (svals_ok m n X) as (u & v & [H1 H2] & Hu & Hv & EX). rewrite EX at 1. unfold synth. rewrite inner_VS_r. unfold nuc. rewrite <- RS_scal. apply RS_le. intros i Hi.
  rewrite inner_scal_r, inner_sym. specialize (H (u i) (v i)). assert (N1 : norm (u i) = 1) by (unfold norm; rewrite (on_norm k u i Hu Hi); apply sqrt_1). assert (N2 : norm (v i) = 1) by (unfold norm; rewrite (on_norm k v i Hv Hi); apply sqrt_1).
  rewrite N1, N2 in H. specialize (H2 i Hi). rewrite (Rmult_comm c). apply Rmult_le_compat_l; [exact H2|lra].
Qed.
Lemma nuc_outer (a : Vec m) (b : Vec n) : nuc (outer a b) <= norm a * norm b.
Proof.
  destruct (svals_ok m n (outer a b)) as (u & v & _ & Hu & Hv & EX).
  assert (E : nuc (outer a b) = RS k (fun i => << u i, a >> * << v i, b >>)).
  { transitivity << synth k (fun _ => 1) u v, synth k (svals (outer a b)) u v >>; [rewrite synth_same by auto; apply RS_ext; intros; ring|]. rewrite <- EX. rewrite inner_sym. unfold synth. rewrite inner_VS_r. apply RS_ext. intros i Hi.
    rewrite inner_scal_r, outer_inner, (inner_sym a), (inner_sym b). ring. }
  rewrite E. set (p := vtab k (fun i => << u i, a >>) : Vec k). set (q := vtab k (fun i => << v i, b >>) : Vec k).
  assert (E2 : RS k (fun i => << u i, a >> * << v i, b >>) = << p, q >>). { rewrite vec_inner. apply RS_ext. intros i Hi. unfold p, q. rewrite !get_vtab by exact Hi. reflexivity. }
  rewrite E2. eapply Rle_trans; [apply CS|]. apply Rmult_le_compat; try apply norm_nonneg; unfold norm; apply sqrt_le_1_alt; rewrite vec_norm2.
  - rewrite (RS_ext k _ (fun i => << u i, a >> * << u i, a >>)); [apply bessel, Hu|]. intros i Hi. unfold p. rewrite get_vtab by exact Hi. reflexivity.
  - rewrite (RS_ext k _ (fun i => << v i, b >> * << v i, b >>)); [apply bessel, Hv|]. intros i Hi. unfold q. rewrite get_vtab by exact Hi. reflexivity.
Qed.
Lemma nuc_subgrad lam X G : 0 <= lam -> is_subgrad (etot (fun Y => lam * nuc Y)) X G <-> spectral_le G lam /\ << G, X >> = lam * nuc X.
Proof.
  intro Hl. split.
  - intros [_ H]. cbn [eval etot edom] in H. assert (E : << G, X >> = lam * nuc X).
    { pose proof (H vzero I) as Ha. pose proof (H (2 [*] X) I) as Hb. rewrite nuc_scal in Hb by lra. replace (vzero : Vec (m * n)) with (0 [*] X) in Ha by vring. rewrite nuc_scal in Ha by lra.
      replace (0 [*] X [-] X) with ((-1) [*] X) in Ha by vring. replace (2 [*] X [-] X) with (1 [*] X) in Hb by vring. rewrite inner_scal_r in Ha, Hb. lra. }
    split; [|exact E]. intros a b. specialize (H (outer a b) I). rewrite inner_sub_r, E, (inner_sym G) in H. pose proof (nuc_outer a b). apply (Rmult_le_compat_l lam) in H0; [lra|exact Hl].
  - intros [H E]. split; [exact I|]. intros Y _. cbn [eval etot]. rewrite inner_sub_r, E. pose proof (inner_nuc G lam Y H). lra.
Qed.
Lemma nuc_convex_fun lam : 0 <= lam -> convex (etot (fun Y => lam * nuc Y)).
Proof.
  intro Hl. apply (convex_ext (wnuclear (fun _ => lam))); [intro; reflexivity| |apply C32_nuclear_convex_l, Hl]. intros Y _. unfold wnuclear. cbn [eval etot]. apply RS_scal.
Qed.
Lemma completion_val {F : IPS} (A : linop (Vec (m * n)) F) b s lam X v : is_completion A b s lam X v <-> v = sfit A b s X + lam * nuc X.
Proof.
  split; [intros (r & Hr & ->); apply nuc_is in Hr; subst r; reflexivity|intros ->; exists (nuc X); split; [apply nuc_is; reflexivity|reflexivity]].
Qed.
Lemma completes_min {F : IPS} (A : linop (Vec (m * n)) F) b s lam X : completes A b s lam X <-> is_min (eadd (etot (sfit A b s)) (etot (fun Y => lam * nuc Y))) X.
Proof.
  split.
  - intro H. split; [split; exact I|]. intros Y _. cbn [eval eadd etot]. apply (H Y); apply completion_val; reflexivity.
  - intros [_ H] Y v w Hv Hw. apply completion_val in Hv, Hw. subst v w. exact (H Y (conj I I)).
Qed.
Lemma nuc_op_prox (svd : svdT m n) eig mu : (forall X, svd_at svd X) -> 0 <= mu -> impl_prox (obj 2 (nuclear_body svd eig (WNum mu))) (etot (fun Y => mu * nuc Y)).
Proof.
  intros Hs Hm X tau Ht. cbn [obj o_prox d_prox nuclear_body b_prox]. rewrite check_tau_pos by exact Ht.
  destruct (C32_nuclear_prox_l m n svd mu X tau Ht Hm (Hs X)) as (Y & E & _ & HP & _). exists Y. split; [exact E|]. revert HP. apply is_prox_ext; [reflexivity|]. intros Z _. unfold wnuclear. cbn [eval etot]. apply RS_scal.
Qed.
Lemma nuc_conj mu : 0 <= mu -> is_conj (etot (fun Y : Vec (m * n) => mu * nuc Y)) (indic (fun Z => spectral_le Z mu)).
Proof.
  intro Hm. split; [exists vzero; exact I|]. intro z. cbn [edom eval etot indic]. split; [split|].
  - intro Hz. exists 0. intros y _. pose proof (inner_nuc z mu y Hz). lra.
  - intros [M HM] a b. apply Rnot_lt_le. intro Hlt. set (dl := << outer a b, z >> - mu * (norm a * norm b)). assert (Hd : 0 < dl) by (unfold dl; lra). set (t := (Rabs M + 1) / dl).
    assert (Ht : 0 < t) by (apply Rdiv_lt_0_compat; [pose proof (Rabs_pos M); lra|exact Hd]). specialize (HM (t [*] outer a b) I). rewrite inner_scal_r, nuc_scal, inner_sym in HM by lra.
    pose proof (Rmult_le_compat_l mu _ _ Hm (nuc_outer a b)) as Hn. assert (Hk : t * dl = Rabs M + 1) by (unfold t; field; lra). pose proof (Rle_abs M) as HA.
    assert (t * (mu * nuc (outer a b)) <= t * (mu * (norm a * norm b))) by (apply Rmult_le_compat_l; lra). unfold dl in Hk. nra.
  - intro Hz. split.
    + intros r (y & _ & ->). pose proof (inner_nuc z mu y Hz). lra.
    + intros u Hu. apply (Hu 0). exists vzero. split; [exact I|]. rewrite inner_zero_r. replace (vzero : Vec (m * n)) with (0 [*] (vzero : Vec (m * n))) by vring. rewrite nuc_scal by lra. ring.
Qed.
End N.

(*! C97_nuclear_dual : proxdual of a Nuclear object with weight mu >= 0 (inherited from the base class): the Euclidean projection on the matrices
   without singular value above mu, for every matrix and tau > 0 *)
Lemma C97_nuclear_dual_l : forall m n (svd : svdT m n) (eig : eigT n) mu, (forall X, svd_at svd X) -> 0 <= mu -> forall X tau, 0 < tau ->
  exists Y, o_proxdual (obj 2 (nuclear_body svd eig (WNum mu))) X tau = Ok Y /\ is_proj (fun Z => spectral_le Z mu) X Y.
Proof.
  intros m n svd eig mu Hs Hm X tau Ht. destruct (default_proxdual (Vec (m * n)) 0 (nuclear_body svd eig (WNum mu)) (etot (fun Y => mu * nuc Y)) (indic (fun Z => spectral_le Z mu)) (nuclear_prox svd (WNum mu))) as [_ H]; auto.
  - apply nuc_convex_fun, Hm.
  - apply nuc_conj, Hm.
  - intros x t Ht'. destruct (nuc_op_prox svd eig mu Hs Hm x t Ht') as (p & E & Hp). cbn [obj o_prox d_prox nuclear_body b_prox] in E. rewrite check_tau_pos in E by exact Ht'. exists p. auto.
  - destruct (H X tau Ht) as (p & E & Hp). exists p. split; [exact E|]. apply (prox_indic_proj _ tau); assumption.
Qed.

(*! C97_certificate : when an array solves the completion problem: s, lam > 0, A bounded: X minimises s/2 |A X - b|^2 + lam |X|_nuclear exactly when
   no singular value of G = s A^T(b - A X) exceeds lam and <G, X> = lam |X|_nuclear; in particular the zero matrix is a solution exactly when no
   singular value of s A^T b exceeds lam *)
Lemma C97_certificate_l : forall m n (F : IPS) (A : linop (Vec (m * n)) F) b s lam C, 0 < s -> 0 < lam -> 0 <= C -> (forall v, norm2 (A v) <= C * norm2 v) ->
  (forall X r, is_nuclear X r -> let G := s [*] ladj A (b [-] A X) in completes A b s lam X <-> spectral_le G lam /\ << G, X >> = lam * r) /\
  (completes A b s lam vzero <-> spectral_le (s [*] ladj A b) lam).
Proof.
  intros m n F A b s lam C Hs Hl HC HA.
  assert (H : forall X r, is_nuclear X r -> let G := s [*] ladj A (b [-] A X) in completes A b s lam X <-> spectral_le G lam /\ << G, X >> = lam * r).
  { intros X r Hr G. apply nuc_is in Hr. subst r. rewrite <- (nuc_subgrad lam X G) by lra. rewrite completes_min.
    assert (EG : vopp (dsfit A b s X) = G). { unfold G, dsfit. rewrite !ladj_sub. vring. } rewrite <- EG. pose proof (sfit_grad A b s C HC HA X) as Hg. split; intro H.
    - apply min_sum_subgrad_grad with (f := sfit A b s); [exact Hg|apply nuc_convex_fun; lra|exact H].
    - apply min_sum_subgrad with (d := dsfit A b s X); [apply sfit_convex; lra|exact Hg|exact H]. }
  split; [exact H|]. assert (H0 : is_nuclear (vzero : Vec (m * n)) 0). { apply nuc_is. replace (vzero : Vec (m * n)) with (0 [*] (vzero : Vec (m * n))) by vring. rewrite nuc_scal by lra. ring. }
  specialize (H vzero 0 H0). cbv zeta in H. rewrite lapp_zero in H. replace (b [-] vzero) with b in H by vring. rewrite H. rewrite inner_zero_r. split; [intros [Ha _]; exact Ha|intro Ha; split; [exact Ha|ring]].
Qed.

Lemma level_nuc {m n} {F : IPS} (A : linop (Vec (m * n)) F) b s (g : efun (Vec (m * n))) lam : 0 < s -> 0 < lam -> (forall X, eval g X = lam * nuc X) -> level_bounded (eadd (etot (sfit A b s)) g).
Proof.
  intros Hs Hl Hg c. exists (c / lam). intros X _ Hc. cbn [eval eadd etot] in Hc. rewrite Hg in Hc. assert (0 <= sfit A b s X) by (unfold sfit; apply Rmult_le_pos; [lra|apply norm2_nonneg]).
  eapply Rle_trans; [apply norm_nuc|]. apply (Rmult_le_reg_l lam); [exact Hl|]. replace (lam * (c / lam)) with c by (field; lra). lra.
Qed.

(*! C97_solvers : low-rank matrix completion end to end: L2(A, b, s) and Nuclear(dims, sigma=mu) on real m x n matrices, s |A v|^2 <= L |v|^2, numpy's
   svd returning some singular value decomposition of every matrix. Whatever the start: (i) ProximalGradient without acceleration, 0 < eta < 2 - tau L/2,
   converges to a minimiser of s/2 |A X - b|^2 + eps mu |X|_nuclear; (ii) with acceleration, tau <= 1/L, the objective after N iterations is within
   2 |x0 - Z|^2 / (tau (N+1)^2) of its value at every minimiser Z; (iii) DouglasRachford and (iv) ADMM, either order, any tau, converge to a minimiser of the
   problem with lam = mu *)
Lemma C97_solvers_l : forall m n (F : IPS) (o : Op (Vec (m * n))) (A : linop (Vec (m * n)) F) b s L (svd : svdT m n) eig mu, is_L2 o A b s -> 0 < s -> 0 < L ->
  (forall v, s * norm2 (A v) <= L * norm2 v) -> (forall X, svd_at svd X) -> 0 < mu ->
  let g := obj 2 (nuclear_body svd eig (WNum mu)) in
  (forall x0 eps tau beta eta niterback accel, 0 < eps -> 0 < tau -> 0 < eta < 2 - tau * L / 2 -> unaccelerated accel eta ->
    exists xs l, (forall N, ProximalGradient o g x0 [eps] (Some tau) false beta eta (S N) niterback accel None = Ok (xs (S N), map xs (seq 1 (S N)))) /\ completes A b s (eps * mu) l /\ vcv xs l) /\
  (forall x0 eps tau beta N niterback accel, 0 < eps -> 0 < tau <= / L -> (1 <= N)%nat -> accel = Some "vandenberghe"%string \/ accel = Some "fista"%string ->
    exists x tr, ProximalGradient o g x0 [eps] (Some tau) false beta 1 N niterback accel None = Ok (x, tr) /\ List.length tr = N /\
      forall Z v w, completes A b s (eps * mu) Z -> is_completion A b s (eps * mu) Z v -> is_completion A b s (eps * mu) x w -> w - v <= 2 * norm2 (x0 [-] Z) / (tau * (INR N + 1)^2)) /\
  (forall x0 tau eta gfirst, 0 < tau -> 0 < eta < 2 ->
    exists xs ys l, (forall N, exists tr, DouglasRachford o g x0 tau eta (S N) gfirst = Ok (xs N, ys N, tr)) /\ completes A b s mu l /\ vcv xs l) /\
  (forall x0 tau gfirst, 0 < tau ->
    exists xs zs l, (forall N, exists tr, ADMM o g (Some x0) tau N None gfirst = Ok (xs N, zs N, tr)) /\ completes A b s mu l /\ vcv xs l /\ vcv zs l).
Proof.
  intros m n F o A b s L svd eig mu Ho Hs HL HA Hsvd Hm g. destruct (L2_facts o A b s Hs Ho) as (Ip & Ic & Ig).
  pose proof (nuc_op_prox svd eig mu Hsvd ltac:(lra)) as Gp. fold g in Gp. set (G := etot (fun Y : Vec (m * n) => mu * nuc Y)) in *.
  assert (CG : convex G) by (apply nuc_convex_fun; lra). assert (LG : closed G) by (apply closed_total; [exact (proj1 (proj2 C81_arrays_l) _)|exact CG]).
  assert (CF : convex (etot (sfit A b s))) by (apply sfit_convex; lra). assert (LF : closed (etot (sfit A b s))) by (apply closed_total; [exact (proj1 (proj2 C81_arrays_l) _)|exact CF]).
  assert (Hop : smooth_op o (sfit A b s) (dsfit A b s) L) by (exact (conj Ic (conj Ig (conj CF (conj HL (sfit_smooth A b s L Hs HL HA)))))).
  assert (HM : forall eps X, is_min (eadd (etot (sfit A b s)) (escal eps G)) X <-> completes A b s (eps * mu) X).
  { intros eps X. rewrite completes_min. split; intros [_ H]; split; try (split; exact I); intros Y _; specialize (H Y (conj I I)); cbn [eval eadd escal etot G] in *; rewrite ?Rmult_assoc in *; exact H. }
  assert (SP : forall x0 tau eta (gfirst : bool), 0 < tau -> 0 < eta < 2 ->
    (exists xs ys l, (forall N, exists tr, DouglasRachford o g x0 tau eta (S N) gfirst = Ok (xs N, ys N, tr)) /\ is_min (eadd (etot (sfit A b s)) G) l /\ vcv xs l) /\
    (exists xs zs l, (forall N, exists tr, ADMM o g (Some x0) tau N None gfirst = Ok (xs N, zs N, tr)) /\ is_min (eadd (etot (sfit A b s)) G) l /\ vcv xs l /\ vcv zs l)).
  { intros x0 tau eta gfirst Ht He. apply C85_splitting_l; auto; [exact (proj1 (proj2 C75_arrays_l) _)|exact (proj1 (proj2 C81_arrays_l) _)|exact (proj1 (proj1 (proj2 C85_arrays_l) _))|exact (proj2 (proj1 (proj2 C85_arrays_l) _))| |].
    - exists vzero. left. split; [exact I|]. exists 1. split; [lra|]. intros; exact I.
    - apply level_nuc with (lam := mu); auto. }
  split; [|split; [|split]].
  - intros x0 eps tau beta eta nb accel He Ht Heta Hac.
    destruct (proj1 C85_proximal_gradient_l (Vec (m * n)) o g (sfit A b s) (dsfit A b s) L G eps x0 tau beta eta nb accel) as (xs & l & _ & X1 & X2 & X3); auto; try exact (proj1 (proj2 C75_arrays_l) _); try exact (proj1 (proj1 (proj2 C85_arrays_l) _)); try exact (proj2 (proj1 (proj2 C85_arrays_l) _)).
    { apply level_nuc with (lam := eps * mu); [exact Hs|apply Rmult_lt_0_compat; auto|]. intro X. cbn [eval escal G etot]. ring. }
    exists xs, l. split; [exact X1|]. split; [apply HM, X2|exact X3].
  - intros x0 eps tau beta N nb accel He Ht HN Hac.
    destruct (C42_accelerated_rate_l (Vec (m * n)) o g (sfit A b s) (dsfit A b s) L G (fun _ => 0) eps x0 tau beta N nb accel None Hop Gp CG He Ht HN Hac ltac:(congruence)) as (x & tr & k & E & Hk & _ & Hk2 & _ & HR).
    specialize (Hk2 eq_refl). subst k. exists x, tr. split; [exact E|]. split; [exact Hk2|]. intros Z v w HZ Hv Hw. apply completion_val in Hv, Hw. subst v w.
    specialize (HR Z (proj2 (HM eps Z) HZ)). rewrite Hk2 in HR. cbn [eval eadd escal etot G] in HR. rewrite <- !Rmult_assoc in HR. exact HR.
  - intros x0 tau eta gfirst Ht He. destruct (SP x0 tau eta gfirst Ht He) as [(xs & ys & l & H1 & H2 & H3) _]. exists xs, ys, l. split; [exact H1|]. split; [apply completes_min, H2|exact H3].
  - intros x0 tau gfirst Ht. destruct (SP x0 tau 1 gfirst Ht ltac:(lra)) as [_ (xs & ys & l & H1 & H2 & H3)]. exists xs, ys, l. split; [exact H1|]. split; [apply completes_min, H2|exact H3].
Qed.

(** ** Hankel estimation *)
Section H.
Context {m n : nat} (r0 : nat) (hs hss : efun (Vec (m * n))) (H1 : is_conj (sq_on (lowrank (m:=m) (n:=n) r0)) hs) (H2 : is_conj hs hss).
Hypothesis Hr : (0 < r0)%nat.
Hypothesis Hm : (0 < m)%nat.
Lemma hs_top z : edom hs z -> exists s, 0 <= s /\ spectral_le z s /\ / 2 * (s * s) <= eval hs z.
Proof.
  intro Hz. destruct (top_triple m n z Hm) as (s & a & b & Hs & Hle & Hrest).
  destruct H1 as [_ H1']. destruct (H1' z) as [_ Hl]. destruct (Hl Hz) as [Hu _].
  exists s. split; [exact Hs|]. split; [exact Hle|].
  destruct Hrest as [->|(Ha & Hb & _ & Hab)].
  { assert (H0 : << z, vzero >> - eval (sq_on (lowrank (m:=m) (n:=n) r0)) vzero <= eval hs z).
    { apply Hu. exists vzero. split; [|reflexivity]. exists (fun _ => vzero), (fun _ => vzero). rewrite (VS_ext r0 _ (fun _ => vzero : Vec (m * n))); [symmetry; apply VS_zero|]. intros i _. apply mat_ext. intros a' b' Ha Hb. rewrite get_outer, !get_zero by auto. ring. }
    cbn [eval sq_on] in H0. unfold norm2 in H0. rewrite inner_zero_r, inner_zero_l in H0. lra. }
  assert (H0 : << z, s [*] outer a b >> - eval (sq_on (lowrank (m:=m) (n:=n) r0)) (s [*] outer a b) <= eval hs z).
  { apply Hu. eexists. split; [|reflexivity]. cbn [edom sq_on]. exists (fun i => if Nat.eqb i 0 then s [*] a else vzero), (fun _ => b). destruct r0 as [|r]; [lia|].
    assert (HV : forall j, VS (S j) (fun i => outer (if Nat.eqb i 0 then s [*] a else vzero) b) = s [*] outer a b); [|symmetry; apply HV]. induction j.
    - cbn [VS Nat.eqb]. rewrite outer_scal_l. vring.
    - change (VS (S j) (fun i => outer (if Nat.eqb i 0 then s [*] a else vzero) b) [+] outer (vzero : Vec m) b = s [*] outer a b). rewrite IHj. replace (vzero : Vec m) with (0 [*] (vzero : Vec m)) by vring. rewrite outer_scal_l. vring. }
  cbn [eval sq_on] in H0. rewrite inner_scal_r, inner_sym, Hab in H0. unfold norm2 in H0. rewrite inner_scal_l, inner_scal_r, outer_inner in H0. unfold norm2 in Ha, Hb. rewrite Ha, Hb in H0. lra.
Qed.
Lemma hss_everywhere x : edom hss x.
Proof.
  destruct H2 as [_ H2']. destruct (H2' x) as [Hd _]. apply Hd. exists (/ 2 * (nuc x * nuc x)). intros z Hz. destruct (hs_top z Hz) as (s & Hs & Hsp & Hv).
  pose proof (inner_nuc z s x Hsp) as Hi. rewrite (inner_sym x). pose proof (Rle_0_sqr (nuc x - s)) as Hq. unfold Rsqr in Hq. lra.
Qed.
End H.
Lemma hankel_zero m n : hankel_mat (vzero : Vec (m * n)).
Proof. intros i j i' j' _ _ _ _ _. rewrite !get_zero. reflexivity. Qed.

(*! C97_hankel : Hankel matrix estimation end to end: QuadraticEnvelopeRankL2(dims, r0, M) and Hankel(dims), 0 < r0 <= min(m, n), min(m, n) >= 3, Q the
   quadratic envelope of the rank constraint: whatever the start, tau and order, ADMM never fails, both arrays it returns converge to the same Hankel matrix l, which
   minimises Q(X) + |X - M|^2/2 over the Hankel matrices; if rank(l) <= r0 then l is a nearest Hankel matrix of rank <= r0 to M, and in every case
   Q(l) + |l - M|^2/2 is a lower bound of |Y - M|^2/2 over these matrices. The same for DouglasRachford *)
Lemma C97_hankel_l : forall argsort m n (svd : svdT m n) eig r0 M (Q : efun (Vec (m * n))) x0 tau gfirst, argsort_ok argsort -> (forall X, svd_at svd X) -> quad_env (lowrank r0) Q ->
  (0 < r0 <= Nat.min m n)%nat -> (3 <= Nat.min m n)%nat -> 0 < tau ->
  let f := obj 2 (rl_body argsort svd eig r0 M) in let g := obj 2 (hankel_body (m:=m) (n:=n)) in
  let solves l := hankel_mat l /\ (forall Y, edom Q Y) /\
      (forall Y, hankel_mat Y -> eval Q l + / 2 * norm2 (l [-] M) <= eval Q Y + / 2 * norm2 (Y [-] M)) /\
      (forall Y, hankel_mat Y -> lowrank r0 Y -> eval Q l + / 2 * norm2 (l [-] M) <= / 2 * norm2 (Y [-] M)) /\
      (lowrank r0 l -> forall Y, hankel_mat Y -> lowrank r0 Y -> norm (l [-] M) <= norm (Y [-] M)) in
  (exists xs zs l, (forall N, exists tr, ADMM f g (Some x0) tau N None gfirst = Ok (xs N, zs N, tr)) /\ vcv xs l /\ vcv zs l /\ solves l) /\
  (forall eta, 0 < eta < 2 -> exists xs ys l, (forall N, exists tr, DouglasRachford f g x0 tau eta (S N) gfirst = Ok (xs N, ys N, tr)) /\ vcv xs l /\ solves l).
Proof.
  intros argsort m n svd eig r0 M Q x0 tau gfirst HA Hsvd HQ Hr Hk Ht f g solves. pose proof HQ as (hs & hss & H1 & H2 & HD & HE).
  assert (Hall : forall x, edom hss x) by (intro x; apply (hss_everywhere r0 hs hss H1 H2); lia).
  assert (HQd : forall x, edom Q x) by (intro x; apply HD, Hall).
  assert (EP : forall x, eval (plus_ls Q M) x = eval hss x - << x, M >> + / 2 * norm2 M). { intro x. cbn [eval plus_ls]. rewrite HE by apply Hall. unfold norm2. iexp. field. }
  assert (CP : convex (plus_ls Q M)).
  { intros x y t _ _ Htt. split; [apply HQd|]. rewrite !EP. destruct (conj_convex hs hss H2 x y t (Hall x) (Hall y) Htt) as [_ HC]. rewrite inner_add_l, !inner_scal_l. lra. }
  assert (LP : closed (plus_ls Q M)).
  { apply (closed_ext (etot (eval (plus_ls Q M)))); [intro x; split; intro; [apply HQd|exact I]|reflexivity|]. apply closed_total; [exact (proj1 (proj2 C81_arrays_l) _)|].
    apply (convex_ext (plus_ls Q M)); [intro x; split; intro; [exact I|apply HQd]|reflexivity|exact CP]. }
  assert (If : impl_prox f (plus_ls Q M)). { intros x t Hp. destruct (C31_rank_prox_l argsort HA m n svd eig r0 M Q 1%nat x t HQ Hr Hp (Hsvd _) (or_introl Hk)) as (p & E & HP). exists p. split; [exact E|exact HP]. }
  assert (Ig : impl_prox g (indic hankel_mat)).
  { intros x t Hp. destruct (C26_prox_l m n x t Hp) as (p & E & HP & _). exists p. split; [cbn [g obj o_prox d_prox hankel_body b_prox]; rewrite check_tau_pos by exact Hp; exact E|]. apply proj_prox; auto. }
  assert (Cg : convex (indic (hankel_mat (m:=m) (n:=n)))).
  { intros x y t Hx Hy _. cbn [edom eval indic] in *. split; [|lra]. intros i j i' j' Hi Hj Hi' Hj' Es. rewrite !get_add, !get_scal by (apply flat_lt; auto). rewrite (Hx i j i' j'), (Hy i j i' j') by auto. reflexivity. }
  assert (Lg : closed (indic (hankel_mat (m:=m) (n:=n)))). { apply closed_proj. intro x. destruct (Ig x 1 Rlt_0_1) as (p & _ & Hp). exists p. exact Hp. }
  assert (Q0 : forall x, 0 <= eval Q x). { intro x. rewrite HE by apply Hall. pose proof (hss_ge (lowrank r0) hs hss H1 H2 x (Hall x)). lra. }
  assert (QL : forall x, lowrank r0 x -> eval Q x = 0) by (intros x Hx; apply (env_zero (lowrank r0) Q x HQ Hx)).
  assert (HL : level_bounded (eadd (plus_ls Q M) (indic hankel_mat))).
  { intro c. exists (norm M + (Rabs (2 * c) + 1)). intros x _ Hc. cbn [eval eadd plus_ls indic] in Hc. specialize (Q0 x). replace x with (M [+] (x [-] M)) by vring. eapply Rle_trans; [apply norm_triangle|]. apply Rplus_le_compat_l.
    apply norm_le_of_sq; [pose proof (Rabs_pos (2 * c)); lra|]. pose proof (Rle_abs (2 * c)). pose proof (Rabs_pos (2 * c)). assert (0 <= Rabs (2 * c) * Rabs (2 * c)) by (apply Rmult_le_pos; lra). lra. }
  assert (Hq : qualified2 (plus_ls Q M) (indic hankel_mat)). { exists vzero. right. split; [apply hankel_zero|]. exists 1. split; [lra|]. intros v _. apply HQd. }
  assert (HS : forall l, is_min (eadd (plus_ls Q M) (indic hankel_mat)) l -> solves l).
  { intros l [[_ Hl] Hmin]. assert (Hmin' : forall Y, hankel_mat Y -> eval Q l + / 2 * norm2 (l [-] M) <= eval Q Y + / 2 * norm2 (Y [-] M)).
    { intros Y HY. specialize (Hmin Y (conj (HQd Y) HY)). cbn [eval eadd plus_ls indic] in Hmin. lra. }
    assert (Hlow : forall Y, hankel_mat Y -> lowrank r0 Y -> eval Q l + / 2 * norm2 (l [-] M) <= / 2 * norm2 (Y [-] M)). { intros Y HY HYr. specialize (Hmin' Y HY). rewrite (QL Y HYr) in Hmin'. lra. }
    split; [exact Hl|]. split; [exact HQd|]. split; [exact Hmin'|]. split; [exact Hlow|]. intros Hlr Y HY HYr. specialize (Hlow Y HY HYr). rewrite (QL l Hlr) in Hlow. unfold norm. apply sqrt_le_1_alt. lra. }
  assert (HR : forall eta, 0 < eta < 2 -> (exists xs ys l, (forall N, exists tr, DouglasRachford f g x0 tau eta (S N) gfirst = Ok (xs N, ys N, tr)) /\ is_min (eadd (plus_ls Q M) (indic hankel_mat)) l /\ vcv xs l) /\
     (exists xs zs l, (forall N, exists tr, ADMM f g (Some x0) tau N None gfirst = Ok (xs N, zs N, tr)) /\ is_min (eadd (plus_ls Q M) (indic hankel_mat)) l /\ vcv xs l /\ vcv zs l)).
  { intros eta He. apply C85_splitting_l; auto; [exact (proj1 (proj2 C75_arrays_l) _)|exact (proj1 (proj2 C81_arrays_l) _)|exact (proj1 (proj1 (proj2 C85_arrays_l) _))|exact (proj2 (proj1 (proj2 C85_arrays_l) _))]. }
  split.
  - destruct (HR 1 ltac:(lra)) as [_ (xs & zs & l & X1 & X2 & X3 & X4)]. exists xs, zs, l. auto.
  - intros eta He. destruct (HR eta He) as [(xs & zs & l & X1 & X2 & X3) _]. exists xs, zs, l. auto.
Qed.

(** ** the balls *)
Lemma ball_run {E : IPS} (o g : Op E) (A : linop E E) b y eps x0 beta nb N : is_L2 o A b 1 -> (forall x, A x = x) ->
  o_prox g b (eps * 1) = Ok y -> exists tr, ProximalGradient o g x0 [eps] (Some 1) false beta 1 (S N) nb None None = Ok (y, tr).
Proof.
  intros Ho HI Ey. destruct (L2_facts o A b 1 ltac:(lra) Ho) as (_ & _ & Hgr).
  assert (Hadj : forall x, ladj A x = x). { intro x. apply norm2_sub_eq0. assert (H : forall w, << w, ladj A x >> = << w, x >>) by (intro w; rewrite <- ladj_spec, HI; reflexivity). unfold norm2. set (d := ladj A x [-] x). unfold d at 2. rewrite inner_sub_r, H. ring. }
  assert (Hb : forall x, x [-] 1 [*] dsfit A b 1 x = b) by (intro x; unfold dsfit; rewrite HI, Hadj; vext w0; ring).
  set (body := fun (j : nat) (s : pg_state E) =>
     xt <- pg_prox_step o g false beta 1 nb eps (pg_x s) (pg_y s) (pg_tau s) ;;
     let x := fst xt in Ok (PG x (x [+] 0 [*] (x [-] pg_x s)) (pg_t s) (snd xt) (pg_pfg s) (pg_tr s ++ [x]), false)).
  destruct (loop_seq body (fun _ s => pg_tau s = 1 /\ pg_y s = pg_x s) (fun _ s s' => pg_x s' = y) (PG x0 x0 1 1 None [])) as (st & S0 & Hrun & _ & HR); [auto| |].
  { intros j s [Hta Hy]. unfold body, pg_prox_step, get_grad.
    destruct (Reqb_spec 1 1) as [[_ ->]|[H1 _]]; [|lra]. rewrite Hy, Hta, Hgr. cbn [bind]. rewrite Hb, Ey. cbn [bind fst snd]. eexists. split; [reflexivity|]. cbn [pg_x pg_tr pg_tau pg_y]. split; [reflexivity|split; [reflexivity|vring]]. }
  unfold ProximalGradient. cbn [pg_epsg bind accel_known].
  rewrite (for_loop_ext _ body); [|intros j s Hj; unfold pg_body, getitem; rewrite nth_error_repeat by lia; reflexivity].
  rewrite Hrun. cbn [bind fst snd]. rewrite (HR N). eexists. reflexivity.
Qed.
Definition half11 : Vec (1 * 1) := vtab (1 * 1) (fun _ => 1 / 2).
Lemma nball_half svd maxiter xtol fuel tau : svd_at (m:=1) (n:=1) svd half11 -> (0 < fuel)%nat -> (2 <= maxiter)%nat -> 0 < xtol < 1 / 2 -> 0 < tau ->
  nball_prox svd 1 maxiter xtol fuel half11 tau = Ok (vtab (1 * 1) (fun _ => 1)) /\ nball_call svd 1 (1 / 10 ^ 5) half11 = true.
Proof.
  intros HX Hf Hm Hx Ht. unfold nball_prox, nball_call, svd_at in *. destruct (Rleb_spec tau 0) as [[? _]|[_ ->]]; [lra|]. destruct (svd half11) as [[U Sv] V]. cbn [fst snd] in HX.
  destruct HX as [[_ H0] [Hu [Hv EX]]]. change (Nat.min 1 1) with 1%nat in *. specialize (H0 0%nat ltac:(lia)).
  pose proof (Hu 0%nat 0%nat ltac:(lia) ltac:(lia)) as U1. pose proof (Hv 0%nat 0%nat ltac:(lia) ltac:(lia)) as V1. cbn [Nat.eqb] in U1, V1.
  assert (ES : get Sv 0 = 1 / 2).
  { assert (E : norm2 half11 = get Sv 0 * get Sv 0). { rewrite EX. unfold norm2. rewrite synth_same by auto. cbn [RS]. ring. }
    rewrite vec_norm2 in E. cbn [RS Nat.mul Nat.add] in E. unfold half11 in E. rewrite get_vtab in E by (cbn; lia).
    assert (E2 : (get Sv 0 - 1 / 2) * (get Sv 0 + 1 / 2) = 0) by lra. destruct (Rmult_integral _ _ E2); lra. }
  assert (E1 : Sv = half1). { apply vec_ext. intros i Hi. assert (i = 0%nat) by lia. subst i. rewrite ES. unfold half1. rewrite get_vtab by lia. reflexivity. }
  split.
  - destruct (C24_inside_refuted_l maxiter xtol fuel 1 1 Hf Hm Hx Rlt_0_1 Rlt_0_1) as [E2 _]. unfold l1ball_prox in E2. destruct (Rleb_spec 1 0) as [[? _]|[_ Er]]; [lra|]. rewrite Er in E2. rewrite E1, E2. cbn [bind]. f_equal.
    rewrite usv_synth. assert (E3 : synth 1 (get (vtab 1 (fun _ => 1) : Vec 1)) (colv U) (rowv V) = 2 [*] half11).
    { rewrite EX, E1. unfold synth. cbn [VS]. unfold half1. rewrite !get_vtab by lia. vfield. }
    rewrite E3. apply vec_ext. intros i Hi. rewrite get_scal by exact Hi. unfold half11. rewrite !get_vtab by exact Hi. lra.
  - cbn [RS]. rewrite ES. apply Rltb_true. lra.
Qed.
(*! C97_ball_refuted : with NuclearBall or L1Ball as the constraint, a minimiser inside the ball is never returned: L2(Op=identity, b=(1/2)) with radius 1 and the admissible step
   tau = 1 = 1/L: b itself is accepted by the ball and has misfit 0, but from every start, for every epsg > 0, every niter >= 1 (and whatever decomposition numpy's svd returns),
   ProximalGradient returns (1), whose misfit is 1/8 *)
Lemma C97_ball_refuted_l : forall maxiter xtol fuel eps beta niterback N, (0 < fuel)%nat -> (2 <= maxiter)%nat -> 0 < xtol < 1 / 2 -> 0 < eps ->
  (forall svd (o : Op (Vec (1 * 1))) (A : linop (Vec (1 * 1)) (Vec (1 * 1))) (b x0 : Vec (1 * 1)), get b 0 = 1 / 2 -> svd_at (m:=1) (n:=1) svd b -> (forall x, A x = x) -> is_L2 o A b 1 ->
    let g := obj 2 (nball_body (m:=1) (n:=1) svd 1 maxiter xtol fuel) in
    o_call g b = Ok (VBool true) /\ 1 / 2 * norm2 (A b [-] b) = 0 /\
    exists y tr, ProximalGradient o g x0 [eps] (Some 1) false beta 1 (S N) niterback None None = Ok (y, tr) /\ get y 0 = 1 /\ 1 / 2 * norm2 (A y [-] b) = 1 / 8) /\
  (forall (o : Op (Vec 1)) (A : linop (Vec 1) (Vec 1)) (b x0 : Vec 1), get b 0 = 1 / 2 -> (forall x, A x = x) -> is_L2 o A b 1 ->
    let g := obj 2 (l1ball_body 1 maxiter xtol fuel) in
    o_call g b = Ok (VBool true) /\ 1 / 2 * norm2 (A b [-] b) = 0 /\
    exists y tr, ProximalGradient o g x0 [eps] (Some 1) false beta 1 (S N) niterback None None = Ok (y, tr) /\ get y 0 = 1 /\ 1 / 2 * norm2 (A y [-] b) = 1 / 8).
Proof.
  intros maxiter xtol fuel eps beta nb N Hf Hm Hx He. assert (Het : 0 < eps * 1) by lra. split.
  - intros svd o A b x0 Hb0 Hsvd HI Ho g. assert (Eb : b = half11). { apply vec_ext. intros i Hi. assert (i = 0%nat) by (cbn in Hi; lia). subst i. rewrite Hb0. unfold half11. rewrite get_vtab by (cbn; lia). reflexivity. } subst b.
    destruct (nball_half svd maxiter xtol fuel (eps * 1) Hsvd Hf Hm Hx Het) as [E1 E2]. split; [cbn [g obj o_call d_call nball_body b_call]; rewrite E2; reflexivity|]. split; [rewrite HI, vsub_diag, norm2_zero; ring|].
    destruct (ball_run o g A half11 (vtab (1 * 1) (fun _ => 1)) eps x0 beta nb N Ho HI) as (tr & Er).
    { cbn [g obj o_prox d_prox nball_body b_prox]. rewrite check_tau_pos by exact Het. exact E1. }
    exists (vtab (1 * 1) (fun _ => 1)), tr. split; [exact Er|]. split; [rewrite get_vtab by (cbn; lia); reflexivity|]. rewrite HI, vec_norm2. cbn [RS Nat.mul Nat.add]. rewrite get_sub by (cbn; lia). unfold half11. rewrite !get_vtab by (cbn; lia). field.
  - intros o A b x0 Hb0 HI Ho g. assert (Eb : b = half1). { apply vec_ext. intros i Hi. assert (i = 0%nat) by lia. subst i. rewrite Hb0. unfold half1. rewrite get_vtab by lia. reflexivity. } subst b.
    destruct (C24_inside_refuted_l maxiter xtol fuel (eps * 1) (1 / 10 ^ 4) Hf Hm Hx Het ltac:(lra)) as (E1 & E2 & _). split; [cbn [g obj o_call d_call l1ball_body b_call]; rewrite E2; reflexivity|]. split; [rewrite HI, vsub_diag, norm2_zero; ring|].
    destruct (ball_run o g A half1 (vtab 1 (fun _ => 1)) eps x0 beta nb N Ho HI) as (tr & Er).
    { cbn [g obj o_prox d_prox l1ball_body b_prox]. rewrite check_tau_pos by exact Het. exact E1. }
    exists (vtab 1 (fun _ => 1)), tr. split; [exact Er|]. split; [rewrite get_vtab by lia; reflexivity|]. rewrite HI, vec_norm2. cbn [RS]. rewrite get_sub by lia. unfold half1. rewrite !get_vtab by lia. field.
Qed.

(** ** an instance *)
Lemma masked_adj n p (x y : Vec n) : << masked p x, y >> = << x, masked p y >>.
Proof. rewrite !vec_inner. apply RS_ext. intros i Hi. unfold masked. rewrite !get_vtab by exact Hi. destruct (p i); ring. Qed.
Definition mask_op n (p : nat -> bool) : linop (Vec n) (Vec n).
Proof.
  refine (mkLinop (Vec n) (Vec n) (masked p) (masked p) _ _ (masked_adj n p)).
  - intros x y. apply vec_ext. intros i Hi. rewrite get_add by exact Hi. unfold masked. rewrite !get_vtab by exact Hi. rewrite get_add by exact Hi. destruct (p i); ring.
  - intros a x. apply vec_ext. intros i Hi. rewrite get_scal by exact Hi. unfold masked. rewrite !get_vtab by exact Hi. rewrite get_scal by exact Hi. destruct (p i); ring.
Defined.
Lemma svd_total m n : exists svd : svdT m n, forall X, svd_at svd X.
Proof.
  destruct (functional_choice (fun (X : Vec (m * n)) (t : Vec (m * Nat.min m n) * Vec (Nat.min m n) * Vec (Nat.min m n * n)) => svd_at (fun _ => t) X)) as [f Hf].
  - intro X. destruct (svd_at_exists m n X) as [svd H]. exists (svd X). exact H.
  - exists f. exact Hf.
Qed.
Lemma dg_diag2 a b : dg a b = diag2 a b.
Proof.
  apply (mat_ext 2 2). intros i j Hi Hj. unfold diag2. rewrite get_synth by auto. cbn [RS]. unfold dg. rewrite get_vtab by (apply flat_lt; auto). unfold basis. rewrite !get_vtab by auto.
  destruct i as [|[|?]]; [| |lia]; (destruct j as [|[|?]]; [| |lia]); cbn; lra.
Qed.
(*!ex C97_example : for every shape some function returns a singular value decomposition of every matrix; for every shape, mask p and s > 0 an object L2(Op=mask, b, sigma=s) exists and L = s is
   admissible; with the two diagonal entries of a 2 x 2 matrix observed as 3 and 1, s = lam = 1, diag(2, 0), of rank one, is a solution and 0 is not; envelopes of the rank bound exist *)
Lemma C97_example_l : (forall m n, exists svd : svdT m n, forall X, svd_at svd X) /\
  (forall m n p (b : Vec (m * n)) s, 0 < s -> exists (o : Op (Vec (m * n))) A, is_L2 o A b s /\ (forall v, A v = masked p v) /\ forall v, s * norm2 (A v) <= s * norm2 v) /\
  (forall A : linop (Vec (2 * 2)) (Vec (2 * 2)), (forall v, A v = masked (fun i => Nat.eqb i 0 || Nat.eqb i 3)%bool v) -> completes (m:=2) (n:=2) A (dg 3 1) 1 1 (dg 2 0) /\ ~ completes (m:=2) (n:=2) A (dg 3 1) 1 1 vzero) /\
  (forall m n r0, (0 < r0 <= Nat.min m n)%nat -> exists Q : efun (Vec (m * n)), quad_env (lowrank r0) Q).
Proof.
  assert (HN : forall k p (v : Vec k), norm2 (masked p v) <= norm2 v). { intros k p v. rewrite !vec_norm2. apply RS_le. intros i Hi. unfold masked. rewrite get_vtab by exact Hi. pose proof (Rle_0_sqr (get v i)) as Hq. unfold Rsqr in Hq. destruct (p i); lra. }
  split; [exact svd_total|]. split; [|split].
  - intros m n p b s Hs. eexists. exists (mask_op (m * n) p). split; [apply (L2_exists (m * n) (Vec (m * n)) (mask_op (m * n) p) b s (mkL2 (WithOp (mask_op (m * n) p) true b) None 1 true (fun _ => 10%nat) true Legacy DenseDefault) None); reflexivity|].
    split; [reflexivity|]. intro v. apply Rmult_le_compat_l; [lra|]. apply HN.
  - intros A HA. set (p := fun i => (Nat.eqb i 0 || Nat.eqb i 3)%bool) in *.
    assert (Hadj : forall y, ladj A y = masked p y). { intro y. apply norm2_sub_eq0. assert (H : forall w, << w, ladj A y >> = << w, masked p y >>) by (intro w; rewrite <- ladj_spec, HA, masked_adj; reflexivity). unfold norm2. set (d := ladj A y [-] masked p y). unfold d at 2. rewrite inner_sub_r, H. ring. }
    assert (Hm : forall a b, masked p (dg a b) = dg a b). { intros a b. apply vec_ext. intros i Hi. unfold masked, dg. rewrite !get_vtab by exact Hi. destruct i as [|[|[|[|?]]]]; cbn in Hi |- *; try lia; reflexivity. }
    assert (Hd : forall a b c d, dg a b [-] dg c d = dg (a - c) (b - d)). { intros a b c d. apply vec_ext. intros i Hi. rewrite get_sub by exact Hi. unfold dg. rewrite !get_vtab by exact Hi. destruct i as [|[|[|[|?]]]]; cbn in Hi |- *; try lia; ring. }
    assert (Ho : forall (u w : Vec 2) a b, << outer u w, dg a b >> = a * (get u 0 * get w 0) + b * (get u 1 * get w 1)).
    { intros u w a b. rewrite vec_inner. change (2 * 2)%nat with 4%nat. cbn [RS]. unfold outer, dg. rewrite !get_vtab by (cbn; lia). cbn. ring. }
    destruct (C97_certificate_l 2 2 (Vec (2 * 2)) A (dg 3 1) 1 1 1 Rlt_0_1 Rlt_0_1 ltac:(lra)) as [HC HZ]; [intro v; rewrite HA, Rmult_1_l; apply HN|].
    assert (Hn : is_nuclear (m:=2) (n:=2) (dg 2 0) 2). { exists (pr2 2 0). split; [rewrite dg_diag2; apply diag2_vals; lra|]. cbn. lra. }
    split.
    + apply (HC (dg 2 0) 2 Hn). rewrite HA, Hm, Hd, Hadj, Hm. replace (1 [*] dg (3 - 2) (1 - 0)) with (dg 1 1) by (replace (3 - 2) with 1 by ring; replace (1 - 0) with 1 by ring; vring). split.
      * intros u w. rewrite Ho. replace (1 * (get u 0 * get w 0) + 1 * (get u 1 * get w 1)) with << u, w >> by (rewrite vec_inner; cbn [RS]; ring). rewrite Rmult_1_l. apply CS.
      * rewrite vec_inner. change (2 * 2)%nat with 4%nat. cbn [RS]. unfold dg. rewrite !get_vtab by (cbn; lia). cbn. ring.
    + intro H. apply HZ in H. specialize (H (basis 2 0) (basis 2 0)). rewrite Hadj, Hm in H. rewrite inner_scal_r, Ho in H. unfold norm in H. rewrite basis_norm in H by lia. rewrite sqrt_1 in H. unfold basis in H. rewrite !get_vtab in H by lia. cbn in H. lra.
  - exact rank_env_exists.
Qed.
