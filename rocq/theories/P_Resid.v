(** * Proofs about the size of the last change made by the solvers (M_PG.v, M_Split.v, M_PD.v, M_Breg.v) *)
From Coq Require Import String Psatz.
From Verif Require Import Base Space Spec VSum Sep ConvexFacts Smooth MatFacts M_ProxOp SpecOps P_ProxOp M_Norms P_Norms M_Loop LoopFacts LoopFacts2 SeqFacts M_PG M_Split M_PD M_Breg SplitMath S_PG2 P_PG P_PG2 P_PG3 P_Multi3 P_Split P_Split2 S_Split3 P_Split3 S_PD P_PD S_Seq Compact Fejer IterMath IterMath2 IterMath3 S_Iter P_Iter P_Iter2 S_Pnp PnpMath P_Pnp M_L1 S_L1 P_L1 M_L2 M_Objs S_Sparse P_Sparse S_Lasso P_Lasso S_Incons InconsMath P_Incons MetricMath S_Metric P_Metric.
Open Scope result_scope.
Open Scope R_scope.

(** ** averaged maps *)
Section A.
Context {E : IPS} (c : R) (T : E -> E) (w : nat -> E).
Hypothesis HT : averaged c T.
Hypothesis Hw : forall n, w (S n) = T (w n).
Lemma step_mono n : norm2 (w (S (S n)) [-] w (S n)) <= norm2 (w (S n) [-] w n).
Proof. destruct HT as [Hc H]. rewrite (Hw (S n)), (Hw n) at 1. specialize (H (w (S n)) (w n)). rewrite (Hw n) in H at 2. pose proof (norm2_nonneg (w (S n) [-] T (w (S n)) [-] (w n [-] T (w n)))). rewrite <- (Hw n) in *. nra. Qed.
Lemma step_le j n : norm2 (w (S (n + j)) [-] w (n + j)%nat) <= norm2 (w (S j) [-] w j).
Proof. induction n as [|n IH]; [apply Rle_refl|]. eapply Rle_trans; [apply step_mono|exact IH]. Qed.
Lemma step_rate s n : T s = s -> INR (S n) * (c * norm2 (w (S n) [-] w n)) <= norm2 (w 0%nat [-] s).
Proof.
  intro Hs. destruct HT as [Hc H].
  assert (G : forall k, (k <= n)%nat -> norm2 (w (S k) [-] s) + INR (S k) * (c * norm2 (w (S n) [-] w n)) <= norm2 (w 0%nat [-] s)).
  { assert (G1 : forall k, (k <= n)%nat -> norm2 (w (S k) [-] s) + c * norm2 (w (S n) [-] w n) <= norm2 (w k [-] s)).
    { intros k Hk. specialize (H (w k) s). rewrite Hs, <- Hw in H. replace (w k [-] w (S k) [-] (s [-] s)) with ((-1) [*] (w (S k) [-] w k)) in H by vring. rewrite norm2_scal in H.
      pose proof (step_le k (n - k)) as M. replace (n - k + k)%nat with n in M by lia. assert (c * norm2 (w (S n) [-] w n) <= c * norm2 (w (S k) [-] w k)) by (apply Rmult_le_compat_l; lra). lra. }
    induction k as [|k IH]; intro Hk.
    - pose proof (G1 0%nat Hk) as B. cbn [INR]. lra.
    - pose proof (IH ltac:(lia)) as B. pose proof (G1 (S k) Hk) as B1. rewrite S_INR. lra. }
  specialize (G n (le_n n)). pose proof (norm2_nonneg (w (S n) [-] s)). lra.
Qed.
End A.
Lemma norm_mono2 {E F : IPS} (a : E) (b : F) : norm2 a <= norm2 b -> norm a <= norm b.
Proof. intro H. unfold norm. apply sqrt_le_1_alt. exact H. Qed.
Lemma cs3 {E : IPS} (a b d : E) : norm a <= norm d -> << a, b >> <= norm d * norm b.
Proof. intro H. eapply Rle_trans; [apply Rle_abs|]. eapply Rle_trans; [apply CS_abs|]. apply Rmult_le_compat_r; [apply norm_nonneg|exact H]. Qed.
(** the subgradient inequality of a proximal point *)
Lemma prox_gap {E : IPS} (f : efun E) tau v p y : convex f -> 0 < tau -> is_prox f tau v p -> edom f y -> tau * (eval f p - eval f y) <= << v [-] p, p [-] y >>.
Proof.
  intros Hf Ht Hp Hy. destruct (prox_subgrad f tau v p Hf Ht Hp) as [_ H]. specialize (H y Hy). rewrite inner_scal_l in H. apply (Rmult_le_compat_l tau) in H; [|lra].
  replace (tau * (eval f p + / tau * << v [-] p, y [-] p >>)) with (tau * eval f p + << v [-] p, y [-] p >>) in H by (field; lra). replace (y [-] p) with ((-1) [*] (p [-] y)) in H by vring. rewrite inner_scal_r in H. lra.
Qed.
Lemma div_le t a b : 0 < t -> t * a <= b -> a <= b / t.
Proof. intros Ht H. apply (Rmult_le_reg_l t); [exact Ht|]. replace (t * (b / t)) with b by (field; lra). exact H. Qed.

(*! C105_proximal_point : f convex with exact prox, any step tau > 0 and start: ProximalPoint never raises; the distance between the iterates returned with niter = n and n + 1 never increases with n; it bounds the error of the last one,
   f(x_(n+1)) - f(y) <= |x_(n+1) - x_n| |x_(n+1) - y| / tau for every y in the domain; and if xo is a minimiser, (n + 1) |x_(n+1) - x_n|^2 <= |x0 - xo|^2 *)
Lemma C105_proximal_point_l : forall (E : IPS) (o : Op E) f x0 tau, impl_prox o f -> convex f -> 0 < tau ->
  exists xs, xs 0%nat = x0 /\ (forall n, ProximalPoint o x0 tau n None = Ok (xs n, map xs (seq 1 n))) /\
    (forall n, norm (xs (S (S n)) [-] xs (S n)) <= norm (xs (S n) [-] xs n)) /\
    (forall n y, edom f y -> edom f (xs (S n)) /\ eval f (xs (S n)) - eval f y <= norm (xs (S n) [-] xs n) * norm (xs (S n) [-] y) / tau) /\
    (forall n xo, is_min f xo -> INR (S n) * norm2 (xs (S n) [-] xs n) <= norm2 (x0 [-] xo)).
Proof.
  intros E o f x0 tau Ho Hf Ht. destruct (prox_map o f tau Ho Ht) as (P & EP & HP). destruct (pp_maps o P x0 tau EP) as (xs & X0 & Hrun & HR). pose proof (firm_averaged P (prox_firmly f tau P Hf Ht HP)) as HA.
  exists xs. split; [exact X0|]. split; [exact Hrun|]. split; [intro n; apply norm_mono2; apply (step_mono 1 P xs HA HR)|]. split.
  - intros n y Hy. pose proof (HP (xs n)) as Hp. rewrite <- HR in Hp. split; [apply Hp|]. apply div_le; [exact Ht|]. eapply Rle_trans; [apply (prox_gap f tau (xs n) (xs (S n)) y Hf Ht Hp Hy)|]. apply cs3. rewrite norm_sub_sym. apply Rle_refl.
  - intros n xo Hxo. pose proof (step_rate 1 P xs HA HR xo n) as H. rewrite X0, Rmult_1_l in H. apply H. apply (prox_unique f tau xo _ _ Hf Ht (HP xo)). apply min_prox_fix; auto.
Qed.

(** ** ProximalGradient *)
Lemma pg_gap {E : IPS} (f : E -> R) df L g eps tau x p y : convex (etot f) -> 0 < L -> L_smooth f df L -> convex g -> 0 < eps -> 0 < tau -> tau * L <= 2 -> is_prox g (eps * tau) (x [-] tau [*] df x) p -> edom g y ->
  f p + eps * eval g p - (f y + eps * eval g y) <= norm (p [-] x) * norm (p [-] y) / tau.
Proof.
  intros Hc HL Hs Hg He Ht Hb Hp Hy. apply div_le; [exact Ht|]. pose proof (prox_gap g (eps * tau) _ p y Hg (Rmult_lt_0_compat _ _ He Ht) Hp Hy) as H1.
  pose proof (convex_grad_ineq f p y (df p) Hc (proj1 Hs p)) as H2. replace (y [-] p) with ((-1) [*] (p [-] y)) in H2 by vring. rewrite inner_scal_r in H2. apply (Rmult_le_compat_l tau) in H2; [|lra].
  pose proof (step_nonexp f df L tau Hc HL Hs Ht Hb x p) as HN. cbv beta in HN. pose proof (cs3 _ (p [-] y) (x [-] p) HN) as H3. rewrite (norm_sub_sym p x). eapply Rle_trans; [|exact H3].
  replace (x [-] tau [*] df x [-] (p [-] tau [*] df p)) with ((x [-] tau [*] df x [-] p) [+] tau [*] df p) by vring. rewrite inner_add_l, inner_scal_l. lra.
Qed.
(*! C105_proximal_gradient : f convex with an L-Lipschitz gradient, g convex with exact prox, weight eps > 0, fixed step tau, no acceleration (or a relaxation eta, which disables it) and 0 < eta < 2 - tau L / 2: ProximalGradient never raises; the
   distance between the iterates returned with niter = n and n + 1 never increases with n; if xo minimises f + eps g, (n + 1) (2 - tau L / 2 - eta) |x_(n+1) - x_n|^2 <= eta |x0 - xo|^2; and without relaxation this distance bounds the error:
   F(x_(n+1)) - F(y) <= |x_(n+1) - x_n| |x_(n+1) - y| / tau for F = f + eps g and every y in its domain *)
Lemma C105_proximal_gradient_l : forall (E : IPS) (proxf proxg : Op E) f df L g x0 eps tau beta eta niterback accel,
  smooth_op proxf f df L -> impl_prox proxg g -> convex g -> 0 < eps -> 0 < tau -> 0 < eta < 2 - tau * L / 2 -> unaccelerated accel eta ->
  exists xs, xs 0%nat = x0 /\ (forall n, ProximalGradient proxf proxg x0 [eps] (Some tau) false beta eta (S n) niterback accel None = Ok (xs (S n), map xs (seq 1 (S n)))) /\
    (forall n, norm (xs (S (S n)) [-] xs (S n)) <= norm (xs (S n) [-] xs n)) /\
    (forall n xo, is_min (eadd (etot f) (escal eps g)) xo -> INR (S n) * (2 - tau * L / 2 - eta) * norm2 (xs (S n) [-] xs n) <= eta * norm2 (x0 [-] xo)) /\
    (eta = 1 -> forall n y, edom g y -> edom g (xs (S n)) /\ f (xs (S n)) + eps * eval g (xs (S n)) - (f y + eps * eval g y) <= norm (xs (S n) [-] xs n) * norm (xs (S n) [-] y) / tau).
Proof.
  intros E proxf proxg f df L g x0 eps tau beta eta nb accel (_ & Hgr & Hcv & HL & Hsm) Hg Cg He Ht Hn Ha. assert (Het : 0 < eps * tau) by (apply Rmult_lt_0_compat; assumption).
  destruct (prox_map proxg g (eps * tau) Hg Het) as (D & ED & HD). destruct (pg_maps proxf proxg df D eps x0 tau beta eta nb accel Hgr ED Ha) as (xs & X0 & Hrun & HR).
  pose proof (pgmap_averaged f df L tau eta D Hcv HL Hsm Ht Hn (prox_firmly g (eps * tau) D Cg Het HD)) as HA.
  exists xs. split; [exact X0|]. split; [exact Hrun|]. split; [intro n; apply norm_mono2; apply (step_mono _ _ xs HA HR)|]. split.
  - intros n xo Hxo. pose proof (step_rate _ _ xs HA HR xo n) as H. rewrite X0 in H. cbv beta in H. assert (Hf : D (xo [-] tau [*] df xo) = xo).
    { apply (prox_unique g (eps * tau) (xo [-] tau [*] df xo) _ _ Cg Het (HD _)). apply (pg_fix_min f df L g xo eps tau); auto. }
    rewrite Hf in H. specialize (H ltac:(vring)). apply (Rmult_le_compat_l eta) in H; [|lra]. eapply Rle_trans; [|exact H]. right. field. lra.
  - intros -> n y Hy. pose proof (HD (xs n [-] tau [*] df (xs n))) as Hp. replace (D (xs n [-] tau [*] df (xs n))) with (xs (S n)) in Hp by (rewrite HR; vring). split; [apply Hp|]. apply (pg_gap f df L g eps tau); auto. lra.
Qed.
(*! C105_denoiser_gradient : the same with the operator that PlugAndPlay builds around a firmly non-expansive denoiser D in the place of g: the distance between consecutive iterates never increases, and
   (n + 1) (2 - tau L / 2 - eta) |x_(n+1) - x_n|^2 <= eta |x0 - xo|^2 for every xo that a gradient step followed by the denoiser leaves unchanged *)
Lemma C105_denoiser_gradient_l : forall m fuel (proxf : Op (Vec m)) f df L den D dims x0 eps tau beta eta niterback accel,
  smooth_op proxf f df L -> 0 < eps -> 0 < tau -> 0 < eta < 2 - tau * L / 2 -> unaccelerated accel eta -> denoises den dims (eps * tau) D -> firm D ->
  exists xs, xs 0%nat = x0 /\ (forall n, PlugAndPlay (S fuel) (fun pf pg x0 => ProximalGradient pf pg x0 [eps] (Some tau) false beta eta (S n) niterback accel None) proxf den dims x0 = Ok (xs (S n), map xs (seq 1 (S n)))) /\
    (forall n, norm (xs (S (S n)) [-] xs (S n)) <= norm (xs (S n) [-] xs n)) /\
    (forall n xo, D (xo [-] tau [*] df xo) = xo -> INR (S n) * (2 - tau * L / 2 - eta) * norm2 (xs (S n) [-] xs n) <= eta * norm2 (x0 [-] xo)).
Proof.
  intros m fuel proxf f df L den D dims x0 eps tau beta eta nb accel (_ & Hgr & Hcv & HL & Hsm) He Ht Hn Ha Hden HD. assert (Het : 0 < eps * tau) by (apply Rmult_lt_0_compat; assumption).
  destruct (pg_maps proxf (obj (S fuel) (denoise_body den dims)) df D eps x0 tau beta eta nb accel Hgr (denoise_prox fuel den dims (eps * tau) D Het Hden) Ha) as (xs & X0 & Hrun & HR).
  pose proof (pgmap_averaged f df L tau eta D Hcv HL Hsm Ht Hn HD) as HA.
  exists xs. split; [exact X0|]. split; [exact Hrun|]. split; [intro n; apply norm_mono2; apply (step_mono _ _ xs HA HR)|].
  intros n xo Hf. pose proof (step_rate _ _ xs HA HR xo n) as H. rewrite X0 in H. cbv beta in H. rewrite Hf in H. specialize (H ltac:(vring)). apply (Rmult_le_compat_l eta) in H; [|lra]. eapply Rle_trans; [|exact H]. right. field. lra.
Qed.

(** ** ADMM *)
Lemma firm_split {E : IPS} (A : E -> E) v w : firm A -> norm2 ((v [-] A v) [-] (w [-] A w)) + norm2 (A v [-] A w) <= norm2 (v [-] w).
Proof. intro H. specialize (H v w). replace (v [-] A v [-] (w [-] A w)) with ((v [-] w) [-] (A v [-] A w)) by vring. rewrite norm2_sub, (inner_sym (v [-] w)). lra. Qed.
Section AD.
Context {E : IPS} (P D : E -> E) (gfirst : bool) (xs zs us : nat -> E).
Hypothesis HP : firm P.
Hypothesis HD : firm D.
Hypothesis HR : forall j, us (S j) = us j [+] xs (S j) [-] zs (S j) /\
  (if gfirst then zs (S j) = D (xs j [+] us j) /\ xs (S j) = P (zs (S j) [-] us j) else xs (S j) = P (zs j [-] us j) /\ zs (S j) = D (xs (S j) [+] us j)).
Let w (k : nat) : E := if gfirst then zs (S k) [-] us k else xs (S k) [+] us k.
Let T : E -> E := if gfirst then DRmap 1 P D else DRmap 1 D P.
Lemma ad_av : averaged 1 T.
Proof. replace 1 with ((2 - 1) / 1) at 1 by field. unfold T. destruct gfirst; apply DRmap_averaged; auto; lra. Qed.
Lemma ad_w k : w (S k) = T (w k).
Proof.
  unfold w, T. destruct (HR k) as (H3 & H). destruct (HR (S k)) as (_ & G). destruct gfirst; destruct H as [H1 H2], G as [G1 G2]; unfold DRmap; rewrite <- H2.
  - replace (2 [*] xs (S k) [-] (zs (S k) [-] us k)) with (xs (S k) [+] us (S k)) by (rewrite H3; vring). rewrite <- G1, H3. vring.
  - replace (2 [*] zs (S k) [-] (xs (S k) [+] us k)) with (zs (S k) [-] us (S k)) by (rewrite H3; vring). rewrite <- G1, H3. vring.
Qed.
Lemma ad_diff k : w (S k) [-] w k = if gfirst then zs (S (S k)) [-] xs (S k) else xs (S (S k)) [-] zs (S k).
Proof. unfold w. destruct (HR k) as (H3 & _). destruct gfirst; rewrite H3; vring. Qed.
Lemma ad_split k : norm2 (xs (S (S k)) [-] zs (S (S k))) + norm2 (if gfirst then xs (S (S k)) [-] xs (S k) else zs (S (S k)) [-] zs (S k)) <= norm2 (w (S k) [-] w k).
Proof.
  unfold w. destruct (HR k) as (H3 & H). destruct (HR (S k)) as (G3 & G). destruct gfirst; destruct H as [H1 H2], G as [G1 G2].
  - pose proof (firm_split P (zs (S (S k)) [-] us (S k)) (zs (S k) [-] us k) HP) as K. rewrite <- G2, <- H2 in K. replace (zs (S (S k)) [-] us (S k) [-] xs (S (S k)) [-] (zs (S k) [-] us k [-] xs (S k))) with ((-1) [*] (xs (S (S k)) [-] zs (S (S k)))) in K by (rewrite H3; vring). rewrite norm2_scal in K. lra.
  - pose proof (firm_split D (xs (S (S k)) [+] us (S k)) (xs (S k) [+] us k) HD) as K. rewrite <- G2, <- H2 in K. replace (xs (S (S k)) [+] us (S k) [-] zs (S (S k)) [-] (xs (S k) [+] us k [-] zs (S k))) with (xs (S (S k)) [-] zs (S (S k))) in K by (rewrite H3; vring). exact K.
Qed.
Lemma ad_rate s k : T s = s -> INR (S k) * (norm2 (xs (S (S k)) [-] zs (S (S k))) + norm2 (if gfirst then xs (S (S k)) [-] xs (S k) else zs (S (S k)) [-] zs (S k))) <= norm2 (w 0%nat [-] s).
Proof.
  intro Hs. pose proof (step_rate 1 T w ad_av ad_w s k Hs) as H. eapply Rle_trans; [|exact H]. rewrite Rmult_1_l. apply Rmult_le_compat_l; [apply pos_INR|]. apply ad_split.
Qed.
Lemma ad_mono k : norm (if gfirst then zs (S (S (S k))) [-] xs (S (S k)) else xs (S (S (S k))) [-] zs (S (S k))) <= norm (if gfirst then zs (S (S k)) [-] xs (S k) else xs (S (S k)) [-] zs (S k)).
Proof. rewrite <- (ad_diff (S k)), <- (ad_diff k). apply norm_mono2. apply (step_mono 1 T w ad_av ad_w). Qed.
End AD.
Lemma ad_usum {E : IPS} (xs zs us : nat -> E) : us 0%nat = vzero -> (forall j, us (S j) = us j [+] xs (S j) [-] zs (S j)) -> forall n, us n = VS n (fun j => xs (S j) [-] zs (S j)).
Proof. intros H0 H. induction n as [|n IH]; [exact H0|]. rewrite H, IH. cbn [VS]. vring. Qed.
Lemma kkt_bal {E : IPS} (f g : efun E) tau D x u : convex f -> convex g -> 0 < tau -> (forall v, is_prox g tau v (D v)) -> kkt f g x u -> balanced f tau D x ((- tau) [*] u).
Proof.
  intros Cf Cg Ht HD [H1 H2]. split.
  - apply prox_iff_subgrad; auto. replace (/ tau [*] (x [-] (- tau) [*] u [-] x)) with u by (vfield; lra). exact H1.
  - apply (prox_unique g tau _ _ _ Cg Ht (HD _)). apply prox_iff_subgrad; auto. replace (/ tau [*] (x [+] (- tau) [*] u [-] x)) with (vopp u) by (vfield; lra). exact H2.
Qed.
(*! C105_admm : f and g convex with exact prox, any tau > 0, either guess, either order: ADMM never raises. Write r for x - z and s for the change of the vector computed last (z, or x when gfirst) over the last iteration. The two residuals are
   small on the last iterate, not only on average: (n + 1) (|r|^2 + |s|^2) <= |(first x or z computed) - (xo -+ tau u)|^2 after n + 2 iterations, for every xo with multiplier u; the distance between the vector computed first and the one
   computed last of the previous iteration never increases; and the residuals bound the error: for every y in the domain, tau (f(x) + g(z) - f(y) - g(y)) <= |s| |(vector computed first) - y| + |sum of all r| |r| *)
Lemma C105_admm_l : forall (E : IPS) (proxf proxg : Op E) f g x0 z0 x z tau (gfirst : bool),
  impl_prox proxf f -> impl_prox proxg g -> convex f -> convex g -> 0 < tau -> x0z0_init x0 z0 = Ok (x, z) ->
  exists xs zs, (forall n, exists tr, ADMM proxf proxg x0 tau n z0 gfirst = Ok (xs n, zs n, tr)) /\
    (forall n xo u, kkt f g xo u -> INR (S n) * (norm2 (xs (S (S n)) [-] zs (S (S n))) + norm2 (if gfirst then xs (S (S n)) [-] xs (S n) else zs (S (S n)) [-] zs (S n))) <=
       norm2 (if gfirst then zs 1%nat [-] (xo [+] tau [*] u) else xs 1%nat [-] (xo [-] tau [*] u))) /\
    (forall n, norm (if gfirst then zs (S (S (S n))) [-] xs (S (S n)) else xs (S (S (S n))) [-] zs (S (S n))) <= norm (if gfirst then zs (S (S n)) [-] xs (S n) else xs (S (S n)) [-] zs (S n))) /\
    (forall n y, edom f y -> edom g y -> edom f (xs (S n)) /\ edom g (zs (S n)) /\
       eval f (xs (S n)) + eval g (zs (S n)) - (eval f y + eval g y) <=
         ((if gfirst then norm (xs (S n) [-] xs n) * norm (zs (S n) [-] y) else norm (zs (S n) [-] zs n) * norm (xs (S n) [-] y))
          + norm (VS (S n) (fun j => xs (S j) [-] zs (S j))) * norm (xs (S n) [-] zs (S n))) / tau).
Proof.
  intros E proxf proxg f g x0 z0 x z tau gfirst Hf Hg Cf Cg Ht Hi. destruct (prox_map proxf f tau Hf Ht) as (P & EP & HP). destruct (prox_map proxg g tau Hg Ht) as (D & ED & HD).
  destruct (admm_maps proxf proxg P D tau EP ED x0 z0 gfirst x z Hi) as (xs & zs & us & _ & _ & U0 & Hrun & HR). pose proof (prox_firmly f tau P Cf Ht HP) as FP. pose proof (prox_firmly g tau D Cg Ht HD) as FD.
  exists xs, zs. split; [exact Hrun|]. split; [|split].
  - intros n xo u K. destruct (bal_fix f tau P D xo ((- tau) [*] u) Cf Ht HP (kkt_bal f g tau D xo u Cf Cg Ht HD K)) as (_ & _ & B1 & B2 & _).
    pose proof (ad_rate P D gfirst xs zs us FP FD HR) as H. destruct gfirst.
    + specialize (H _ n B2). cbv beta zeta in H. rewrite U0 in H. replace (zs 1%nat [-] vzero [-] (xo [-] (- tau) [*] u)) with (zs 1%nat [-] (xo [+] tau [*] u)) in H by vring. exact H.
    + specialize (H _ n B1). cbv beta zeta in H. rewrite U0 in H. replace (xs 1%nat [+] vzero [-] (xo [+] (- tau) [*] u)) with (xs 1%nat [-] (xo [-] tau [*] u)) in H by vring. exact H.
  - intro n. apply (ad_mono P D gfirst xs zs us FP FD HR).
  - intros n y Hy1 Hy2. rewrite <- (ad_usum xs zs us U0 (fun j => proj1 (HR j))). destruct (HR n) as (H3 & H). destruct gfirst; destruct H as [H1 H2].
    + pose proof (HD (xs n [+] us n)) as G1. rewrite <- H1 in G1. pose proof (HP (zs (S n) [-] us n)) as G2. rewrite <- H2 in G2. split; [apply G2|]. split; [apply G1|]. apply div_le; [exact Ht|].
      pose proof (prox_gap g tau _ _ y Cg Ht G1 Hy2) as K1. pose proof (prox_gap f tau _ _ y Cf Ht G2 Hy1) as K2.
      replace (xs n [+] us n [-] zs (S n)) with ((xs n [-] xs (S n)) [+] us (S n)) in K1 by (rewrite H3; vring). replace (zs (S n) [-] us n [-] xs (S n)) with ((-1) [*] us (S n)) in K2 by (rewrite H3; vring).
      rewrite inner_add_l in K1. rewrite inner_scal_l in K2. pose proof (cs3 (xs n [-] xs (S n)) (zs (S n) [-] y) (xs (S n) [-] xs n) ltac:(rewrite norm_sub_sym; apply Rle_refl)) as C1. pose proof (cs3 (us (S n)) (zs (S n) [-] xs (S n)) (us (S n)) (Rle_refl _)) as C2.
      rewrite (norm_sub_sym (zs (S n)) (xs (S n))) in C2. replace (zs (S n) [-] xs (S n)) with ((zs (S n) [-] y) [-] (xs (S n) [-] y)) in C2 by vring. rewrite inner_sub_r in C2. lra.
    + pose proof (HP (zs n [-] us n)) as G1. rewrite <- H1 in G1. pose proof (HD (xs (S n) [+] us n)) as G2. rewrite <- H2 in G2. split; [apply G1|]. split; [apply G2|]. apply div_le; [exact Ht|].
      pose proof (prox_gap f tau _ _ y Cf Ht G1 Hy1) as K1. pose proof (prox_gap g tau _ _ y Cg Ht G2 Hy2) as K2.
      replace (zs n [-] us n [-] xs (S n)) with ((zs n [-] zs (S n)) [-] us (S n)) in K1 by (rewrite H3; vring). replace (xs (S n) [+] us n [-] zs (S n)) with (us (S n)) in K2 by (rewrite H3; vring).
      rewrite inner_sub_l in K1. pose proof (cs3 (zs n [-] zs (S n)) (xs (S n) [-] y) (zs (S n) [-] zs n) ltac:(rewrite norm_sub_sym; apply Rle_refl)) as C1. pose proof (cs3 (us (S n)) (zs (S n) [-] xs (S n)) (us (S n)) (Rle_refl _)) as C2.
      rewrite (norm_sub_sym (zs (S n)) (xs (S n))) in C2. replace (zs (S n) [-] xs (S n)) with ((zs (S n) [-] y) [-] (xs (S n) [-] y)) in C2 by vring. rewrite inner_sub_r in C2. lra.
Qed.
(*! C105_denoiser_admm : PlugAndPlay with ADMM and a firmly non-expansive denoiser D: the same two residuals satisfy (n + 1) (|r|^2 + |s|^2) <= |(first x or z computed) - (xo +- u)|^2 after n + 2 iterations, for every balanced pair (xo, u), and
   the distance between the vector computed first and the one computed last of the previous iteration never increases *)
Lemma C105_denoiser_admm_l : forall m fuel (proxf : Op (Vec m)) f den D dims x0 tau z0 (gfirst : bool),
  impl_prox proxf f -> convex f -> 0 < tau -> denoises den dims tau D -> firm D ->
  exists xs zs, (forall n, exists tr, PlugAndPlay_default (S fuel) proxf den dims x0 tau n z0 gfirst = Ok (xs n, zs n, tr)) /\
    (forall n xo u, balanced f tau D xo u -> INR (S n) * (norm2 (xs (S (S n)) [-] zs (S (S n))) + norm2 (if gfirst then xs (S (S n)) [-] xs (S n) else zs (S (S n)) [-] zs (S n))) <=
       norm2 (if gfirst then zs 1%nat [-] (xo [-] u) else xs 1%nat [-] (xo [+] u))) /\
    (forall n, norm (if gfirst then zs (S (S (S n))) [-] xs (S (S n)) else xs (S (S (S n))) [-] zs (S (S n))) <= norm (if gfirst then zs (S (S n)) [-] xs (S n) else xs (S (S n)) [-] zs (S n))).
Proof.
  intros m fuel proxf f den D dims x0 tau z0 gfirst Hpf Hf Ht Hden FD. destruct (prox_map proxf f tau Hpf Ht) as (P & EP & HP). pose proof (prox_firmly f tau P Hf Ht HP) as FP.
  destruct (admm_maps proxf (obj (S fuel) (denoise_body den dims)) P D tau EP (denoise_prox fuel den dims tau D Ht Hden) (Some x0) z0 gfirst x0 (match z0 with Some z => z | None => x0 end)) as (xs & zs & us & _ & _ & U0 & Hrun & HR); [destruct z0; reflexivity|].
  exists xs, zs. split; [exact Hrun|]. split; [|intro n; apply (ad_mono P D gfirst xs zs us FP FD HR)].
  intros n xo u K. destruct (bal_fix f tau P D xo u Hf Ht HP K) as (_ & _ & B1 & B2 & _). pose proof (ad_rate P D gfirst xs zs us FP FD HR) as H. destruct gfirst.
  - specialize (H _ n B2). cbv beta zeta in H. rewrite U0 in H. replace (zs 1%nat [-] vzero) with (zs 1%nat) in H by vring. exact H.
  - specialize (H _ n B1). cbv beta zeta in H. rewrite U0 in H. replace (xs 1%nat [+] vzero) with (xs 1%nat) in H by vring. exact H.
Qed.

(** ** DouglasRachfordSplitting *)
(*! C105_douglas_rachford : f and g convex with exact prox, any tau > 0 and 0 < eta < 2, either order: besides what C49 says about its size and monotonicity, the distance between the two proximal points x and p of an iteration bounds the
   error: with y the auxiliary vector before that iteration, the next one being y + eta (p - x), and x the point returned, tau (f + g at the two points - f(v) - g(v)) <= |p - x| |y - x + p - v| for every v in the domain *)
Lemma C105_douglas_rachford_l : forall (E : IPS) (proxf proxg : Op E) f g x0 tau eta (gfirst : bool),
  impl_prox proxf f -> impl_prox proxg g -> convex f -> convex g -> 0 < tau -> 0 < eta < 2 ->
  exists xs ps ys, ys 0%nat = x0 /\ (forall n, exists tr, DouglasRachford proxf proxg x0 tau eta (S n) gfirst = Ok (xs n, ys (S n), tr)) /\ (forall n, ys (S n) = ys n [+] eta [*] (ps n [-] xs n)) /\
    (forall n, norm (ps (S n) [-] xs (S n)) <= norm (ps n [-] xs n)) /\
    (forall n v, edom f v -> edom g v -> (if gfirst then edom f (ps n) /\ edom g (xs n) else edom f (xs n) /\ edom g (ps n)) /\
       (if gfirst then eval f (ps n) + eval g (xs n) else eval f (xs n) + eval g (ps n)) - (eval f v + eval g v) <= norm (ps n [-] xs n) * norm ((ys n [-] xs n) [+] (ps n [-] v)) / tau).
Proof.
  intros E proxf proxg f g x0 tau eta gfirst Hf Hg Cf Cg Ht He. destruct (prox_map proxf f tau Hf Ht) as (P & EP & HP). destruct (prox_map proxg g tau Hg Ht) as (D & ED & HD).
  destruct (dr_maps proxf proxg P D tau EP ED x0 eta gfirst) as (xs & ys & Y0 & Hrun & HR). pose proof (prox_firmly f tau P Cf Ht HP) as FP. pose proof (prox_firmly g tau D Cg Ht HD) as FD.
  set (ps := fun n => if gfirst then P (2 [*] xs n [-] ys n) else D (2 [*] xs n [-] ys n)). exists xs, ps, ys. split; [exact Y0|]. split; [exact Hrun|].
  assert (Hy : forall n, ys (S n) = ys n [+] eta [*] (ps n [-] xs n)). { intro n. specialize (HR n). unfold ps. destruct gfirst; destruct HR as [H1 H2]; rewrite H2; unfold DRmap; rewrite <- H1; reflexivity. }
  split; [exact Hy|]. split.
  - intro n. assert (HA : averaged ((2 - eta) / eta) (if gfirst then DRmap eta D P else DRmap eta P D)) by (destruct gfirst; apply DRmap_averaged; auto).
    assert (Q : forall k, norm2 (ys (S k) [-] ys k) = eta * eta * norm2 (ps k [-] xs k)) by (intro k; rewrite Hy; replace (ys k [+] eta [*] (ps k [-] xs k) [-] ys k) with (eta [*] (ps k [-] xs k)) by vring; apply norm2_scal).
    pose proof (step_mono _ _ ys HA ltac:(intro k; specialize (HR k); destruct gfirst; apply HR) n) as H'. rewrite !Q in H'. apply norm_mono2. apply (Rmult_le_reg_l (eta * eta)); [nra|exact H'].
  - intros n v V1 V2. specialize (HR n). unfold ps. destruct gfirst; destruct HR as [H1 _].
    + pose proof (HD (ys n)) as K1. rewrite <- H1 in K1. pose proof (HP (2 [*] xs n [-] ys n)) as K2. set (p := P (2 [*] xs n [-] ys n)) in *. split; [split; [apply K2|apply K1]|]. apply div_le; [exact Ht|].
      pose proof (prox_gap g tau _ _ v Cg Ht K1 V2) as G1. pose proof (prox_gap f tau _ _ v Cf Ht K2 V1) as G2. pose proof (cs3 (xs n [-] p) ((ys n [-] xs n) [+] (p [-] v)) (p [-] xs n) ltac:(rewrite norm_sub_sym; apply Rle_refl)) as C1. rewrite inner_add_r in C1.
      assert (Q : << ys n [-] xs n, xs n [-] v >> + << 2 [*] xs n [-] ys n [-] p, p [-] v >> = << xs n [-] p, ys n [-] xs n >> + << xs n [-] p, p [-] v >>) by iring. lra.
    + pose proof (HP (ys n)) as K1. rewrite <- H1 in K1. pose proof (HD (2 [*] xs n [-] ys n)) as K2. set (p := D (2 [*] xs n [-] ys n)) in *. split; [split; [apply K1|apply K2]|]. apply div_le; [exact Ht|].
      pose proof (prox_gap f tau _ _ v Cf Ht K1 V1) as G1. pose proof (prox_gap g tau _ _ v Cg Ht K2 V2) as G2. pose proof (cs3 (xs n [-] p) ((ys n [-] xs n) [+] (p [-] v)) (p [-] xs n) ltac:(rewrite norm_sub_sym; apply Rle_refl)) as C1. rewrite inner_add_r in C1.
      assert (Q : << ys n [-] xs n, xs n [-] v >> + << 2 [*] xs n [-] ys n [-] p, p [-] v >> = << xs n [-] p, ys n [-] xs n >> + << xs n [-] p, p [-] v >>) by iring. lra.
Qed.

(** ** PrimalDual *)
Section PDsec.
Context {E F : IPS} (A : linop E F) (tau mu kappa : R) (P : E -> E) (Q : F -> F) (z : E).
Hypothesis Ht : 0 < tau.
Hypothesis Hm : 0 < mu.
Hypothesis Hk : 0 <= kappa < 1.
Hypothesis HA : forall a, tau * mu * norm2 (lapp A a) <= kappa * norm2 a.
Hypothesis HP : firm P.
Hypothesis HQ : firm Q.
Lemma m_metric a b : norm2 (up A tau mu kappa Ht Hm Hk HA (a, b)) = 2 * pd_metric A tau mu a b.
Proof. unfold norm2 at 1. change (minner A tau mu (a, b) (a, b) = 2 * pd_metric A tau mu a b). unfold minner, pd_metric, pd_dist. cbn [fst snd]. unfold norm2. field. lra. Qed.
Lemma m_metric_norm a b : norm (up A tau mu kappa Ht Hm Hk HA (a, b)) = sqrt (2 * pd_metric A tau mu a b).
Proof. unfold norm. rewrite m_metric. reflexivity. Qed.
Section run.
Variables (xs : nat -> E) (ys : nat -> F).
Hypothesis HR : forall j, pd_step A tau mu P Q z (xs j) (ys j) (xs (S j)) (ys (S j)).
Let w : nat -> MIPS A tau mu kappa Ht Hm Hk HA := fun n => (xs n, ys n).
Let T := pdmap A tau mu kappa Ht Hm Hk HA P Q z.
Lemma pdw n : w (S n) = T (w n).
Proof. destruct (HR n) as [H1 H2]. unfold w, T, pdmap. cbn [fst snd]. rewrite <- H1. f_equal. exact H2. Qed.
Lemma pd_mono n : pd_metric A tau mu (xs (S (S n)) [-] xs (S n)) (ys (S (S n)) [-] ys (S n)) <= pd_metric A tau mu (xs (S n) [-] xs n) (ys (S n) [-] ys n).
Proof.
  pose proof (step_mono 1 T w (firm_averaged T (pdmap_firm A tau mu kappa Ht Hm Hk HA P Q z HP HQ)) pdw n) as H.
  pose proof (m_metric (xs (S (S n)) [-] xs (S n)) (ys (S (S n)) [-] ys (S n))) as H1. pose proof (m_metric (xs (S n) [-] xs n) (ys (S n) [-] ys n)) as H2.
  change (norm2 (E:=MIPS A tau mu kappa Ht Hm Hk HA) (w (S (S n)) [-] w (S n)) = 2 * pd_metric A tau mu (xs (S (S n)) [-] xs (S n)) (ys (S (S n)) [-] ys (S n))) in H1. change (norm2 (E:=MIPS A tau mu kappa Ht Hm Hk HA) (w (S n) [-] w n) = 2 * pd_metric A tau mu (xs (S n) [-] xs n) (ys (S n) [-] ys n)) in H2. lra.
Qed.
Lemma pd_rate n xo yo : pd_fix A tau mu P Q z xo yo -> INR (S n) * pd_metric A tau mu (xs (S n) [-] xs n) (ys (S n) [-] ys n) <= pd_metric A tau mu (xs 0%nat [-] xo) (ys 0%nat [-] yo).
Proof.
  intro Hf. pose proof (step_rate 1 T w (firm_averaged T (pdmap_firm A tau mu kappa Ht Hm Hk HA P Q z HP HQ)) pdw ((xo, yo) : MIPS A tau mu kappa Ht Hm Hk HA) n (proj1 (pd_fix_iff A tau mu kappa P Q z Ht Hm Hk HA xo yo) Hf)) as H.
  pose proof (m_metric (xs (S n) [-] xs n) (ys (S n) [-] ys n)) as H2. pose proof (m_metric (xs 0%nat [-] xo) (ys 0%nat [-] yo)) as H1.
  change (norm2 (E:=MIPS A tau mu kappa Ht Hm Hk HA) (w (S n) [-] w n) = 2 * pd_metric A tau mu (xs (S n) [-] xs n) (ys (S n) [-] ys n)) in H2. change (norm2 (E:=MIPS A tau mu kappa Ht Hm Hk HA) (w 0%nat [-] (((xo, yo) : MIPS A tau mu kappa Ht Hm Hk HA))) = 2 * pd_metric A tau mu (xs 0%nat [-] xo) (ys 0%nat [-] yo)) in H1. rewrite H1, H2 in H. lra.
Qed.
End run.
Lemma pd_gap (f : efun E) (gs : efun F) x y x' y' u v : convex f -> convex gs -> is_prox f tau (x [-] tau [*] (ladj A y [+] z)) x' -> is_prox gs mu (y [+] mu [*] lapp A (x' [+] 1 [*] (x' [-] x))) y' -> edom f u -> edom gs v ->
  lagr A f gs z x' v - lagr A f gs z u y' <= sqrt (2 * pd_metric A tau mu (x' [-] x) (y' [-] y)) * sqrt (2 * pd_metric A tau mu (x' [-] u) (y' [-] v)).
Proof.
  intros Cf Cg H1 H2 Hu Hv. pose proof (prox_gap f tau _ _ u Cf Ht H1 Hu) as G1. pose proof (prox_gap gs mu _ _ v Cg Hm H2 Hv) as G2. rewrite <- !m_metric_norm.
  eapply Rle_trans; [|apply (cs3 (up A tau mu kappa Ht Hm Hk HA (x [-] x', y [-] y')) (up A tau mu kappa Ht Hm Hk HA (x' [-] u, y' [-] v)) (up A tau mu kappa Ht Hm Hk HA (x' [-] x, y' [-] y)))].
  2:{ right. rewrite !m_metric_norm. f_equal. f_equal. unfold pd_metric, pd_dist. rewrite (norm2_sub_sym x x'), (norm2_sub_sym y y'). replace (x [-] x') with ((-1) [*] (x' [-] x)) by vring. replace (y [-] y') with ((-1) [*] (y' [-] y)) by vring. rewrite lapp_scal, inner_scal_l, inner_scal_r. ring. }
  change (lagr A f gs z x' v - lagr A f gs z u y' <= minner A tau mu (x [-] x', y [-] y') (x' [-] u, y' [-] v)). unfold minner, lagr. cbn [fst snd].
  apply div_le in G1; [|exact Ht]. apply div_le in G2; [|exact Hm].
  assert (Q1 : << x [-] tau [*] (ladj A y [+] z) [-] x', x' [-] u >> / tau = / tau * << x [-] x', x' [-] u >> - << lapp A (x' [-] u), y >> - << z, x' [-] u >>).
  { replace (x [-] tau [*] (ladj A y [+] z) [-] x') with ((x [-] x') [-] tau [*] (ladj A y [+] z)) by vring. rewrite inner_sub_l, inner_scal_l, inner_add_l, (inner_sym (ladj A y)), <- ladj_spec. field. lra. }
  assert (Q2 : << y [+] mu [*] lapp A (x' [+] 1 [*] (x' [-] x)) [-] y', y' [-] v >> / mu = / mu * << y [-] y', y' [-] v >> + << lapp A (x' [+] 1 [*] (x' [-] x)), y' [-] v >>).
  { replace (y [+] mu [*] lapp A (x' [+] 1 [*] (x' [-] x)) [-] y') with ((y [-] y') [+] mu [*] lapp A (x' [+] 1 [*] (x' [-] x))) by vring. rewrite inner_add_l, inner_scal_l. field. lra. }
  rewrite Q1 in G1. rewrite Q2 in G2. rewrite lapp_add, lapp_scal in G2. rewrite !lapp_sub in *. rewrite !inner_sub_l, !inner_sub_r in *. rewrite !inner_add_l, !inner_scal_l, !inner_sub_l in G2. lra.
Qed.
End PDsec.
(*! C105_primal_dual : f and gs convex with exact prox and dual prox, theta = 1, constant steps with tau mu |A a|^2 <= kappa |a|^2 for some kappa < 1, any start, either order: PrimalDual never raises. Take the pairs (x, y) after n iterations
   (with gfirst, x after n and y after n + 1), and measure changes with |a|^2/(2 tau) + |b|^2/(2 mu) - <A a, b>: the change from one pair to the next never increases with n; (n + 1) times it is at most the distance of the first pair from any
   saddle point; and it bounds the gap of the last pair: for L(x, y) = <A x, y> + <z, x> + f(x) - gs(y) and every (u, v) in the domains, L(x, v) - L(u, y) is at most twice the product of the square roots of the last change and of the
   distance to (u, v) *)
Lemma C105_primal_dual_l : forall (E F : IPS) (A : linop E F) proxf proxg f gs alias x0 tau mu kappa y0 z (gfirst : bool),
  impl_prox proxf f -> impl_proxdual proxg gs -> convex f -> convex gs -> 0 < tau -> 0 < mu -> 0 <= kappa < 1 -> (forall a, tau * mu * norm2 (lapp A a) <= kappa * norm2 a) -> alias = None \/ z = None ->
  exists xs ys, (forall n, exists tr, PrimalDual proxf proxg A alias x0 (Scalar tau) (Scalar mu) y0 z 1 n gfirst = Ok (xs n, ys n, tr)) /\
    let ws := fun n => if gfirst then ys (S n) else ys n in
    (forall n, pd_metric A tau mu (xs (S (S n)) [-] xs (S n)) (ws (S (S n)) [-] ws (S n)) <= pd_metric A tau mu (xs (S n) [-] xs n) (ws (S n) [-] ws n)) /\
    (forall n xo yo, saddle A f gs (zvec z) xo yo -> INR (S n) * pd_metric A tau mu (xs (S n) [-] xs n) (ws (S n) [-] ws n) <= pd_metric A tau mu (xs 0%nat [-] xo) (ws 0%nat [-] yo)) /\
    (forall n u v, edom f u -> edom gs v -> edom f (xs (S n)) /\ edom gs (ws (S n)) /\
       lagr A f gs (zvec z) (xs (S n)) v - lagr A f gs (zvec z) u (ws (S n)) <= sqrt (2 * pd_metric A tau mu (xs (S n) [-] xs n) (ws (S n) [-] ws n)) * sqrt (2 * pd_metric A tau mu (xs (S n) [-] u) (ws (S n) [-] v))).
Proof.
  intros E F A proxf proxg f gs alias x0 tau mu kappa y0 z gfirst Hf Hg Cf Cg Ht Hm Hk HA Hal. destruct (prox_map proxf f tau Hf Ht) as (P & EP & HP). destruct (dual_map proxg gs mu Hg Hm) as (Q & EQ & HQ).
  destruct (pd_maps A proxf proxg P Q alias x0 tau mu y0 z gfirst EP EQ Hal) as (xs & ys & Hrun & HR). exists xs, ys. split; [exact Hrun|]. intro ws.
  assert (HW : forall j, pd_step A tau mu P Q (zvec z) (xs j) (ws j) (xs (S j)) (ws (S j))) by (intro j; specialize (HR j); unfold ws; destruct gfirst; exact HR).
  pose proof (prox_firmly f tau P Cf Ht HP) as FP. pose proof (prox_firmly gs mu Q Cg Hm HQ) as FQ. split; [|split].
  - intro n. apply (pd_mono A tau mu kappa P Q (zvec z) Ht Hm Hk HA FP FQ xs ws HW).
  - intros n xo yo Hs. apply (pd_rate A tau mu kappa P Q (zvec z) Ht Hm Hk HA FP FQ xs ws HW). apply (pd_fix_saddle A f gs tau mu P Q); auto.
  - intros n u v Hu Hv. destruct (HW n) as [H1 H2]. pose proof (HP (xs n [-] tau [*] (ladj A (ws n) [+] zvec z))) as K1. rewrite <- H1 in K1. pose proof (HQ (ws n [+] mu [*] lapp A (xs (S n) [+] 1 [*] (xs (S n) [-] xs n)))) as K2. rewrite <- H2 in K2.
    split; [apply K1|]. split; [apply K2|]. apply (pd_gap A tau mu kappa (zvec z) Ht Hm Hk HA f gs); auto.
Qed.

(** ** LinearizedADMM *)
(*! C105_linearized_admm : f and g convex with exact prox, mu |A a|^2 <= kappa tau |a|^2 for some kappa < 1, either guess: LinearizedADMM never raises. For every xo with multiplier v, the two residuals of the last iterates satisfy
   (n + 1) (1 - kappa) (|A x_(n+1) - z_(n+1)|^2 + tau/mu |x_(n+2) - x_(n+1)|^2) <= 4 (tau^2 |v|^2 + tau/mu |x_1 - xo|^2); and for every y with y in the domain of f and A y in that of g they bound
   f(x_(n+2)) + g(z_(n+1)) - f(y) - g(A y) by |x_(n+2) - x_(n+1)| |x_(n+2) - y| / mu + (|sum of all A x - z| |A x_(n+2) - z_(n+1)| + |A x_(n+1) - z_(n+1)| |A (x_(n+2) - y)|) / tau *)
Lemma C105_linearized_admm_l : forall (E F : IPS) (A : linop E F) proxf proxg f g tau mu kappa x0 z0 x z,
  impl_prox proxf f -> impl_prox proxg g -> convex f -> convex g -> 0 < tau -> 0 < mu -> 0 <= kappa < 1 -> (forall a, mu * norm2 (lapp A a) <= kappa * tau * norm2 a) -> x0z0_initA (lapp A) x0 z0 = Ok (x, z) ->
  exists xs zs, (forall n, exists tr, LinearizedADMM proxf proxg A x0 tau mu n z0 = Ok (xs n, zs n, tr)) /\
    (forall n xo v, kktA f g A xo v -> INR (S n) * (1 - kappa) * (norm2 (lapp A (xs (S n)) [-] zs (S n)) + tau / mu * norm2 (xs (S (S n)) [-] xs (S n))) <= 4 * (tau * tau * norm2 v + tau / mu * norm2 (xs 1%nat [-] xo))) /\
    (forall n y, edom f y -> edom g (lapp A y) -> edom f (xs (S (S n))) /\ edom g (zs (S n)) /\
       eval f (xs (S (S n))) + eval g (zs (S n)) - (eval f y + eval g (lapp A y)) <= norm (xs (S (S n)) [-] xs (S n)) * norm (xs (S (S n)) [-] y) / mu +
         (norm (VS (S n) (fun j => lapp A (xs (S j)) [-] zs (S j))) * norm (lapp A (xs (S (S n))) [-] zs (S n)) + norm (lapp A (xs (S n)) [-] zs (S n)) * norm (lapp A (xs (S (S n)) [-] y))) / tau).
Proof.
  intros E F A proxf proxg f g tau mu kappa x0 z0 x z Hf Hg Cf Cg Ht Hm Hk HA Hi. destruct (prox_map proxf f mu Hf Hm) as (P & EP & HP). destruct (prox_map proxg g tau Hg Ht) as (D & ED & HD).
  destruct (la_maps A proxf proxg P D tau mu x0 z0 x z Ht EP ED Hi) as (xs & zs & us & U0 & Hrun & HR). exists xs, zs. split; [exact Hrun|].
  pose proof (prox_firmly f mu P Cf Hm HP) as FP. pose proof (prox_firmly g tau D Cg Ht HD) as FD. assert (Hmt : 0 < mu / tau) by (apply Rdiv_lt_0_compat; assumption). split.
  - intros n xo v K. assert (Hfx : pd_fix (nadj A) 1 (mu / tau) (fun v => v [-] D v) P vzero (tau [*] v) xo).
    { apply (la_fix_iff A tau mu P D). apply (la_fix_kktA A f g tau mu P D); auto. replace (/ tau [*] (tau [*] v)) with v by (vfield; lra). exact K. }
    assert (HW : forall j, pd_step (nadj A) 1 (mu / tau) (fun v => v [-] D v) P vzero (us j) (xs (S j)) (us (S j)) (xs (S (S j)))).
    { intro j. destruct (HR j) as (G1 & G2 & G3). split; cbn [nadj lapp ladj].
      - rewrite G2. replace (us j [-] 1 [*] ((-1) [*] lapp A (xs (S j)) [+] vzero)) with (lapp A (xs (S j)) [+] us j) by vring. rewrite <- G1. vring.
      - rewrite G3. f_equal. replace (us (S j) [+] 1 [*] (us (S j) [-] us j)) with (2 [*] us (S j) [-] us j) by vring. vring. }
    pose proof (la_bd A tau mu kappa Ht Hm Hk HA) as HB.
    pose proof (pd_rate (nadj A) 1 (mu / tau) kappa (fun v => v [-] D v) P vzero Rlt_0_1 Hmt Hk HB (resid_firm D FD) FP us (fun j => xs (S j)) HW n _ _ Hfx) as H. cbv beta in H.
    pose proof (minner_low (nadj A) 1 (mu / tau) kappa Rlt_0_1 Hmt Hk HB (us (S n) [-] us n, xs (S (S n)) [-] xs (S n))) as L1. pose proof (minner_up (nadj A) 1 (mu / tau) kappa Rlt_0_1 Hmt Hk HB (us 0%nat [-] tau [*] v, xs 1%nat [-] xo)) as U1.
    pose proof (m_metric (nadj A) 1 (mu / tau) kappa Rlt_0_1 Hmt Hk HB (us (S n) [-] us n) (xs (S (S n)) [-] xs (S n))) as M1. pose proof (m_metric (nadj A) 1 (mu / tau) kappa Rlt_0_1 Hmt Hk HB (us 0%nat [-] tau [*] v) (xs 1%nat [-] xo)) as M2.
    change (minner (nadj A) 1 (mu / tau) (us (S n) [-] us n, xs (S (S n)) [-] xs (S n)) (us (S n) [-] us n, xs (S (S n)) [-] xs (S n)) = 2 * pd_metric (nadj A) 1 (mu / tau) (us (S n) [-] us n) (xs (S (S n)) [-] xs (S n))) in M1.
    change (minner (nadj A) 1 (mu / tau) (us 0%nat [-] tau [*] v, xs 1%nat [-] xo) (us 0%nat [-] tau [*] v, xs 1%nat [-] xo) = 2 * pd_metric (nadj A) 1 (mu / tau) (us 0%nat [-] tau [*] v) (xs 1%nat [-] xo)) in M2.
    rewrite M1 in L1. rewrite M2 in U1. cbn [fst snd] in L1, U1. unfold mc in L1. replace (us (S n) [-] us n) with (lapp A (xs (S n)) [-] zs (S n)) in L1, H by (rewrite (proj1 (proj2 (HR n))); vring). rewrite U0 in U1, H. replace (vzero [-] tau [*] v) with ((- tau) [*] v) in U1, H by vring.
    rewrite norm2_scal in U1. replace (/ (mu / tau)) with (tau / mu) in L1, U1 by (field; lra). rewrite Rinv_1 in L1, U1.
    set (m1 := pd_metric (nadj A) 1 (mu / tau) (lapp A (xs (S n)) [-] zs (S n)) (xs (S (S n)) [-] xs (S n))) in *. set (m2 := pd_metric (nadj A) 1 (mu / tau) ((- tau) [*] v) (xs 1%nat [-] xo)) in *.
    apply Rle_trans with (INR (S n) * (4 * m1)); [|lra]. rewrite (Rmult_assoc (INR (S n))). apply Rmult_le_compat_l; [apply pos_INR|]. lra.
  - intros n y Y1 Y2. rewrite <- (la_usum A xs zs us U0 (fun j => proj1 (proj2 (HR j)))). destruct (HR n) as (G1 & G2 & G3). pose proof (HP (xs (S n) [-] (mu / tau) [*] ladj A (2 [*] us (S n) [-] us n))) as K1. rewrite <- G3 in K1. pose proof (HD (lapp A (xs (S n)) [+] us n)) as K2. rewrite <- G1 in K2.
    split; [apply K1|]. split; [apply K2|]. pose proof (prox_gap f mu _ _ y Cf Hm K1 Y1) as B1. pose proof (prox_gap g tau _ _ (lapp A y) Cg Ht K2 Y2) as B2. apply div_le in B1; [|exact Hm]. apply div_le in B2; [|exact Ht].
    replace (lapp A (xs (S n)) [+] us n [-] zs (S n)) with (us (S n)) in B2 by (rewrite G2; vring).
    assert (Q1 : << xs (S n) [-] (mu / tau) [*] ladj A (2 [*] us (S n) [-] us n) [-] xs (S (S n)), xs (S (S n)) [-] y >> / mu = << xs (S n) [-] xs (S (S n)), xs (S (S n)) [-] y >> / mu - << 2 [*] us (S n) [-] us n, lapp A (xs (S (S n)) [-] y) >> / tau).
    { replace (xs (S n) [-] (mu / tau) [*] ladj A (2 [*] us (S n) [-] us n) [-] xs (S (S n))) with ((xs (S n) [-] xs (S (S n))) [-] (mu / tau) [*] ladj A (2 [*] us (S n) [-] us n)) by vring. rewrite inner_sub_l, inner_scal_l, (inner_sym (ladj A _)), <- ladj_spec, (inner_sym (lapp A _)). field. lra. }
    rewrite Q1 in B1. pose proof (cs3 (xs (S n) [-] xs (S (S n))) (xs (S (S n)) [-] y) (xs (S (S n)) [-] xs (S n)) ltac:(rewrite norm_sub_sym; apply Rle_refl)) as C1.
    pose proof (cs3 (us (S n)) (zs (S n) [-] lapp A (xs (S (S n)))) (us (S n)) (Rle_refl _)) as C2. rewrite (norm_sub_sym (zs (S n))) in C2.
    pose proof (cs3 ((-1) [*] (lapp A (xs (S n)) [-] zs (S n))) (lapp A (xs (S (S n)) [-] y)) (lapp A (xs (S n)) [-] zs (S n)) ltac:(rewrite norm_scal, Rabs_left by lra; lra)) as C3.
    assert (Q2 : << us (S n), zs (S n) [-] lapp A y >> - << 2 [*] us (S n) [-] us n, lapp A (xs (S (S n)) [-] y) >> = << us (S n), zs (S n) [-] lapp A (xs (S (S n))) >> + << (-1) [*] (lapp A (xs (S n)) [-] zs (S n)), lapp A (xs (S (S n)) [-] y) >>).
    { replace (lapp A (xs (S n)) [-] zs (S n)) with (us (S n) [-] us n) by (rewrite G2; vring). rewrite lapp_sub. iring. }
    pose proof (Rinv_0_lt_compat _ Ht) as It. pose proof (Rinv_0_lt_compat _ Hm) as Im. apply (Rmult_le_compat_r (/ mu)) in C1; [|lra]. pose proof (Rplus_le_compat _ _ _ _ C2 C3) as C4. rewrite <- Q2 in C4. apply (Rmult_le_compat_r (/ tau)) in C4; [|lra]. unfold Rdiv in *. lra.
Qed.

(** ** the bounds cannot be improved *)
Lemma norm_1 (a : R) : norm (vtab 1 (fun _ => a) : Vec 1) = Rabs a.
Proof. unfold norm. rewrite vec_norm2. cbn [RS]. rewrite get_vtab by lia. rewrite Rplus_0_l. apply sqrt_Rsqr_abs. Qed.
Lemma sum_abs_1 (x : Vec 1) : sum_abs x = Rabs (get x 0).
Proof. unfold sum_abs. cbn [RS]. ring. Qed.
Lemma l1_zero_sub n lam : 0 <= lam -> is_subgrad (etot (fun x : Vec n => lam * sum_abs x)) vzero vzero.
Proof.
  intro Hl. split; [exact I|]. intros y _. cbn [eval etot]. rewrite inner_zero_l. assert (sum_abs (vzero : Vec n) = 0) as ->. { unfold sum_abs. rewrite (RS_ext n _ (fun _ => 0)); [apply RS_zero|]. intros i Hi. rewrite get_zero. apply Rabs_R0. }
  assert (0 <= sum_abs y) by (apply RS_nonneg; intros; apply Rabs_pos). assert (0 <= lam * sum_abs y) by (apply Rmult_le_pos; assumption). lra.
Qed.
(*! C105_settled_refuted : the last change being small does not mean that the last iterate is near a solution, however small the change, and the bound of C105_proximal_point is attained: for the library object L1(sigma = d) on arrays with one
   entry, every d > 0, every distance K > 0 and every step there is a start from which ProximalPoint moves by tau d and stops at distance K from 0, the only minimiser; its error equals |x_1 - x_0| |x_1 - 0| / tau *)
Lemma C105_settled_refuted_l : forall (o : Op (Vec 1)) d K tau, is_L1 o d -> 0 < d -> 0 < K -> 0 < tau ->
  (forall x, is_min (etot (fun x : Vec 1 => d * sum_abs x)) x <-> x = vzero) /\
  exists x0 x1, ProximalPoint o x0 tau 1 None = Ok (x1, [x1]) /\ norm (x1 [-] x0) = tau * d /\ norm (x1 [-] vzero) = K /\ d * sum_abs x1 - d * sum_abs (vzero : Vec 1) = norm (x1 [-] x0) * norm (x1 [-] vzero) / tau.
Proof.
  intros o d K tau Ho Hd HK Ht. destruct (L1_facts 1 o d (Rlt_le _ _ Hd) Ho) as (Hp & _ & _). pose proof (l1n_convex 1 d (Rlt_le _ _ Hd)) as Hc. change (l1n d) with (fun x : Vec 1 => d * sum_abs x) in Hp, Hc.
  assert (Z : sum_abs (vzero : Vec 1) = 0) by (rewrite sum_abs_1, get_zero; apply Rabs_R0). split.
  - intro x. split; [|intros ->; destruct (l1_zero_sub 1 d (Rlt_le _ _ Hd)) as [_ H]; split; [exact I|]; intros y Hy; specialize (H y Hy); rewrite inner_zero_l in H; lra].
    intros [_ H]. specialize (H vzero I). cbn [eval etot] in H. rewrite Z, sum_abs_1, Rmult_0_r in H. apply vec_ext. intros i Hi. replace i with 0%nat by lia. rewrite get_zero. pose proof (Rabs_pos (get x 0)). destruct (Req_dec (get x 0) 0) as [|Hn]; [assumption|]. apply Rabs_pos_lt in Hn. nra.
  - set (x1 := vtab 1 (fun _ => K) : Vec 1). set (x0 := vtab 1 (fun _ => K + tau * d) : Vec 1). exists x0, x1.
    assert (D1 : x1 [-] x0 = vtab 1 (fun _ => - (tau * d))). { apply vec_ext. intros i Hi. rewrite get_sub by lia. unfold x1, x0. rewrite !get_vtab by lia. ring. }
    assert (D2 : x1 [-] vzero = x1) by vring. assert (N1 : norm (x1 [-] x0) = tau * d) by (rewrite D1, norm_1, Rabs_Ropp, Rabs_right; [reflexivity|nra]). assert (N2 : norm (x1 [-] vzero) = K) by (rewrite D2; unfold x1; rewrite norm_1, Rabs_right; lra).
    split; [|split; [exact N1|split; [exact N2|rewrite N1, N2, Z, sum_abs_1; unfold x1; rewrite get_vtab by lia; rewrite Rabs_right by lra; field; lra]]].
    assert (P : is_prox (etot (fun x : Vec 1 => d * sum_abs x)) tau x0 x1).
    { apply prox_iff_subgrad; auto. split; [exact I|]. intros y _. cbn [eval etot]. rewrite !sum_abs_1, vec_inner. cbn [RS]. rewrite get_scal, !get_sub by lia. unfold x0, x1. rewrite !get_vtab by lia. rewrite (Rabs_right K) by lra. pose proof (Rle_abs (get y 0)). replace (/ tau * (K + tau * d - K)) with d by (field; lra). nra. }
    destruct (Hp x0 tau Ht) as (q & Eq & Hq). pose proof (prox_unique _ tau x0 q x1 Hc Ht Hq P) as ->. unfold ProximalPoint. cbn [for_loop]. unfold pp_body. cbn [pp_x]. rewrite Eq. reflexivity.
Qed.

(*!ex C105_example : two objects L1 with any weights, arrays of any size, any tau > 0: x = 0 with multiplier 0 meets the hypothesis of C105_admm, so after n + 2 iterations of ADMM the squared difference of x and z, times n + 1, is at most the squared
   norm of the first vector computed; and an object L2 together with L1 meets those of C105_proximal_gradient *)
Lemma C105_example_l : forall n (of og : Op (Vec n)) lf lg x0 tau (gfirst : bool), is_L1 of lf -> is_L1 og lg -> 0 <= lf -> 0 <= lg -> 0 < tau ->
  (exists xs zs, (forall k, exists tr, ADMM of og (Some x0) tau k None gfirst = Ok (xs k, zs k, tr)) /\ forall k, INR (S k) * norm2 (xs (S (S k)) [-] zs (S (S k))) <= norm2 (if gfirst then zs 1%nat else xs 1%nat)) /\
  (forall (F : IPS) (A : linop (Vec n) F) b s L (o : Op (Vec n)), is_L2 o A b s -> 0 < s -> 0 < L -> (forall v, s * norm2 (A v) <= L * norm2 v) ->
     exists xs, xs 0%nat = x0 /\ (forall k, ProximalGradient o of x0 [1] (Some (1 / L)) false (1 / 2) 1 (S k) 10 None None = Ok (xs (S k), map xs (seq 1 (S k)))) /\
       forall k, norm (xs (S (S k)) [-] xs (S k)) <= norm (xs (S k) [-] xs k)).
Proof.
  intros n of og lf lg x0 tau gfirst Hf Hg Lf Lg Ht. split.
  - destruct (L1_facts n of lf Lf Hf) as (Pf & _ & _). destruct (L1_facts n og lg Lg Hg) as (Pg & _ & _).
    destruct (C105_admm_l (Vec n) of og _ _ (Some x0) None x0 x0 tau gfirst Pf Pg (l1n_convex n lf Lf) (l1n_convex n lg Lg) Ht eq_refl) as (xs & zs & Hrun & Hr & _). exists xs, zs. split; [exact Hrun|]. intro k.
    specialize (Hr k vzero vzero). assert (K : kkt (etot (l1n (n:=n) lf)) (etot (l1n lg)) vzero vzero). { split; [apply l1_zero_sub; exact Lf|]. replace (vopp (vzero : Vec n)) with (vzero : Vec n) by vring. apply l1_zero_sub; exact Lg. }
    specialize (Hr K). eapply Rle_trans; [apply Rmult_le_compat_l; [apply pos_INR|]|eapply Rle_trans; [exact Hr|]].
    + pose proof (norm2_nonneg (if gfirst then xs (S (S k)) [-] xs (S k) else zs (S (S k)) [-] zs (S k))). lra.
    + right. destruct gfirst; f_equal; vring.
  - intros F A b s L o Ho Hs HL HA. destruct (L1_facts n of lf Lf Hf) as (Pf & _ & _). assert (Q : 1 / L * L = 1) by (field; lra).
    destruct (C105_proximal_gradient_l (Vec n) o of _ _ L _ x0 1 (1 / L) (1 / 2) 1 10 None (L2_smooth_op o A b s L Hs HL Ho HA) Pf (l1n_convex n lf Lf) Rlt_0_1 ltac:(apply Rdiv_lt_0_compat; lra) ltac:(rewrite Q; lra) (or_introl eq_refl)) as (xs & H1 & H2 & H3 & _).
    exists xs. auto.
Qed.
