(** * ProximalPoint and ProximalGradient under quadratic growth (M_PG.v) *)
From Coq Require Import String Psatz.
From Verif Require Import Base Space Spec ConvexFacts Smooth VSum MatFacts Sep M_ProxOp SpecOps P_ProxOp M_Norms P_Norms M_L1 M_L2 P_L1 P_L2 P_L21 M_Objs S_L1 S_Lasso P_Lasso M_Loop LoopFacts SeqFacts M_PG SplitMath S_PG P_PG P_PG2 S_PG2 P_Pnp P_Incons P_Sparse P_Sharp.
From Verif Require Export S_Growth.
Open Scope result_scope.
Open Scope R_scope.

Lemma min_same {E : IPS} (f : efun E) z z' : is_min f z -> is_min f z' -> eval f z = eval f z'.
Proof. intros [D1 M1] [D2 M2]. specialize (M1 z' D2). specialize (M2 z D1). lra. Qed.
Lemma norm2_mono {E : IPS} (a b : E) : norm a <= norm b -> norm2 a <= norm2 b.
Proof. apply norm_le_iff. Qed.
Lemma sq_split {E : IPS} (x p z : E) : norm2 (x [-] z) = norm2 (x [-] p) + 2 * << x [-] p, p [-] z >> + norm2 (p [-] z).
Proof. replace (x [-] z) with ((x [-] p) [+] (p [-] z)) by vring. apply norm2_add. Qed.

Lemma pp_growth_step {E : IPS} (f : efun E) mu t x p z : convex f -> 0 < t -> 0 < mu -> quad_growth f mu -> is_prox f t x p -> is_min f z ->
  exists z', is_min f z' /\ (1 + t * mu / 2) ^ 2 * norm2 (p [-] z') <= norm2 (x [-] z).
Proof.
  intros Hc Ht Hmu Hg Hp Hz. destruct (Hg p (proj1 Hp)) as (z' & Hz' & Hn & Hv). exists z'. split; [exact Hz'|].
  pose proof (prox_vi f t x p z Hc Ht Hp (proj1 Hz)) as V1. pose proof (prox_vi f t x p z' Hc Ht Hp (proj1 Hz')) as V2. pose proof (min_same f z z' Hz Hz') as Em. rewrite Em in V1.
  assert (G : t * (mu / 2 * norm2 (p [-] z')) <= t * (eval f p - eval f z')) by (apply Rmult_le_compat_l; lra).
  pose proof (norm2_mono _ _ (Hn z Hz)) as N. pose proof (CS (x [-] p) (p [-] z')) as C. rewrite (sq_split x p z).
  assert (K : (t * mu / 2) ^ 2 * norm2 (p [-] z') <= norm2 (x [-] p)).
  { rewrite <- !norm_sq in *. pose proof (norm_nonneg (p [-] z')) as A. pose proof (norm_nonneg (x [-] p)) as B. set (a := norm (p [-] z')) in *. set (b := norm (x [-] p)) in *.
    destruct (Rle_lt_or_eq_dec 0 a A) as [A1|A1]; [|rewrite <- A1; nra]. assert (t * mu / 2 * a <= b) by (apply Rmult_le_reg_r with a; [auto|nra]). assert (0 <= t * mu / 2) by nra.
    replace ((t * mu / 2) ^ 2 * (a * a)) with ((t * mu / 2 * a) * (t * mu / 2 * a)) by ring. apply Rmult_le_compat; nra. }
  nra.
Qed.

(*! C111_proximal_point : f convex, not necessarily strongly, with any number of minimisers, growing at least like mu/2 times the squared distance from them: after k iterations of ProximalPoint some
   minimiser z has (1 + tau mu/2)^k |x - z| <= |x0 - z0| for every minimiser z0 *)
Lemma C111_proximal_point_l : forall (E : IPS) (o : Op E) (f : efun E) mu x0 tau k, impl_prox o f -> convex f -> 0 < tau -> 0 < mu -> quad_growth f mu ->
  exists x tr, ProximalPoint o x0 tau k None = Ok (x, tr) /\ forall z0, is_min f z0 -> exists z, is_min f z /\ (1 + tau * mu / 2) ^ k * norm (x [-] z) <= norm (x0 [-] z0).
Proof.
  intros E o f mu x0 tau k Hp Hc Ht Hmu Hg. destruct (pp_runs o f x0 tau k Hp Ht) as (xs & Hrun & H0 & Hst). exists (xs k), (map xs (seq 1 k)). split; [exact Hrun|]. intros z0 Hz0.
  set (q := 1 + tau * mu / 2). assert (Hq : 0 < q) by (unfold q; nra).
  assert (K : forall j, (j <= k)%nat -> exists z, is_min f z /\ (q ^ j) ^ 2 * norm2 (xs j [-] z) <= norm2 (x0 [-] z0)).
  { induction j as [|j IH]; intro Hj; [exists z0; rewrite H0; split; [exact Hz0|]; cbn [pow]; lra|].
    destruct (IH ltac:(lia)) as (z & Hz & Hb). destruct (pp_growth_step f mu tau (xs j) (xs (S j)) z Hc Ht Hmu Hg (Hst j ltac:(lia)) Hz) as (z' & Hz' & Hb'). exists z'. split; [exact Hz'|]. fold q in Hb'.
    assert (0 <= (q ^ j) ^ 2) by (apply pow_le, pow_le; lra). replace ((q ^ S j) ^ 2 * norm2 (xs (S j) [-] z')) with ((q ^ j) ^ 2 * (q ^ 2 * norm2 (xs (S j) [-] z'))) by (cbn [pow]; ring).
    eapply Rle_trans; [apply Rmult_le_compat_l; [auto|exact Hb']|exact Hb]. }
  destruct (K k (le_n k)) as (z & Hz & Hb). exists z. split; [exact Hz|]. assert (Hqk : 0 <= q ^ k) by (apply pow_le; lra). rewrite <- (Rabs_pos_eq (q ^ k)) by auto. rewrite <- norm_scal. apply norm_le_iff. rewrite norm2_scal.
  replace (q ^ k * q ^ k) with ((q ^ k) ^ 2) by ring. exact Hb.
Qed.

Lemma pg_step_ineq {E : IPS} (f : E -> R) df L (g : efun E) e tau x p z : smooth_convex f df L -> 0 < L -> convex g -> 0 < e -> 0 < tau -> tau * L <= 1 -> is_prox g (e * tau) (x [-] tau [*] df x) p -> edom g z ->
  2 * tau * ((f p + e * eval g p) - (f z + e * eval g z)) <= norm2 (x [-] z) - norm2 (p [-] z).
Proof.
  intros [S1 S2] HL Hg He Ht HtL Hp Hz. apply lin_prox in Hp; auto. assert (Hcx : convex (elin (escal e g) (df x))) by (apply convex_lin, convex_scal; auto; lra).
  pose proof (prox_vi _ tau x p z Hcx Ht Hp Hz) as V. cbn [eval elin escal] in V. pose proof (S2 x p) as A. pose proof (S1 x z) as B. rewrite (sq_split x p z).
  replace (<< df x, p [-] x >>) with (<< df x, p >> - << df x, x >>) in A by iring. replace (<< df x, z [-] x >>) with (<< df x, z >> - << df x, x >>) in B by iring. rewrite (norm2_sub_sym p x) in A.
  pose proof (norm2_nonneg (x [-] p)) as N. assert (C : tau * L * norm2 (x [-] p) <= norm2 (x [-] p)) by nra.
  assert (D : tau * (f p - f z) <= tau * (<< df x, p >> - << df x, z >> + L / 2 * norm2 (x [-] p))) by (apply Rmult_le_compat_l; lra). nra.
Qed.

(*! C111_proximal_gradient : the same for ProximalGradient on f + e g with 0 < tau <= 1/L, without relaxation and acceleration: after k iterations some minimiser z has
   (1 + tau mu)^k |x - z|^2 <= |x0 - z0|^2 for every minimiser z0, and the objective is within |x0 - z0|^2/(2 tau (1 + tau mu)^(k-1)) of its minimum *)
Lemma C111_proximal_gradient_l : forall (E : IPS) (of og : Op E) f df L (g : efun E) e mu x0 tau beta niterback accel k,
  smooth_op of f df L -> impl_prox og g -> convex g -> 0 < e -> 0 < tau -> tau * L <= 1 -> accel = None \/ accel = Some "None"%string -> 0 < mu -> let F := eadd (etot f) (escal e g) in quad_growth F mu ->
  exists x tr, ProximalGradient of og x0 [e] (Some tau) false beta 1 (S k) niterback accel None = Ok (x, tr) /\
    forall z0, is_min F z0 -> eval F x - eval F z0 <= norm2 (x0 [-] z0) / (2 * tau * (1 + tau * mu) ^ k) /\ exists z, is_min F z /\ (1 + tau * mu) ^ S k * norm2 (x [-] z) <= norm2 (x0 [-] z0).
Proof.
  intros E of og f df L g e mu x0 tau beta nb accel k (_ & Hgr & Hc & HL & Hs) Hp Hg He Ht HtL Hac Hmu F HG. assert (Hth : 0 < e * tau) by nra.
  set (D := fun v => match o_prox og v (e * tau) with Ok p => p | Err _ => v end).
  assert (HD : forall v, o_prox og v (e * tau) = Ok (D v) /\ is_prox g (e * tau) v (D v)) by (intro v; unfold D; destruct (Hp v (e * tau) Hth) as (p & -> & H); auto).
  destruct (pg_maps of og df D e x0 tau beta 1 nb accel Hgr (fun v => proj1 (HD v))) as (xs & X0 & Hrun & Hst); [destruct Hac as [-> | ->]; [left|right; left]; reflexivity|].
  assert (Hx : forall j, is_prox g (e * tau) (xs j [-] tau [*] df (xs j)) (xs (S j))) by (intro j; replace (xs (S j)) with (D (xs j [-] tau [*] df (xs j))) by (rewrite Hst; vring); apply HD).
  assert (Hin : forall j z, is_min F z -> 2 * tau * (eval F (xs (S j)) - eval F z) <= norm2 (xs j [-] z) - norm2 (xs (S j) [-] z)) by (intros j z [[_ Dz] _]; apply (pg_step_ineq f df L g e tau); auto; apply L_smooth_convex; auto).
  set (q := 1 + tau * mu). assert (Hq : 0 < q) by (unfold q; nra).
  exists (xs (S k)), (map xs (seq 1 (S k))). split; [apply Hrun|]. intros z0 Hz0.
  assert (K : forall j, exists z, is_min F z /\ q ^ j * norm2 (xs j [-] z) <= norm2 (x0 [-] z0)).
  { induction j as [|j (z & Hz & Hb)]; [exists z0; rewrite X0; split; [exact Hz0|]; cbn [pow]; lra|].
    destruct (HG (xs (S j))) as (z' & Hz' & Hn & Hv); [split; [exact I|apply (Hx j)]|]. exists z'. split; [exact Hz'|]. specialize (Hin j z Hz). rewrite (min_same F z z' Hz Hz') in Hin.
    pose proof (norm2_mono _ _ (Hn z Hz)) as N. assert (G : 2 * tau * (mu / 2 * norm2 (xs (S j) [-] z')) <= 2 * tau * (eval F (xs (S j)) - eval F z')) by (apply Rmult_le_compat_l; lra).
    assert (S1 : q * norm2 (xs (S j) [-] z') <= norm2 (xs j [-] z)) by (unfold q; lra). assert (0 <= q ^ j) by (apply pow_le; lra).
    replace (q ^ S j * norm2 (xs (S j) [-] z')) with (q ^ j * (q * norm2 (xs (S j) [-] z'))) by (cbn [pow]; ring). eapply Rle_trans; [apply Rmult_le_compat_l; [auto|exact S1]|exact Hb]. }
  split; [|apply K]. destruct (K k) as (z & Hz & Hb). specialize (Hin k z Hz). rewrite (min_same F z0 z Hz0 Hz). pose proof (norm2_nonneg (xs (S k) [-] z)).
  assert (Hqk : 0 < q ^ k) by (apply pow_lt; auto). apply Rmult_le_reg_r with (2 * tau * q ^ k); [nra|]. replace (norm2 (x0 [-] z0) / (2 * tau * q ^ k) * (2 * tau * q ^ k)) with (norm2 (x0 [-] z0)) by (field; split; lra).
  set (dF := eval F (xs (S k)) - eval F z) in *. assert (q ^ k * (2 * tau * dF) <= q ^ k * norm2 (xs k [-] z)) by (apply Rmult_le_compat_l; lra). lra.
Qed.

(*! C111_restart : restarting the accelerated ProximalGradient ('fista' or 'vandenberghe', eta = 1, 0 < tau <= 1/L) every N iterations from the vector it returned, with 8 <= tau mu (N+1)^2: each run
   at least halves the distance of the objective from its minimum, and after r runs some minimiser z has mu/2 |x - z|^2 <= (1/2)^r (F(x0) - min F) *)
Lemma C111_restart_l : forall (E : IPS) (of og : Op E) f df L (g : efun E) e mu x0 tau beta niterback accel N,
  smooth_op of f df L -> impl_prox og g -> convex g -> 0 < e -> 0 < tau <= / L -> accel = Some "vandenberghe"%string \/ accel = Some "fista"%string -> 0 < mu ->
  let F := eadd (etot f) (escal e g) in quad_growth F mu -> edom g x0 -> (1 <= N)%nat -> 8 <= tau * mu * (INR N + 1) ^ 2 ->
  exists xs, xs 0%nat = x0 /\ (forall r, exists tr, ProximalGradient of og (xs r) [e] (Some tau) false beta 1 N niterback accel None = Ok (xs (S r), tr)) /\
    forall zo, is_min F zo -> forall r, eval F (xs r) - eval F zo <= (/ 2) ^ r * (eval F x0 - eval F zo) /\
      exists z, is_min F z /\ mu / 2 * norm2 (xs r [-] z) <= (/ 2) ^ r * (eval F x0 - eval F zo).
Proof.
  intros E of og f df L g e mu x0 tau beta nb accel N Hf Hp Hg He Ht Hac Hmu F HG Hd HN H8.
  set (run := fun x => ProximalGradient of og x [e] (Some tau) false beta 1 N nb accel None). set (next := fun x => match run x with Ok p => fst p | Err _ => x end).
  assert (Hrun : forall x, exists tr, run x = Ok (next x, tr) /\ edom F (next x) /\ forall z, is_min F z -> eval F (next x) - eval F z <= 2 * norm2 (x [-] z) / (tau * (INR N + 1) ^ 2)).
  { intro x. destruct (C42_accelerated_rate_l E of og f df L g (fun _ => 0) e x tau beta N nb accel None Hf Hp Hg He Ht HN Hac ltac:(congruence)) as (y & tr & k & E1 & _ & _ & Hk & Dy & Hr).
    fold (run x) in E1. assert (En : next x = y) by (unfold next; rewrite E1; reflexivity). rewrite En. exists tr. split; [exact E1|]. split; [exact Dy|]. rewrite (Hk eq_refl) in Hr. exact Hr. }
  set (xs := fun r => Nat.iter r next x0). exists xs. split; [reflexivity|]. split; [intro r; destruct (Hrun (xs r)) as (tr & E1 & _); exists tr; exact E1|]. intros zo Hzo.
  assert (Dx : forall r, edom F (xs r)) by (intro r; destruct r; [split; [exact I|exact Hd]|destruct (Hrun (xs r)) as (_ & _ & Dr & _); exact Dr]).
  assert (K : forall r, eval F (xs r) - eval F zo <= (/ 2) ^ r * (eval F x0 - eval F zo)).
  { induction r as [|r IH]; [cbn [pow]; change (xs 0%nat) with x0; lra|]. destruct (HG (xs r) (Dx r)) as (z & Hz & _ & Hv). destruct (Hrun (xs r)) as (_ & _ & _ & Hr). specialize (Hr z Hz).
    change (next (xs r)) with (xs (S r)) in Hr. rewrite (min_same F zo z Hzo Hz) in *. set (d := eval F (xs r) - eval F z) in *. assert (Hn : norm2 (xs r [-] z) <= 2 / mu * d).
    { apply Rmult_le_reg_l with (mu / 2); [lra|]. replace (mu / 2 * (2 / mu * d)) with d by (field; lra). unfold d. lra. }
    set (T := tau * (INR N + 1) ^ 2) in *. assert (HT : 8 <= mu * T) by (unfold T; lra). assert (HT0 : 0 < T) by (unfold T; apply Rmult_lt_0_compat; [lra|apply pow_lt; pose proof (pos_INR N); lra]).
    pose proof (norm2_nonneg (xs r [-] z)) as N0. assert (Hd0 : 0 <= d) by (pose proof (proj2 Hz (xs r) (Dx r)); unfold d; lra).
    assert (H2 : 2 * norm2 (xs r [-] z) / T <= / 2 * d).
    { apply Rmult_le_reg_r with T; [auto|]. replace (2 * norm2 (xs r [-] z) / T * T) with (2 * norm2 (xs r [-] z)) by (field; lra). apply Rmult_le_reg_l with mu; [auto|].
      assert (mu * norm2 (xs r [-] z) <= 2 * d) by (apply (Rmult_le_compat_l mu) in Hn; [|lra]; replace (mu * (2 / mu * d)) with (2 * d) in Hn by (field; lra); exact Hn). nra. }
    cbn [pow]. lra. }
  intro r. split; [apply K|]. destruct (HG (xs r) (Dx r)) as (z & Hz & _ & Hv). exists z. split; [exact Hz|]. specialize (K r). rewrite (min_same F zo z Hzo Hz) in *. lra.
Qed.

Lemma ls_opt {E F : IPS} (A : linop E F) b s z : 0 < s -> is_min (etot (sfit A b s)) z -> forall v, sfit A b s (z [+] v) = sfit A b s z + s / 2 * norm2 (A v).
Proof.
  intros Hs [_ Hm] v. assert (Q : forall t : R, sfit A b s (z [+] t [*] v) = sfit A b s z + t * (s * << A v, A z [-] b >>) + t * t * (s / 2 * norm2 (A v))).
  { intro t. unfold sfit. rewrite lapp_add, lapp_scal. replace (A z [+] t [*] A v [-] b) with ((A z [-] b) [+] t [*] A v) by vring. rewrite norm2_add, norm2_scal, inner_scal_r, (inner_sym (A z [-] b) (A v)). field. }
  assert (Hz : s * << A v, A z [-] b >> = 0).
  { set (d := s * << A v, A z [-] b >>) in *. set (M := s / 2 * norm2 (A v)) in *. assert (HM : 0 <= M) by (apply Rmult_le_pos; [lra|apply norm2_nonneg]).
    assert (P : forall t, 0 <= t * d + t * t * M) by (intro t; specialize (Hm (z [+] t [*] v) I); cbn [eval etot] in Hm; rewrite Q in Hm; lra).
    assert (P1 : 0 <= d) by (apply (small_t d M HM); intros t Ht; specialize (P t); apply Rmult_le_reg_l with t; [lra|]; lra).
    assert (P2 : 0 <= - d) by (apply (small_t (- d) M HM); intros t Ht; specialize (P (- t)); apply Rmult_le_reg_l with t; [lra|]; lra). lra. }
  specialize (Q 1). replace (z [+] 1 [*] v) with (z [+] v) in Q by vring. rewrite Hz in Q. lra.
Qed.

(*! C111_least_squares : least squares with any operator A, whatever its null space: if its non-zero singular values squared are at least m > 0 and a solution exists, s/2 |A x - b|^2 has this growth with
   mu = s m, and ProximalPoint with L2(Op=A, b, sigma=s) approaches the set of solutions by the factor 1 + tau s m/2 per iteration *)
Lemma C111_least_squares_l : forall (E F : IPS) (A : linop E F) b s m, 0 < s -> 0 < m -> bounded_off_kernel A m -> let f := etot (fun x => s / 2 * norm2 (A x [-] b)) in (exists z, is_min f z) ->
  quad_growth f (s * m) /\ forall (o : Op E) x0 tau k, is_L2 o A b s -> 0 < tau ->
    exists x tr, ProximalPoint o x0 tau k None = Ok (x, tr) /\ forall z0, is_min f z0 -> exists z, is_min f z /\ (1 + tau * (s * m) / 2) ^ k * norm (x [-] z) <= norm (x0 [-] z0).
Proof.
  intros E F A b s m Hs Hm HA f [z1 Hz1]. change f with (etot (sfit A b s)) in *. clear f.
  assert (HG : quad_growth (etot (sfit A b s)) (s * m)).
  { intros y _. destruct (HA (y [-] z1)) as (n & w & Ey & En & Ew & Hw). pose proof (ls_opt A b s z1 Hs Hz1) as Q. exists (z1 [+] n). assert (Ef : sfit A b s (z1 [+] n) = sfit A b s z1) by (rewrite Q, En, norm2_zero; ring).
    assert (Eyz : y [-] (z1 [+] n) = w) by (transitivity ((y [-] z1) [-] n); [vring|rewrite Ey; vring]). split; [|split].
    - split; [exact I|]. intros u _. cbn [eval etot]. rewrite Ef. apply (proj2 Hz1 u I).
    - intros z' Hz'. rewrite Eyz. assert (K : A (z' [-] z1) = vzero).
      { pose proof (min_same _ z1 z' Hz1 Hz') as Em. cbn [eval etot] in Em. specialize (Q (z' [-] z1)). replace (z1 [+] (z' [-] z1)) with z' in Q by vring. apply norm2_eq0. pose proof (norm2_nonneg (A (z' [-] z1))). nra. }
      assert (E2 : y [-] z' = w [+] (n [-] (z' [-] z1))) by (transitivity ((y [-] z1) [-] (z' [-] z1)); [vring|rewrite Ey; vring]). rewrite E2. apply norm_le_iff. rewrite norm2_add, Ew by (rewrite lapp_sub, En, K; vring).
      pose proof (norm2_nonneg (n [-] (z' [-] z1))). lra.
    - cbn [eval etot]. rewrite Eyz, Ef. assert (Ey2 : sfit A b s y = sfit A b s z1 + s / 2 * norm2 (A w)).
      { specialize (Q (y [-] z1)). replace (z1 [+] (y [-] z1)) with y in Q by vring. rewrite Q, Ey, lapp_add, En. do 3 f_equal. vring. }
      rewrite Ey2. assert (s / 2 * (m * norm2 w) <= s / 2 * norm2 (A w)) by (apply Rmult_le_compat_l; lra). lra. }
  split; [exact HG|]. intros o x0 tau k Ho Ht. destruct (L2_facts o A b s Hs Ho) as (Hp & _ & _). apply (C111_proximal_point_l E o _ (s * m)); auto; [apply sfit_convex; lra|nra].
Qed.

(*! C111_gradient_descent : gradient descent for least squares, as ProximalGradient with f = L2(Op=A, b, sigma=s) and g = Box() without bounds, with 0 < tau <= 1/L where s |A v|^2 <= L |v|^2, for any
   operator A, whatever its null space, with non-zero singular values squared at least m > 0: after k iterations some least squares solution z has (1 + tau s m)^k |x - z|^2 <= |x0 - z0|^2 for every solution z0 *)
Lemma C111_gradient_descent_l : forall n (F : IPS) (A : linop (Vec n) F) b s m L (of og : Op (Vec n)) (lu : nlist bounds n) e x0 tau beta niterback accel k,
  0 < s -> 0 < m -> bounded_off_kernel A m -> 0 < L -> (forall v, s * norm2 (A v) <= L * norm2 v) -> is_L2 of A b s -> is_box og lu -> Forall (fun c => c = (None, None)) (proj1_sig lu) ->
  0 < e -> 0 < tau -> tau * L <= 1 -> accel = None \/ accel = Some "None"%string -> let f := fun x => s / 2 * norm2 (A x [-] b) in (exists z, is_min (etot f) z) ->
  exists x tr, ProximalGradient of og x0 [e] (Some tau) false beta 1 (S k) niterback accel None = Ok (x, tr) /\
    forall z0, is_min (etot f) z0 -> f x - f z0 <= norm2 (x0 [-] z0) / (2 * tau * (1 + tau * (s * m)) ^ k) /\ exists z, is_min (etot f) z /\ (1 + tau * (s * m)) ^ S k * norm2 (x [-] z) <= norm2 (x0 [-] z0).
Proof.
  intros n F A b s m L of og lu e x0 tau beta nb accel k Hs Hm HA HL HAL Hof Hog Hlu He Ht HtL Hac f Hex.
  destruct (C111_least_squares_l (Vec n) F A b s m Hs Hm HA Hex) as [HG _]. fold f in HG.
  destruct (box_impl og lu Hog) as [Hcv Hp]; [eapply Forall_impl; [|exact Hlu]; intros c -> l u H; discriminate|].
  assert (Hall : forall x, box_set lu x).
  { intro x. apply box_entries. intros i Hi. assert (Hn : nth i (proj1_sig lu) (None, None) = (None, None)) by (destruct (nth_in_or_default i (proj1_sig lu) (None, None)) as [H|H]; [rewrite Forall_forall in Hlu; apply Hlu, H|exact H]).
    rewrite Hn. split; intros q Hq; discriminate. }
  set (Ft := eadd (etot f) (escal e (indic (box_set lu)))).
  assert (Ev : forall x, eval Ft x = f x) by (intro x; unfold Ft; cbn [eval eadd etot escal indic]; ring).
  assert (Hmin : forall z, is_min Ft z <-> is_min (etot f) z).
  { intro z. split; intros [D M]; (split; [first [exact I|split; [exact I|apply Hall]]|]); intros y _.
    - specialize (M y (Logic.conj I (Hall y))). rewrite !Ev in M. exact M.
    - specialize (M y I). rewrite !Ev. exact M. }
  assert (HG' : quad_growth Ft (s * m)).
  { intros y _. destruct (HG y I) as (z & Hz & Hn & Hv). exists z. split; [apply Hmin; exact Hz|]. split; [intros z' Hz'; apply Hn, Hmin, Hz'|]. rewrite !Ev. exact Hv. }
  assert (Hsm : 0 < s * m) by (apply Rmult_lt_0_compat; auto).
  assert (Hgc : convex (indic (box_set lu))) by (intros x y t Hx Hy Hti; split; [apply (Hcv x y t Hx Hy Hti)|]; cbn [eval indic]; lra).
  destruct (C111_proximal_gradient_l (Vec n) of og f (dsfit A b s) L (indic (box_set lu)) e (s * m) x0 tau beta nb accel k (L2_smooth_op of A b s L Hs HL Hof HAL) Hp Hgc He Ht HtL Hac Hsm HG') as (x & tr & Hrun & Hb).
  exists x, tr. split; [exact Hrun|]. intros z0 Hz0. destruct (Hb z0 (proj2 (Hmin z0) Hz0)) as (B1 & z & Hz & B2). fold Ft in B1. rewrite !Ev in B1. split; [exact B1|]. exists z. split; [apply Hmin; exact Hz|exact B2].
Qed.

(*!ex C111_example : the operator that keeps the first of two entries has the singular values 1 and 0 and meets the hypothesis with m = 1; for b = 0 the vectors (0, a) are the least squares solutions *)
Lemma C111_example_l : bounded_off_kernel keep_first 1 /\ exists o : Op (Vec 2), is_L2 o keep_first vzero 1 /\
  forall a, is_min (etot (fun x : Vec 2 => 1 / 2 * norm2 (keep_first x [-] vzero))) (vtab 2 (fun i => if Nat.eqb i 0 then 0 else a)).
Proof.
  assert (N2 : forall x : Vec 2, norm2 x = get x 0 * get x 0 + get x 1 * get x 1) by (intro x; unfold norm2; rewrite vec_inner; cbn [RS]; ring).
  assert (G : forall x i, (i < 2)%nat -> get (keep_first x) i = if Nat.eqb i 0 then get x 0 else 0) by (intros x i Hi; cbn [keep_first lapp]; unfold first_only; rewrite get_vtab by auto; reflexivity).
  split; [|eexists; split; [apply (L2_exists 2 (Vec 2) keep_first vzero 1 (mkL2 (WithOp keep_first true vzero) None 1 true (fun _ => 10%nat) true Legacy DenseDefault) None); reflexivity|]].
  - intro v. exists (v [-] keep_first v), (keep_first v). split; [vring|]. split; [|split].
    + apply vec_ext. intros i Hi. rewrite G, get_zero by auto. destruct (Nat.eqb i 0); [|reflexivity]. rewrite get_sub, G by lia. cbn [Nat.eqb]. ring.
    + intros u Hu. rewrite vec_inner. cbn [RS]. rewrite !G by lia. cbn [Nat.eqb]. assert (get u 0 = 0) by (transitivity (get (keep_first u) 0); [rewrite G by lia; reflexivity|rewrite Hu; apply get_zero]). rewrite H. ring.
    + rewrite !N2, !G by lia. cbn [Nat.eqb]. lra.
  - intro a. split; [exact I|]. intros y _. cbn [eval etot]. rewrite !vsub_0_r. pose proof (norm2_nonneg (keep_first y)). rewrite (N2 (keep_first (vtab _ _))), !G by lia. cbn [Nat.eqb]. rewrite get_vtab by lia. cbn [Nat.eqb]. lra.
Qed.

(*!ex C111_gradient_example : non-negative least squares with that operator and b = 0 as f = L2 and g = Box(lower=0) on two entries, e = 1: f + g has quadratic growth with mu = 1, L = 1, and
   tau = 1 with restarts every 2 iterations meets 8 <= tau mu (N+1)^2 *)
Lemma C111_gradient_example_l : exists (of og : Op (Vec 2)) (lu : nlist bounds 2), is_L2 of keep_first vzero 1 /\ is_box og lu /\ impl_prox og (indic (box_set lu)) /\ convex (indic (box_set lu)) /\
  smooth_op of (fun x => 1 / 2 * norm2 (keep_first x [-] vzero)) (fun x => 1 [*] ladj keep_first (keep_first x [-] vzero)) 1 /\
  quad_growth (eadd (etot (fun x : Vec 2 => 1 / 2 * norm2 (keep_first x [-] vzero))) (escal 1 (indic (box_set lu)))) 1 /\ (forall x, box_set lu x <-> 0 <= get x 0 /\ 0 <= get x 1) /\ 8 <= 1 * 1 * (INR 2 + 1) ^ 2.
Proof.
  destruct C111_example_l as (_ & of & Hof & _). set (lu := nl [(Some 0, None); (Some 0, None)] : nlist bounds 2).
  exists of, (obj 2 (box_body lu)), lu. split; [exact Hof|]. assert (Hb : is_box (obj 2 (box_body lu)) lu) by reflexivity. split; [exact Hb|].
  destruct (box_impl (obj 2 (box_body lu)) lu Hb) as [Hcv Hp]; [apply Forall_cons; [|apply Forall_cons; [|apply Forall_nil]]; intros l u H; discriminate|]. split; [exact Hp|]. split.
  { intros x y t Hx Hy Ht. split; [apply (Hcv x y t Hx Hy Ht)|]. cbn [eval indic]. lra. }
  assert (N2 : forall x : Vec 2, norm2 x = get x 0 * get x 0 + get x 1 * get x 1) by (intro x; unfold norm2; rewrite vec_inner; cbn [RS]; ring).
  assert (G : forall x i, (i < 2)%nat -> get (keep_first x) i = if Nat.eqb i 0 then get x 0 else 0) by (intros x i Hi; cbn [keep_first lapp]; unfold first_only; rewrite get_vtab by auto; reflexivity).
  assert (K2 : forall x, norm2 (keep_first x [-] vzero) = get x 0 * get x 0) by (intro x; rewrite vsub_0_r, N2, !G by lia; cbn [Nat.eqb]; ring).
  split. { apply (L2_smooth_op of keep_first vzero 1 1); auto; try lra. intro v. pose proof (K2 v) as Hk. rewrite vsub_0_r in Hk. rewrite Hk, N2. nra. }
  assert (Hin : forall x, box_set lu x <-> 0 <= get x 0 /\ 0 <= get x 1).
  { intro x. rewrite box_entries. split.
    - intro H. pose proof (H 0%nat ltac:(lia)) as H0. pose proof (H 1%nat ltac:(lia)) as H1. destruct H0 as [H0 _]. destruct H1 as [H1 _]. split; [apply H0|apply H1]; reflexivity.
    - intros [H0 H1] i Hi. destruct i as [|[|i]]; [| |lia]; split; intros q Hq; cbn in Hq; try discriminate; injection Hq as <-; auto. }
  split; [|split; [exact Hin|cbn [INR]; lra]].
  assert (Hmin : forall z, is_min (eadd (etot (fun x : Vec 2 => 1 / 2 * norm2 (keep_first x [-] vzero))) (escal 1 (indic (box_set lu)))) z <-> get z 0 = 0 /\ 0 <= get z 1).
  { intro z. split.
    - intros [[_ Dz] Hm]. cbn [edom escal indic] in Dz. apply Hin in Dz. split; [|lra]. set (w := vtab 2 (fun i => if Nat.eqb i 0 then 0 else get z 1)). assert (W0 : get w 0 = 0) by (unfold w; rewrite get_vtab by lia; reflexivity). assert (W1 : get w 1 = get z 1) by (unfold w; rewrite get_vtab by lia; reflexivity).
      specialize (Hm w). cbn [edom eadd etot escal indic eval] in Hm. rewrite !K2, W0 in Hm. assert (Dw : True /\ box_set lu w) by (split; [exact I|]; apply Hin; lra). specialize (Hm Dw). nra.
    - intros [Z0 Z1]. split; [split; [exact I|]; apply Hin; lra|]. intros y _. cbn [eadd etot escal indic eval]. rewrite !K2, Z0. nra. }
  intros y [_ Dy]. cbn [edom escal indic] in Dy. apply Hin in Dy. set (w := vtab 2 (fun i => if Nat.eqb i 0 then 0 else get y 1)). assert (W0 : get w 0 = 0) by (unfold w; rewrite get_vtab by lia; reflexivity). assert (W1 : get w 1 = get y 1) by (unfold w; rewrite get_vtab by lia; reflexivity).
  exists w. split; [apply Hmin; lra|]. split.
  - intros z' Hz'. apply Hmin in Hz' as [Z0 Z1]. apply norm_le_iff. rewrite !N2, !get_sub by lia. rewrite W0, W1, Z0. pose proof (Rle_0_sqr (get y 1 - get z' 1)) as Q. unfold Rsqr in Q. lra.
  - cbn [eadd etot escal indic eval]. rewrite !K2, N2, !get_sub by lia. rewrite W0, W1. nra.
Qed.

(*!ex C111_gradient_descent_example : the same operator with b = 0 and Box() on two entries meet the hypotheses of C111_gradient_descent with s = m = L = tau = e = 1 *)
Lemma C111_gradient_descent_example_l : bounded_off_kernel keep_first 1 /\ (forall v, 1 * norm2 (keep_first v) <= 1 * norm2 v) /\ exists (of og : Op (Vec 2)) (lu : nlist bounds 2),
  is_L2 of keep_first vzero 1 /\ is_box og lu /\ Forall (fun c => c = (None, None)) (proj1_sig lu) /\ is_min (etot (fun x : Vec 2 => 1 / 2 * norm2 (keep_first x [-] vzero))) (vtab 2 (fun i => if Nat.eqb i 0 then 0 else 7)).
Proof.
  destruct C111_example_l as (Hk & of & Hof & Hm). split; [exact Hk|]. split.
  - intro v. assert (N2 : forall x : Vec 2, norm2 x = get x 0 * get x 0 + get x 1 * get x 1) by (intro x; unfold norm2; rewrite vec_inner; cbn [RS]; ring).
    assert (G : forall x i, (i < 2)%nat -> get (keep_first x) i = if Nat.eqb i 0 then get x 0 else 0) by (intros x i Hi; cbn [keep_first lapp]; unfold first_only; rewrite get_vtab by auto; reflexivity).
    rewrite !N2, !G by lia. cbn [Nat.eqb]. nra.
  - set (lu := nl [(None, None); (None, None)] : nlist bounds 2). exists of, (obj 2 (box_body lu)), lu. split; [exact Hof|]. split; [reflexivity|]. split; [|exact (Hm 7)].
    apply Forall_cons; [reflexivity|]. apply Forall_cons; [reflexivity|]. apply Forall_nil.
Qed.
