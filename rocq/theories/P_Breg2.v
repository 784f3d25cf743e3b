(** * Bregman iterations solve the equality-constrained problem *)
From Coq Require Import String Psatz Classical ConstructiveEpsilon.
From Verif Require Import Base Space Spec ConvexFacts Smooth VSum MatFacts M_ProxOp SpecOps P_ProxOp M_Norms P_Norms M_L1 M_L2 P_L1 P_L2 P_L21 M_Objs S_Lasso P_Lasso M_Loop LoopFacts LoopFacts2 SeqFacts M_PG M_Split M_PD M_Multi SplitMath P_PG P_PG2 P_PG3 P_Split P_Split2 P_Split3 P_PD P_PD2 M_Breg P_Breg S_Seq Compact Fejer P_Iter P_Iter2 P_Iter3 P_Iter4 HahnBanach P_Qual M_Expr P_Expr P_Expr2 ExistMath P_Exist P_Exist2 P_Exist3 P_Sparse.
From Verif Require Export S_Breg2.
Open Scope result_scope.
Open Scope R_scope.

Lemma approach_set {E : IPS} (P : E -> Prop) (xs : nat -> E) M : bw E -> (exists m, P m) -> (forall k, norm (xs k) <= M) ->
  (forall phi l, (forall k, (k <= phi k)%nat) -> vcv (fun k => xs (phi k)) l -> P l) -> approaches P xs.
Proof.
  intros HB [m Hm] Hb Hc eps He.
  set (S := fun n r => exists z, P z /\ r = norm (xs n [-] z)).
  assert (Sne : forall n, exists r, S n r) by (intro n; exists (norm (xs n [-] m)), m; auto).
  assert (Sb : forall n, exists b, forall r, S n r -> b <= r) by (intro n; exists 0; intros r (z & _ & ->); apply norm_nonneg).
  set (d := fun n => proj1_sig (ginf (S n) (Sne n) (Sb n))).
  assert (Dl : forall n z, P z -> d n <= norm (xs n [-] z)). { intros n z Hz. unfold d. destruct (ginf _ _ _) as [b [A B]]; simpl. apply A. exists z. auto. }
  assert (Dg : forall n b, (forall z, P z -> b <= norm (xs n [-] z)) -> b <= d n). { intros n b H. unfold d. destruct (ginf _ _ _) as [b' [A B]]; simpl. apply B. intros r (z & Hz & ->). auto. }
  destruct (classic (exists N, forall n, (N <= n)%nat -> d n < eps)) as [[N HN]|Hno].
  { exists N. intros n Hn. specialize (HN n Hn). apply NNPP. intro Hz. apply (Rlt_irrefl eps). eapply Rle_lt_trans; [|exact HN]. apply Dg. intros z Hzm.
    destruct (Rle_dec eps (norm (xs n [-] z))) as [?|H]; auto. exfalso. apply Hz. exists z. split; [exact Hzm|]. apply Rnot_le_lt; exact H. }
  exfalso. assert (Hs : forall N, { n | (N <= n)%nat /\ eps <= d n }).
  { intro N. apply constructive_indefinite_ground_description_nat.
    - intro n. destruct (le_dec N n); [|right; tauto]. destruct (Rle_dec eps (d n)); [left; tauto|right; tauto].
    - apply NNPP. intro H. apply Hno. exists N. intros n Hn. destruct (Rlt_dec (d n) eps) as [?|Hd]; auto. exfalso. apply H. exists n. split; [exact Hn|]. apply Rnot_lt_le; exact Hd. }
  set (phi := fun k => proj1_sig (Hs k)). assert (Hphi : forall k, (k <= phi k)%nat /\ eps <= d (phi k)) by (intro k; unfold phi; destruct (Hs k); auto).
  destruct (HB (fun k => xs (phi k)) M) as (l & psi & Hi & Hl); [intro k; apply Hb|].
  assert (Hbig : forall k, (k <= phi (psi k))%nat) by (intro k; destruct (Hphi (psi k)); pose proof (strict_inc_ge psi Hi k); lia).
  pose proof (Hc (fun k => phi (psi k)) l Hbig Hl) as HP.
  destruct (Hl eps He) as [N HN]. specialize (HN N (Nat.le_refl _)). destruct (Hphi (psi N)) as [_ H]. specialize (Dl (phi (psi N)) l HP). lra.
Qed.

Section BC.
Context {E F D : IPS} (B : linop E D) (b : D) (s alpha : R) (g : efun F) (A : E -> F).
Context (xs qs : nat -> E) (k : nat).
Hypothesis (Hs : 0 < s) (Ha : 0 < alpha).
Hypothesis Hd : breg_doc (sfit B b s) (dsfit B b s) g A alpha xs qs k.
Hypothesis Hsub : forall j, (1 <= j <= k)%nat -> is_subgrad (epre g A) (xs j) (qs j).
Hypothesis Hmono : forall j, (1 <= j)%nat -> (S j <= k)%nat -> sfit B b s (xs (S j)) <= sfit B b s (xs j).

(* the multipliers: the residuals added up *)
Definition bv (j : nat) : D := (s / alpha) [*] VS j (fun i => b [-] B (xs (S i))).
Lemma bv_q j : (j <= k)%nat -> qs j = ladj B (bv j).
Proof.
  destruct Hd as [H0 H1]. induction j as [|j IH]; intro Hj.
  - rewrite H0. unfold bv. cbn [VS]. rewrite ladj_scal, ladj_zero. vring.
  - destruct (H1 j ltac:(lia)) as [_ ->]. rewrite (IH ltac:(lia)). unfold bv. cbn [VS]. unfold dsfit. rewrite !ladj_scal, ladj_add, !ladj_sub. vfield. lra.
Qed.
Lemma bv_S j : bv (S j) = bv j [+] (s / alpha) [*] (b [-] B (xs (S j))).
Proof. unfold bv. cbn [VS]. vring. Qed.
(* the documented inner problem is the plain one with the residuals added back to the data *)
Lemma breg_addback j : (j < k)%nat -> forall y, edom g (A y) ->
  sfit B (b [+] VS j (fun i => b [-] B (xs (S i)))) s (xs (S j)) + alpha * eval g (A (xs (S j))) <= sfit B (b [+] VS j (fun i => b [-] B (xs (S i)))) s y + alpha * eval g (A y).
Proof.
  intros Hj y Hy. destruct Hd as [_ H1]. destruct (H1 j Hj) as [[_ Hm] _]. specialize (Hm y Hy). cbn [eval breg_inner] in Hm. rewrite (bv_q j ltac:(lia)) in Hm. unfold bv in Hm. rewrite !ladj_scal, !inner_scal_l, !ladj_spec' in Hm.
  set (w := VS j (fun i => b [-] B (xs (S i)))) in *.
  assert (G : forall x, sfit B (b [+] w) s x = sfit B b s x - s * << w, B x >> + (s * << w, b >> + s / 2 * norm2 w)).
  { intro x. unfold sfit. iexp. field. }
  rewrite !G. replace (alpha * (s / alpha * << w, B (xs (S j)) >>)) with (s * << w, B (xs (S j)) >>) in Hm by (field; lra). replace (alpha * (s / alpha * << w, B y >>)) with (s * << w, B y >>) in Hm by (field; lra). lra.
Qed.

Lemma breg_exact j : (1 <= j <= k)%nat -> B (xs j) = b -> is_min (constrained g A B b) (xs j).
Proof.
  intros Hj Hb. destruct (Hsub j Hj) as [Hdm Hq]. split; [split; assumption|]. intros y [Hy1 Hy2]. specialize (Hq y Hy1). cbn [eval epre constrained] in *.
  rewrite (bv_q j ltac:(lia)), ladj_spec', lapp_sub, Hy2, Hb in Hq. replace (b [-] b) with (vzero : D) in Hq by vring. rewrite inner_zero_r in Hq. lra.
Qed.

Context (xo : E) (vo : D).
Hypothesis Ho : multiplier_at g A B xo vo.
Hypothesis Hxo : B xo = b.
Lemma bv_fejer j : (j < k)%nat -> norm2 (bv (S j) [-] vo) + (s / alpha) ^ 2 * norm2 (B (xs (S j)) [-] b) <= norm2 (bv j [-] vo).
Proof.
  intro Hj. destruct (Hsub (S j) ltac:(lia)) as [D1 Q1]. destruct Ho as [D2 Q2]. specialize (Q1 xo D2). specialize (Q2 (xs (S j)) D1).
  rewrite (bv_q (S j) ltac:(lia)) in Q1. rewrite ladj_spec', lapp_sub, Hxo in Q1, Q2. set (r := B (xs (S j))) in *.
  assert (M : 0 <= << bv (S j) [-] vo, r [-] b >>) by (revert Q1 Q2; inner_lin_all; intros; lra).
  assert (Hc : 0 < s / alpha) by (apply Rdiv_lt_0_compat; assumption). replace (bv j) with (bv (S j) [-] (s / alpha) [*] (b [-] r)) by (rewrite bv_S; fold r; vring).
  assert (0 <= s / alpha * << bv (S j) [-] vo, r [-] b >>) by (apply Rmult_le_pos; lra). set (c := s / alpha) in *. revert H. iexp. intros. lra.
Qed.
Lemma bv_sum j : (j <= k)%nat -> norm2 (bv j [-] vo) + (s / alpha) ^ 2 * RS j (fun i => norm2 (B (xs (S i)) [-] b)) <= norm2 vo.
Proof.
  induction j as [|j IH]; intro Hj.
  - cbn [RS]. unfold bv. cbn [VS]. rewrite Rmult_0_r, Rplus_0_r. right. iring.
  - specialize (IH ltac:(lia)). pose proof (bv_fejer j ltac:(lia)). cbn [RS]. lra.
Qed.
Lemma res_mono i j : (1 <= i <= j)%nat -> (j <= k)%nat -> norm2 (B (xs j) [-] b) <= norm2 (B (xs i) [-] b).
Proof.
  intros [Hi Hij]. induction Hij as [|j Hij IH]; intro Hk; [lra|]. specialize (IH ltac:(lia)). pose proof (Hmono j ltac:(lia) Hk) as H. unfold sfit in H.
  apply (Rmult_le_reg_l (s / 2)); [lra|]. assert (s / 2 * norm2 (B (xs j) [-] b) <= s / 2 * norm2 (B (xs i) [-] b)) by (apply Rmult_le_compat_l; lra). lra.
Qed.
Lemma res_rate : (1 <= k)%nat -> norm (B (xs k) [-] b) <= alpha / s * norm vo / sqrt (INR k).
Proof.
  intro Hk. assert (Hq : 0 < INR k) by (apply lt_0_INR; lia). assert (Hsq : 0 < sqrt (INR k)) by (apply sqrt_lt_R0; exact Hq). assert (Hc : 0 < s / alpha) by (apply Rdiv_lt_0_compat; assumption).
  pose proof (bv_sum k ltac:(lia)) as H. pose proof (norm2_nonneg (bv k [-] vo)).
  assert (R : INR k * norm2 (B (xs k) [-] b) <= RS k (fun i => norm2 (B (xs (S i)) [-] b))).
  { rewrite <- RS_const. apply RS_le. intros i Hi. apply res_mono; lia. }
  assert (K : (s / alpha) ^ 2 * (INR k * norm2 (B (xs k) [-] b)) <= norm2 vo).
  { apply Rle_trans with ((s / alpha) ^ 2 * RS k (fun i => norm2 (B (xs (S i)) [-] b))); [apply Rmult_le_compat_l; [apply pow2_ge_0|exact R]|lra]. }
  assert (Hv : 0 <= alpha / s * norm vo / sqrt (INR k)).
  { apply Rmult_le_pos; [apply Rmult_le_pos; [left; apply Rdiv_lt_0_compat; assumption|apply norm_nonneg]|left; apply Rinv_0_lt_compat; exact Hsq]. }
  apply norm_le_of_sq; [exact Hv|].
  replace (alpha / s * norm vo / sqrt (INR k) * (alpha / s * norm vo / sqrt (INR k))) with ((alpha / s) ^ 2 * norm2 vo / INR k).
  - apply (Rmult_le_reg_l ((s / alpha) ^ 2 * INR k)); [apply Rmult_lt_0_compat; [apply pow_lt; exact Hc|exact Hq]|].
    replace ((s / alpha) ^ 2 * INR k * ((alpha / s) ^ 2 * norm2 vo / INR k)) with (norm2 vo) by (field; repeat split; lra). lra.
  - rewrite <- (norm_sq vo), <- (sqrt_sqrt (INR k)) at 1 by lra. field. repeat split; lra.
Qed.
Lemma val_gap : (1 <= k)%nat -> - (norm vo * norm (B (xs k) [-] b)) <= eval g (A (xs k)) - eval g (A xo) <= 2 * norm vo * norm (B (xs k) [-] b).
Proof.
  intro Hk. destruct (Hsub k ltac:(lia)) as [D1 Q1]. destruct Ho as [D2 Q2]. specialize (Q1 xo D2). specialize (Q2 (xs k) D1). cbn [eval epre] in *.
  rewrite (bv_q k ltac:(lia)) in Q1. rewrite ladj_spec', lapp_sub, Hxo in Q1, Q2.
  assert (Hn : norm (bv k) <= 2 * norm vo).
  { replace (bv k) with ((bv k [-] vo) [+] vo) by vring. eapply Rle_trans; [apply norm_triangle|]. assert (norm (bv k [-] vo) <= norm vo); [|lra]. unfold norm. apply sqrt_le_1_alt. pose proof (bv_sum k ltac:(lia)) as H.
    assert (0 <= (s / alpha) ^ 2 * RS k (fun i => norm2 (B (xs (S i)) [-] b))) by (apply Rmult_le_pos; [apply pow2_ge_0|apply RS_nonneg; intros; apply norm2_nonneg]). lra. }
  split.
  - pose proof (CS_abs vo (B (xs k) [-] b)) as C. pose proof (Rle_abs (<< vo, B (xs k) [-] b >>)); pose proof (Rle_abs (- << vo, B (xs k) [-] b >>)); rewrite Rabs_Ropp in *; lra.
  - pose proof (CS_abs (bv k) (B (xs k) [-] b)) as C. assert (norm (bv k) * norm (B (xs k) [-] b) <= 2 * norm vo * norm (B (xs k) [-] b)) by (apply Rmult_le_compat_r; [apply norm_nonneg|exact Hn]).
    assert (Eq : << bv k, b [-] B (xs k) >> = - << bv k, B (xs k) [-] b >>) by (inner_lin_all; ring). rewrite Eq in Q1. pose proof (Rle_abs (<< bv k, B (xs k) [-] b >>)); pose proof (Rle_abs (- << bv k, B (xs k) [-] b >>)); rewrite Rabs_Ropp in *; lra.
Qed.
End BC.

(** the run, when minimisers of the inner problems exist along it *)
Lemma breg_run (E F : IPS) (fuel : nat) (proxf : Op E) (proxg : Op F) f df g (A : E -> F) solver alpha x0 n warm tolx tolf (Inv : E -> Prop) :
  0 < alpha -> impl_prox proxf (etot f) -> impl_call proxf (etot f) -> (forall x, o_grad proxf x = Ok (Some (df x)) /\ is_grad f x (df x)) ->
  convex (etot f) -> impl_prox proxg g -> impl_call proxg g -> convex (epre g A) -> good_solver f g A alpha solver ->
  Inv vzero -> (forall q, Inv q -> exists x, is_min (breg_inner f g A alpha q) x) -> (forall q x, Inv q -> Inv (q [-] (1 / alpha) [*] df x)) ->
  exists xs qs k, Bregman (S fuel) proxf proxg x0 solver (PFloat alpha) n warm tolx tolf = Ok (xs k, map xs (seq 1 k)) /\
    xs 0%nat = x0 /\ breg_doc f df g A alpha xs qs k /\
    stops_when (fun j => norm (xs j [-] xs (j - 1)%nat) < tolx \/ f (xs j) < tolf) n k /\
    (forall j, (1 <= j <= k)%nat -> is_subgrad (epre g A) (xs j) (qs j)) /\
    (forall j, (1 <= j)%nat -> (S j <= k)%nat -> f (xs (S j)) <= f (xs j)).
Proof.
  intros Ha Pf Cf Gf Vf Pg Cg Vg Hx I0 Iex Inx.
  destruct (scaling_prox F fuel proxg g alpha Ha Pg) as [ag [Eg [Pag Cag]]]. specialize (Cag Cg).
  set (Rl := fun (j : nat) (s s' : br_state E) (b : bool) =>
     ((j = 0%nat -> br_q s = vzero) /\ Inv (br_q s)) ->
     is_min (breg_inner f g A alpha (br_q s)) (br_x s') /\ br_q s' = br_q s [-] (1 / alpha) [*] df (br_x s') /\
     br_tr s' = br_tr s ++ [br_x s'] /\ (b = true <-> (norm (br_x s' [-] br_x s) < tolx \/ f (br_x s') < tolf))).
  destruct (loop_states_brk (br_body (S fuel) proxf ag x0 solver alpha warm tolx tolf) (fun j s => (j = 0%nat -> br_q s = vzero) /\ Inv (br_q s)) Rl n (BR x0 vzero []))
    as [st [bs [k [E1 [S0 [Hk [_ [HP [HR [Hb Hl]]]]]]]]]]; auto.
  - intros j s Hj [Hq HI].
    assert (Hpq : exists o, (match j with O => Ok proxf | S _ => op_sub (S fuel) proxf (PArray (alpha [*] br_q s)) end) = Ok o /\
      impl_prox o (elin (etot f) (vopp (alpha [*] br_q s))) /\ impl_call o (elin (etot f) (vopp (alpha [*] br_q s))) /\
      impl_grad o (fun x => f x + << vopp (alpha [*] br_q s), x >>)).
    { destruct j as [|j].
      - exists proxf. split; auto. rewrite (Hq eq_refl). assert (Hz : forall x : E, << vopp (alpha [*] vzero), x >> = 0) by (intro; inner_lin_all; ring).
        split; [|split].
        + intros x tau Ht. destruct (Pf x tau Ht) as [p [Hp [_ Hm]]]. exists p. split; auto. split; [exact I|]. intros y _. specialize (Hm y I).
          cbn [eval elin etot] in *. rewrite !Hz. lra.
        + intros x _. rewrite (Cf x I). cbn [eval elin etot]. rewrite Hz, Rplus_0_r. reflexivity.
        + intro x. exists (df x). destruct (Gf x) as [G1 G2]. split; auto. intros eps He. destruct (G2 eps He) as [d [D1 D2]]. exists d. split; auto.
          intros h Hh. rewrite !Hz, !Rplus_0_r. auto.
      - destruct (affine_prox E fuel proxf (etot f) (vopp (alpha [*] br_q s)) Pf) as [o [H1 [H2 H3]]].
        destruct (affine_grad E fuel proxf f (vopp (alpha [*] br_q s))) as [o' [H4 H5]]; [intro x; exists (df x); apply Gf|].
        exists o. split; [exact H1|]. split; [exact H2|]. split; [exact (H3 Cf)|]. assert (o' = o) as <- by congruence. exact H5. }
    destruct Hpq as [o [Eo [Po [Co Go]]]]. unfold br_body. rewrite Eo. cbn [bind].
    assert (Hexm : exists x, is_min (eadd (elin (etot f) (vopp (alpha [*] br_q s))) (epre (escal alpha g) A)) x).
    { destruct (Iex _ HI) as [x [M1 M2]]. exists x. split; [split; [exact I|exact M1]|]. intros y [_ Hy]. specialize (M2 y Hy). cbn [eval eadd elin etot epre escal breg_inner] in *.
      rewrite !inner_opp_l, !inner_scal_l. lra. }
    destruct (Hx o ag (vopp (alpha [*] br_q s)) (if warm then br_x s else x0) Po Co Go Pag Cag Hexm) as [out [xo [-> [Hso Hm]]]]. apply solution_x in Hso. subst xo. cbn [bind].
    unfold get_grad. rewrite (proj1 (Gf (solver_x out))). cbn [bind]. rewrite pydiv_ok by lra. cbn [bind].
    unfold get_val. rewrite (Cf (solver_x out) I). cbn [bind as_num eval etot].
    eexists. eexists. split; [reflexivity|]. split; [|split; [discriminate|cbn [br_q]; apply Inx; exact HI]]. intros _. cbn [br_x br_q br_tr].
    split; [|split; [reflexivity|split; [reflexivity|]]].
    + destruct Hm as [[_ M1] M2]. split; [exact M1|]. intros y Hy. specialize (M2 y (Logic.conj I Hy)). cbn [eval eadd elin etot epre escal breg_inner] in *.
      rewrite !inner_opp_l, !inner_scal_l in M2. lra.
    + rewrite orb_true_iff, !Rltb_true. reflexivity.
  - exists (fun j => br_x (st j)), (fun j => br_q (st j)), k.
    assert (Hdoc : breg_doc f df g A alpha (fun j => br_x (st j)) (fun j => br_q (st j)) k).
    { split; [rewrite S0; reflexivity|]. intros j Hj. destruct (HR j Hj (HP j ltac:(lia))) as [H1 [H2 _]]. split; auto. }
    split; [|split; [|split; [|split; [|split]]]]; auto.
    + unfold Bregman. rewrite Eg. cbn [bind num_of]. rewrite E1. cbn [bind fst]. do 2 f_equal.
      apply (trace_states st br_tr br_x); [rewrite S0; auto|]. intros j Hj. destruct (HR j Hj (HP j ltac:(lia))) as [_ [_ [H3 _]]]. exact H3.
    + rewrite S0. reflexivity.
    + apply (stops_when_intro _ bs); auto. intros j Hj. replace (S j - 1)%nat with j by lia. apply (HR j Hj (HP j ltac:(lia))).
    + intros j Hj. apply (breg_subgrad f df g A alpha Ha (fun x => proj2 (Gf x)) Vg (fun j => br_x (st j)) (fun j => br_q (st j)) k Hdoc j Hj).
    + intros j Hj1 Hj2. apply (breg_mono f df g A alpha Ha (fun x => proj2 (Gf x)) Vg (fun j => br_x (st j)) (fun j => br_q (st j)) k Hdoc j Hj1 Hj2).
Qed.

Lemma doc_less {E F : IPS} f df (g : efun F) (A : E -> F) alpha xs qs k j : (j <= k)%nat -> breg_doc f df g A alpha xs qs k -> breg_doc f df g A alpha xs qs j.
Proof. intros Hj [H0 H]. split; [exact H0|]. intros i Hi. apply H. lia. Qed.

Lemma pen_inner {E F D : IPS} (g : efun F) (A : E -> F) (B : linop E D) b s alpha w x : 0 < alpha ->
  is_min (breg_inner (sfit B b s) g A alpha (ladj B ((s / alpha) [*] w))) x <-> is_min (penalised g A B s alpha (b [+] w)) x.
Proof.
  intro Ha. assert (G : forall y, eval (penalised g A B s alpha (b [+] w)) y = eval (breg_inner (sfit B b s) g A alpha (ladj B ((s / alpha) [*] w))) y + (s * << w, b >> + s / 2 * norm2 w)).
  { intro y. cbn [eval penalised breg_inner]. rewrite ladj_scal, inner_scal_l, ladj_spec'. replace (alpha * (s / alpha * << w, B y >>)) with (s * << w, B y >>) by (field; lra). unfold sfit. iexp. field. }
  split; intros [H1 H2]; (split; [exact H1|]); intros y Hy; specialize (H2 y Hy); rewrite ?G in *; lra.
Qed.

Lemma breg_run_L2 (E F D : IPS) (fuel : nat) (proxf : Op E) (proxg : Op F) (B : linop E D) b s g (A : E -> F) solver alpha x0 n warm tolx tolf C :
  0 < s -> 0 < alpha -> is_L2 proxf B b s -> 0 <= C -> (forall v, norm2 (B v) <= C * norm2 v) -> impl_prox proxg g -> impl_call proxg g -> convex (epre g A) ->
  (forall c, exists x, is_min (penalised g A B s alpha c) x) -> good_solver (sfit B b s) g A alpha solver ->
  exists xs qs k, Bregman (S fuel) proxf proxg x0 solver (PFloat alpha) n warm tolx tolf = Ok (xs k, map xs (seq 1 k)) /\
    xs 0%nat = x0 /\ breg_doc (sfit B b s) (dsfit B b s) g A alpha xs qs k /\
    stops_when (fun j => norm (xs j [-] xs (j - 1)%nat) < tolx \/ sfit B b s (xs j) < tolf) n k /\
    (forall j, (1 <= j <= k)%nat -> is_subgrad (epre g A) (xs j) (qs j)) /\
    (forall j, (1 <= j)%nat -> (S j <= k)%nat -> sfit B b s (xs (S j)) <= sfit B b s (xs j)).
Proof.
  intros Hs Ha Hf HC HB Pg Cg Vg Hex Hsol. destruct (L2_facts proxf B b s Hs Hf) as (P1 & P2 & P3).
  apply (breg_run E F fuel proxf proxg (sfit B b s) (dsfit B b s) g A solver alpha x0 n warm tolx tolf (fun q => exists w, q = ladj B ((s / alpha) [*] w))); auto.
  - intro x. split; [apply P3|apply (sfit_grad B b s C); auto].
  - apply sfit_convex. lra.
  - exists vzero. rewrite ladj_scal, ladj_zero. vring.
  - intros q [w ->]. destruct (Hex (b [+] w)) as [x Hx]. exists x. apply pen_inner; auto.
  - intros q x [w ->]. exists (w [+] (b [-] B x)). unfold dsfit. rewrite !ladj_scal, ladj_add, !ladj_sub. vfield. lra.
Qed.

(*! C93_add_back : for every L2(Op=B, b=b, sigma=s) object with bounded B, every g with g(A .) convex and every proxg that is correct for g, alpha > 0, if the problems s/2 |B x - c|^2 + alpha g(A x)
   have minimisers and the solver returns one whenever one exists: Bregman never raises; it stops after the first iteration j with |x_j - x_(j-1)| < tolx or s/2 |B x_j - b|^2 < tolf (else after
   niterouter); x_(j+1) minimises s/2 |B x - b_j|^2 + alpha g(A x), where b_j is the data with the residuals b - B x_i of all earlier iterations added back; and if B x_j = b for some j >= 1 then
   x_j already minimises g(A x) subject to B x = b *)
Lemma C93_add_back_l : forall (E F D : IPS) (fuel : nat) (proxf : Op E) (proxg : Op F) (B : linop E D) b s g (A : E -> F) solver alpha x0 n warm tolx tolf C,
  0 < s -> 0 < alpha -> is_L2 proxf B b s -> 0 <= C -> (forall v, norm2 (B v) <= C * norm2 v) -> impl_prox proxg g -> impl_call proxg g -> convex (epre g A) ->
  (forall c, exists x, is_min (penalised g A B s alpha c) x) -> good_solver (fun x => s / 2 * norm2 (B x [-] b)) g A alpha solver ->
  exists xs k, Bregman (S fuel) proxf proxg x0 solver (PFloat alpha) n warm tolx tolf = Ok (xs k, map xs (seq 1 k)) /\ xs 0%nat = x0 /\
    stops_when (fun j => norm (xs j [-] xs (j - 1)%nat) < tolx \/ s / 2 * norm2 (B (xs j) [-] b) < tolf) n k /\
    (forall j, (j < k)%nat -> is_min (penalised g A B s alpha (b [+] VS j (fun i => b [-] B (xs (S i))))) (xs (S j))) /\
    (forall j, (1 <= j <= k)%nat -> B (xs j) = b -> is_min (constrained g A B b) (xs j)).
Proof.
  intros E F D fuel proxf proxg B b s g A solver alpha x0 n warm tolx tolf C Hs Ha Hf HC HB Pg Cg Vg Hex Hsol.
  destruct (breg_run_L2 E F D fuel proxf proxg B b s g A solver alpha x0 n warm tolx tolf C Hs Ha Hf HC HB Pg Cg Vg Hex Hsol) as (xs & qs & k & R1 & R2 & R3 & R4 & R5 & R6).
  exists xs, k. split; [exact R1|]. split; [exact R2|]. split; [exact R4|]. split.
  - intros j Hj. apply pen_inner; [exact Ha|]. pose proof (bv_q B b s alpha g A xs qs k Ha R3 j ltac:(lia)) as Hq. unfold bv in Hq. rewrite <- Hq. apply R3. exact Hj.
  - intros j Hj Hb. eapply breg_exact; eauto.
Qed.

(*! C93_rate : under the same hypotheses, for every feasible x* (B x* = b) with a multiplier v (B^T v is a subgradient of g(A .) at x*; x* then solves the constrained problem): after j iterations
   |B x_j - b| <= (alpha / s) |v| / sqrt j, and the value g(A x_j) is above the optimal one by at most 2 |v| |B x_j - b| and below it by at most |v| |B x_j - b| *)
Lemma C93_rate_l : forall (E F D : IPS) (fuel : nat) (proxf : Op E) (proxg : Op F) (B : linop E D) b s g (A : E -> F) solver alpha x0 n warm tolx tolf C xo vo,
  0 < s -> 0 < alpha -> is_L2 proxf B b s -> 0 <= C -> (forall v, norm2 (B v) <= C * norm2 v) -> impl_prox proxg g -> impl_call proxg g -> convex (epre g A) ->
  (forall c, exists x, is_min (penalised g A B s alpha c) x) -> good_solver (fun x => s / 2 * norm2 (B x [-] b)) g A alpha solver ->
  B xo = b -> multiplier_at g A B xo vo ->
  is_min (constrained g A B b) xo /\
  exists xs k, Bregman (S fuel) proxf proxg x0 solver (PFloat alpha) n warm tolx tolf = Ok (xs k, map xs (seq 1 k)) /\
    stops_when (fun j => norm (xs j [-] xs (j - 1)%nat) < tolx \/ s / 2 * norm2 (B (xs j) [-] b) < tolf) n k /\
    forall j, (1 <= j <= k)%nat -> edom g (A (xs j)) /\ norm (B (xs j) [-] b) <= alpha / s * norm vo / sqrt (INR j) /\
      - (norm vo * norm (B (xs j) [-] b)) <= eval g (A (xs j)) - eval g (A xo) <= 2 * norm vo * norm (B (xs j) [-] b).
Proof.
  intros E F D fuel proxf proxg B b s g A solver alpha x0 n warm tolx tolf C xo vo Hs Ha Hf HC HB Pg Cg Vg Hex Hsol Hxo Hvo.
  split.
  { destruct Hvo as [D1 Q1]. split; [split; assumption|]. intros y [Y1 Y2]. specialize (Q1 y Y1). cbn [eval epre constrained] in *. rewrite ladj_spec', lapp_sub, Y2, Hxo in Q1.
    replace (b [-] b) with (vzero : D) in Q1 by vring. rewrite inner_zero_r in Q1. lra. }
  destruct (breg_run_L2 E F D fuel proxf proxg B b s g A solver alpha x0 n warm tolx tolf C Hs Ha Hf HC HB Pg Cg Vg Hex Hsol) as (xs & qs & k & R1 & R2 & R3 & R4 & R5 & R6).
  exists xs, k. split; [exact R1|]. split; [exact R4|]. intros j Hj. split; [apply (R5 j Hj)|].
  assert (Hd : breg_doc (sfit B b s) (dsfit B b s) g A alpha xs qs j) by (apply (doc_less _ _ _ _ _ _ _ k); [lia|exact R3]).
  assert (S5 : forall i, (1 <= i <= j)%nat -> is_subgrad (epre g A) (xs i) (qs i)) by (intros i Hi; apply R5; lia).
  assert (S6 : forall i, (1 <= i)%nat -> (S i <= j)%nat -> sfit B b s (xs (S i)) <= sfit B b s (xs i)) by (intros i H1 H2; apply R6; lia).
  split; [apply (res_rate B b s alpha g A xs qs j Hs Ha Hd S5 S6 xo vo Hvo Hxo)|apply (val_gap B b s alpha g A xs qs j Hs Ha Hd S5 xo vo Hvo Hxo)]; lia.
Qed.

Lemma nat_above (r : R) : exists N, r < INR N.
Proof.
  destruct (archimed (Rmax r 0)) as [H _]. exists (Z.to_nat (up (Rmax r 0))). pose proof (Rmax_l r 0). pose proof (Rmax_r r 0). rewrite INR_IZR_INZ, Z2Nat.id; [lra|]. apply le_IZR. lra.
Qed.
Lemma closed_limit {E : IPS} (G : efun E) (u : nat -> E) l (c : R) : closed G -> vcv u l -> (forall eps, 0 < eps -> exists N, forall n, (N <= n)%nat -> edom G (u n) /\ eval G (u n) <= c + eps) -> edom G l /\ eval G l <= c.
Proof.
  intros HG Hl Hu. assert (H : forall d, 0 < d -> edom G l /\ eval G l <= c + d).
  { intros d Hd. apply HG. intros eps He. destruct (Hl eps He) as [N1 H1]. destruct (Hu d Hd) as [N2 H2]. exists (u (N1 + N2)%nat). split; [apply H1; lia|]. apply H2. lia. }
  split; [apply (H 1); lra|]. apply Rnot_lt_le. intro Hlt. destruct (H ((eval G l - c) / 2) ltac:(lra)) as [_ H2]. lra.
Qed.

(*! C93_converges : in addition, on a space where bounded sequences have convergent subsequences, with g(A .) closed and its level sets bounded, a solution with a multiplier and tolx, tolf <= 0: the vectors
   returned for niterouter = 0, 1, 2, ... come arbitrarily close to the set of solutions of: minimise g(A x) subject to B x = b; and they converge to the solution if it is unique *)
Lemma C93_converges_l : forall (E F D : IPS) (fuel : nat) (proxf : Op E) (proxg : Op F) (B : linop E D) b s g (A : E -> F) solver alpha x0 warm tolx tolf C xo vo,
  bw E -> closed (epre g A) -> level_bounded (epre g A) ->
  0 < s -> 0 < alpha -> is_L2 proxf B b s -> 0 <= C -> (forall v, norm2 (B v) <= C * norm2 v) -> impl_prox proxg g -> impl_call proxg g -> convex (epre g A) ->
  (forall c, exists x, is_min (penalised g A B s alpha c) x) -> good_solver (fun x => s / 2 * norm2 (B x [-] b)) g A alpha solver ->
  B xo = b -> multiplier_at g A B xo vo -> tolx <= 0 -> tolf <= 0 ->
  exists xs, (forall n, exists tr, Bregman (S fuel) proxf proxg x0 solver (PFloat alpha) n warm tolx tolf = Ok (xs n, tr) /\ length tr = n) /\
    approaches (is_min (constrained g A B b)) xs /\
    forall l, (forall y, is_min (constrained g A B b) y <-> y = l) -> vcv xs l.
Proof.
  intros E F D fuel proxf proxg B b s g A solver alpha x0 warm tolx tolf C xo vo HB Hcl Hlb Hs Ha Hf HC HBb Pg Cg Vg Hex Hsol Hxo Hvo Tx Tf.
  set (xs := fun n => match Bregman (S fuel) proxf proxg x0 solver (PFloat alpha) n warm tolx tolf with Ok r => fst r | Err _ => vzero end).
  assert (Hrun : forall n, exists tr, Bregman (S fuel) proxf proxg x0 solver (PFloat alpha) n warm tolx tolf = Ok (xs n, tr) /\ length tr = n /\
     ((1 <= n)%nat -> edom g (A (xs n)) /\ norm (B (xs n) [-] b) <= alpha / s * norm vo / sqrt (INR n) /\
      - (norm vo * norm (B (xs n) [-] b)) <= eval g (A (xs n)) - eval g (A xo) <= 2 * norm vo * norm (B (xs n) [-] b))).
  { intro n. destruct (C93_rate_l E F D fuel proxf proxg B b s g A solver alpha x0 n warm tolx tolf C xo vo Hs Ha Hf HC HBb Pg Cg Vg Hex Hsol Hxo Hvo) as [_ (ys & k & R1 & R2 & R3)].
    assert (k = n) as ->.
    { destruct R2 as [Hk [_ [Hstop|[_ [H|H]]]]]; [assumption| |]; exfalso.
      - pose proof (norm_nonneg (ys k [-] ys (k - 1)%nat)). lra.
      - assert (0 <= s / 2 * norm2 (B (ys k) [-] b)) by (apply Rmult_le_pos; [lra|apply norm2_nonneg]). lra. }
    exists (map ys (seq 1 n)). unfold xs. rewrite R1. cbn [fst]. split; [reflexivity|]. split; [rewrite map_length; apply seq_length|]. intro H1. apply R3. lia. }
  exists xs. split; [intro n; destruct (Hrun n) as (tr & H1 & H2 & _); exists tr; auto|].
  assert (Hr : forall n, (1 <= n)%nat -> edom g (A (xs n)) /\ norm (B (xs n) [-] b) <= alpha / s * norm vo / sqrt (INR n) /\
      - (norm vo * norm (B (xs n) [-] b)) <= eval g (A (xs n)) - eval g (A xo) <= 2 * norm vo * norm (B (xs n) [-] b)) by (intros n Hn; destruct (Hrun n) as (_ & _ & _ & H); auto).
  set (K := alpha / s * norm vo) in *. assert (HK : 0 <= K) by (apply Rmult_le_pos; [left; apply Rdiv_lt_0_compat; assumption|apply norm_nonneg]). pose proof (norm_nonneg vo) as Hvn.
  assert (Hk1 : forall n, (1 <= n)%nat -> norm (B (xs n) [-] b) <= K).
  { intros n Hn. destruct (Hr n Hn) as (_ & H & _). eapply Rle_trans; [exact H|]. assert (1 <= sqrt (INR n)).
    { rewrite <- sqrt_1. apply sqrt_le_1_alt. apply (le_INR 1). exact Hn. }
    apply (Rmult_le_reg_r (sqrt (INR n))); [lra|]. unfold Rdiv. rewrite Rmult_assoc, Rinv_l, Rmult_1_r by lra. rewrite <- (Rmult_1_r K) at 1. apply Rmult_le_compat_l; lra. }
  assert (Hk0 : forall eps, 0 < eps -> exists N, forall n, (N <= n)%nat -> norm (B (xs n) [-] b) <= eps /\ (1 <= n)%nat).
  { intros eps He. set (a := K / eps). assert (Ha0 : 0 <= a) by (apply Rmult_le_pos; [exact HK|left; apply Rinv_0_lt_compat; exact He]). destruct (nat_above (a * a)) as [N HN]. exists (S N). intros n Hn. split; [|lia].
    destruct (Hr n ltac:(lia)) as (_ & H & _). eapply Rle_trans; [exact H|]. assert (Hq : a <= sqrt (INR n)).
    { rewrite <- (sqrt_square a) by exact Ha0. apply sqrt_le_1_alt. assert (INR N <= INR n) by (apply le_INR; lia). lra. }
    assert (0 < sqrt (INR n)) by (apply sqrt_lt_R0; apply lt_0_INR; lia).
    apply (Rmult_le_reg_r (sqrt (INR n))); [lra|]. unfold Rdiv. rewrite Rmult_assoc, Rinv_l, Rmult_1_r by lra. replace K with (eps * a) by (unfold a; field; lra). apply Rmult_le_compat_l; lra. }
  assert (Happ : approaches (is_min (constrained g A B b)) xs).
  { destruct (Hlb (eval g (A xo) + 2 * norm vo * K)) as [M HM].
    apply (approach_set (is_min (constrained g A B b)) xs (Rmax M (norm (xs 0%nat)))); auto.
    - exists xo. destruct Hvo as [D1 Q1]. split; [split; assumption|]. intros y [Y1 Y2]. specialize (Q1 y Y1). cbn [eval epre constrained] in *. rewrite ladj_spec', lapp_sub, Y2, Hxo in Q1.
      replace (b [-] b) with (vzero : D) in Q1 by vring. rewrite inner_zero_r in Q1. lra.
    - intros [|n]; [apply Rmax_r|]. eapply Rle_trans; [|apply Rmax_l]. destruct (Hr (S n) ltac:(lia)) as (H1 & _ & H2). apply HM; [exact H1|]. cbn [eval epre].
      assert (2 * norm vo * norm (B (xs (S n)) [-] b) <= 2 * norm vo * K) by (apply Rmult_le_compat_l; [lra|apply Hk1; lia]). lra.
    - intros phi l Hphi Hl.
      assert (HG : edom (epre g A) l /\ eval (epre g A) l <= eval g (A xo)).
      { apply (closed_limit (epre g A) (fun k => xs (phi k))); auto. intros eps He. set (dl := eps / (2 * norm vo + 1)). assert (Hdl : 0 < dl) by (apply Rdiv_lt_0_compat; lra).
        destruct (Hk0 dl Hdl) as [N HN]. exists N. intros n Hn. destruct (HN (phi n) ltac:(specialize (Hphi n); lia)) as [H1 H2]. destruct (Hr (phi n) H2) as (H3 & _ & H4). split; [exact H3|]. cbn [eval epre].
        assert (2 * norm vo * norm (B (xs (phi n)) [-] b) <= 2 * norm vo * dl) by (apply Rmult_le_compat_l; [lra|exact H1]). assert ((2 * norm vo + 1) * dl = eps) by (unfold dl; field; lra). lra. }
      assert (Hfeas : B l = b).
      { assert (Z : norm (B l [-] b) = 0).
        { apply Rle_antisym; [|apply norm_nonneg]. apply Rnot_lt_le. intro Hlt. set (e := norm (B l [-] b)) in *. set (c := sqrt C + 1). assert (Hc : 0 < c) by (unfold c; pose proof (sqrt_pos C); lra).
          destruct (Hk0 (e / 3) ltac:(lra)) as [N1 H1]. destruct (Hl (e / (3 * c)) ltac:(apply Rdiv_lt_0_compat; lra)) as [N2 H2]. set (n := (N1 + N2)%nat). specialize (H2 n ltac:(lia)). destruct (H1 (phi n) ltac:(specialize (Hphi n); lia)) as [H3 _].
          assert (H4 : norm (B (xs (phi n) [-] l)) <= c * norm (xs (phi n) [-] l)).
          { apply norm_le_of_sq; [apply Rmult_le_pos; [lra|apply norm_nonneg]|]. eapply Rle_trans; [apply HBb|]. rewrite <- norm_sq. pose proof (sqrt_sqrt C HC). pose proof (sqrt_pos C). pose proof (norm_nonneg (xs (phi n) [-] l)) as Hz. set (z := norm (xs (phi n) [-] l)) in *.
            replace (c * z * (c * z)) with (c * c * (z * z)) by ring. apply Rmult_le_compat_r; [apply Rmult_le_pos; assumption|]. unfold c. lra. }
          assert (H5 : c * norm (xs (phi n) [-] l) <= c * (e / (3 * c))) by (apply Rmult_le_compat_l; lra). replace (c * (e / (3 * c))) with (e / 3) in H5 by (field; lra).
          assert (e <= norm (B (xs (phi n)) [-] b) + norm (B (xs (phi n) [-] l))); [|lra]. unfold e. replace (B l [-] b) with ((B (xs (phi n)) [-] b) [+] vopp (B (xs (phi n) [-] l))) by (rewrite lapp_sub; vring).
          eapply Rle_trans; [apply norm_triangle|]. apply Rplus_le_compat_l. right. unfold norm; f_equal; unfold norm2; inner_lin_all; ring. }
        assert (B l [-] b = vzero) as Hz by (apply norm2_eq0; rewrite <- norm_sq, Z; ring). replace (B l) with ((B l [-] b) [+] b) by vring. rewrite Hz. vring. }
      destruct HG as [G1 G2]. split; [split; assumption|]. intros y [Y1 Y2]. destruct Hvo as [D1 Q1]. specialize (Q1 y Y1). cbn [eval epre constrained] in *. rewrite ladj_spec', lapp_sub, Y2, Hxo in Q1.
      replace (b [-] b) with (vzero : D) in Q1 by vring. rewrite inner_zero_r in Q1. lra. }
  split; [exact Happ|]. intros l Hu eps He. destruct (Happ eps He) as [N HN]. exists N. intros n Hn. destruct (HN n Hn) as [z [Hz1 Hz2]]. apply Hu in Hz1. subst z. exact Hz2.
Qed.

Lemma bp_closed n (F : IPS) (B : linop (Vec n) F) b : closed (basis_pursuit B b).
Proof.
  intros l c H. split.
  - assert (Hc : closed (etot (sfit B b 2))) by (apply closed_total; [apply hb_vec|apply sfit_convex; lra]).
    destruct (Hc l 0) as [_ Hl].
    + intros eps He. destruct (H eps He) as (x & H1 & H2 & _). exists x. split; [exact H1|]. split; [exact I|]. cbn [edom basis_pursuit eval etot] in *. unfold sfit. rewrite H2. replace (b [-] b) with (vzero : F) by vring. unfold norm2. rewrite inner_zero_r. lra.
    + cbn [eval etot] in Hl. unfold sfit in Hl. assert (Z : norm2 (B l [-] b) = 0) by (pose proof (norm2_nonneg (B l [-] b)); lra). apply norm2_eq0 in Z. cbn [edom basis_pursuit]. replace (B l) with ((B l [-] b) [+] b) by vring. rewrite Z. vring.
  - assert (Hc : closed (etot (l1n (n:=n) 1))) by (apply closed_total; [apply hb_vec|apply l1n_convex; lra]).
    destruct (Hc l c) as [_ Hl].
    + intros eps He. destruct (H eps He) as (x & H1 & _ & H3). exists x. split; [exact H1|]. split; [exact I|]. cbn [eval etot basis_pursuit] in *. rewrite l1n_sum. lra.
    + cbn [eval etot basis_pursuit] in *. rewrite l1n_sum in Hl. lra.
Qed.
Lemma sum_abs_nonneg n (x : Vec n) : 0 <= sum_abs x.
Proof. apply RS_nonneg. intros. apply Rabs_pos. Qed.
Lemma bp_exists n (F : IPS) (B : linop (Vec n) F) b : (exists x, B x = b) -> exists m, is_min (basis_pursuit B b) m.
Proof.
  intro Hx. apply convex_min; auto.
  - exact (proj1 (proj2 C75_arrays_l) n).
  - exact (complete_pow R_IPS n complete_R).
  - exact (described_pow R_IPS n described_R).
  - intros x y t X Y Ht. cbn [edom eval basis_pursuit] in *. destruct (l1n_convex n 1 ltac:(lra) x y t I I Ht) as [_ H]. cbn [eval etot] in H. rewrite !l1n_sum in H.
    split; [rewrite lapp_add, !lapp_scal, X, Y; vring|lra].
  - apply bp_closed.
  - exists vzero, 0. intros x _. rewrite inner_zero_l. cbn [eval basis_pursuit]. pose proof (sum_abs_nonneg n x). lra.
  - apply (bp_level _ 1); [lra|]. intro y. cbn [eval basis_pursuit]. ring.
Qed.
Lemma pen_exists n (F : IPS) (B : linop (Vec n) F) s alpha lam c : 0 < s -> 0 < alpha -> 0 < lam -> exists x, is_min (penalised (etot (l1n lam)) (fun x : Vec n => x) B s alpha c) x.
Proof.
  intros Hs Ha Hl. assert (Cv : convex (etot (fun x : Vec n => sfit B c s x + alpha * l1n lam x))).
  { intros x y t _ _ Ht. split; [exact I|]. destruct (l1n_convex n lam ltac:(lra) x y t I I Ht) as [_ H]. destruct (sfit_convex B c s ltac:(lra) x y t I I Ht) as [_ H2]. cbn [eval etot] in *. apply (Rmult_le_compat_l alpha) in H; lra. }
  assert (P : forall x : Vec n, 0 <= sfit B c s x) by (intro x; unfold sfit; apply Rmult_le_pos; [lra|apply norm2_nonneg]).
  destruct (convex_min (etot (fun x : Vec n => sfit B c s x + alpha * l1n lam x))) as [m [_ Hm]]; auto.
  - exact (proj1 (proj2 C75_arrays_l) n).
  - exact (complete_pow R_IPS n complete_R).
  - exact (described_pow R_IPS n described_R).
  - apply closed_total; [apply hb_vec|exact Cv].
  - exists vzero, 0. intros x _. rewrite inner_zero_l. cbn [eval etot]. rewrite l1n_sum. specialize (P x). assert (0 <= alpha * (lam * sum_abs x)) by (apply Rmult_le_pos; [lra|apply Rmult_le_pos; [lra|apply sum_abs_nonneg]]). lra.
  - intro c0. destruct (bp_level (etot (fun x : Vec n => alpha * lam * sum_abs x)) (alpha * lam) ltac:(apply Rmult_lt_0_compat; assumption) ltac:(reflexivity) c0) as [M HM]. exists M. intros x _ Hx. apply HM; [exact I|]. cbn [eval etot] in *. rewrite l1n_sum in Hx. specialize (P x). lra.
  - exists vzero. exact I.
  - exists m. split; [exact I|]. intros y _. exact (Hm y I).
Qed.

(*! C93_basis_pursuit : for every L2(Op=B, b=b, sigma=s) and L1(sigma=lam) object on real vectors, s, lam, alpha > 0, B x = b solvable, the equations B B^T v = B z solvable, and a solver that returns a minimiser of
   s/2 |B x - b|^2 + <v, x> + alpha lam sum_i |x_i| whenever one exists: Bregman with tolx, tolf <= 0 never raises and what it returns for niterouter = 0, 1, 2, ... comes arbitrarily close to the solutions
   of: minimise sum_i |x_i| subject to B x = b, for every alpha; if b = B xs for some xs that is zero outside S and B has the null space property on S, it converges to xs *)
Lemma C93_basis_pursuit_l : forall n (D : IPS) (fuel : nat) (proxf proxg : Op (Vec n)) (B : linop (Vec n) D) b s lam solver alpha x0 warm tolx tolf,
  0 < s -> 0 < lam -> 0 < alpha -> is_L2 proxf B b s -> is_L1 proxg lam -> (exists x, B x = b) -> (forall z, exists v, B (ladj B v) = B z) ->
  good_solver (fun x => s / 2 * norm2 (B x [-] b)) (etot (fun x : Vec n => lam * sum_abs x)) (fun x => x) alpha solver -> tolx <= 0 -> tolf <= 0 ->
  exists xs, (forall k, exists tr, Bregman (S fuel) proxf proxg x0 solver (PFloat alpha) k warm tolx tolf = Ok (xs k, tr) /\ length tr = k) /\
    approaches (is_min (basis_pursuit B b)) xs /\
    forall S x, supported S x -> null_space B S -> b = B x -> vcv xs x.
Proof.
  intros n D fuel proxf proxg B b s lam solver alpha x0 warm tolx tolf Hs Hl Ha Hf Hg Hfe Hsv Hsol Tx Tf.
  destruct (L1_facts n proxg lam ltac:(lra) Hg) as (P1 & P2 & _). destruct (vec_bounded n _ B) as (C & C0 & HC).
  assert (M : forall y, is_min (constrained (etot (l1n lam)) (fun x : Vec n => x) B b) y <-> is_min (basis_pursuit B b) y).
  { intro y. apply (scaled_min _ lam); [exact Hl| |]; intro z; cbn [edom eval constrained etot]; [tauto|apply l1n_sum]. }
  destruct (bp_exists n D B b Hfe) as [xo Hxo]. destruct (proj1 (C92_certificate_l n D B b xo Hsv) Hxo) as [Hx1 [v Hv]].
  assert (Hm : multiplier_at (etot (l1n lam)) (fun x : Vec n => x) B xo (lam [*] v)).
  { change (is_subgrad (etot (l1n lam)) xo (ladj B (lam [*] v))). apply l1n_subgrad; [lra|]. intros i Hi. rewrite ladj_scal, get_scal by exact Hi. destruct (Hv i Hi) as (H1 & H2 & H3). split; [|split].
    - rewrite Rabs_mult, (Rabs_right lam) by lra. rewrite <- (Rmult_1_r lam) at 2. apply Rmult_le_compat_l; lra.
    - intro H. rewrite (H2 H). ring.
    - intro H. rewrite (H3 H). ring. }
  destruct (C93_converges_l (Vec n) (Vec n) D fuel proxf proxg B b s (etot (l1n lam)) (fun x : Vec n => x) solver alpha x0 warm tolx tolf C xo (lam [*] v)) as (xs & R1 & R2 & R3); auto.
  - exact (proj1 (proj2 C75_arrays_l) n).
  - apply (closed_total (fun x : Vec n => l1n lam x)); [apply hb_vec|apply l1n_convex; lra].
  - apply (bp_level _ lam); [exact Hl|]. intro y. apply l1n_sum.
  - apply (l1n_convex n lam); lra.
  - intro c. apply pen_exists; assumption.
  - exists xs. split; [exact R1|]. split.
    + intros eps He. destruct (R2 eps He) as [N HN]. exists N. intros k Hk. destruct (HN k Hk) as [z [Hz1 Hz2]]. exists z. split; [apply M; exact Hz1|exact Hz2].
    + intros S x Hsx Hn Hb. apply R3. intro y. rewrite M, Hb. apply (proj2 (C92_recovery_l n D B S) Hn x Hsx).
Qed.

Definition first2 : linop (Vec 2) (Vec 1).
Proof.
  refine (mkLinop (Vec 2) (Vec 1) (fun x => vtab 1 (fun _ => get x 0)) (fun y => vtab 2 (fun i => if Nat.eqb i 0 then get y 0 else 0)) _ _ _).
  - intros x y. apply vec_ext. intros i Hi. repeat first [rewrite get_vtab by lia | rewrite get_add by lia]. ring.
  - intros a x. apply vec_ext. intros i Hi. repeat first [rewrite get_vtab by lia | rewrite get_scal by lia]. ring.
  - intros x y. rewrite !vec_inner. cbn [RS]. rewrite !get_vtab by lia. cbn [Nat.eqb]. ring.
Defined.
(** soft-thresholds the first entry of minus the gradient at zero *)
Definition first2_solver (o1 o2 : Op (Vec 2)) (x0 : Vec 2) : result (solver_out (Vec 2)) :=
  g0 <- get_grad o1 vzero ;; Ok (STup (vtab 2 (fun i => if Nat.eqb i 0 then soft 1 (- get g0 0) else 0)) [x0]).
Lemma soft_min (a y : R) : 1 / 2 * (soft 1 a - a) ^ 2 + Rabs (soft 1 a) <= 1 / 2 * (y - a) ^ 2 + Rabs y.
Proof.
  destruct (soft_cases 1 a ltac:(lra)) as [[H ->]|[[H ->]|[H ->]]].
  - rewrite (Rabs_right (a - 1)) by lra. pose proof (Rle_abs y). pose proof (pow2_ge_0 (y - (a - 1))). lra.
  - rewrite (Rabs_left (a + 1)) by lra. pose proof (Rle_abs (- y)). rewrite Rabs_Ropp in *. pose proof (pow2_ge_0 (y - (a + 1))). lra.
  - rewrite Rabs_R0. pose proof (Rle_abs (- y)). rewrite Rabs_Ropp in *. pose proof (Rle_abs y). pose proof (pow2_ge_0 y). assert (a * y <= Rabs y); [|lra]. destruct (Rle_dec 0 y); [rewrite (Rabs_right y) in * by lra|rewrite (Rabs_left y) in * by lra]; nra.
Qed.

(*!ex C93_example : B x = x_0 on vectors of length 2, b = 3, s = lam = alpha = 1 and an inner solver that soft-thresholds (in a closed form read off the gradient at zero) meet the hypotheses of the C93 theorems, although the inner
   problems have minimisers only for some v; (3, 0) is zero outside {0} and B has the null space property on {0} *)
Lemma C93_example_l : let B := first2 in let xs := vtab 2 (fun i => if Nat.eqb i 0 then 3 else 0) in let b := B xs in
  (exists f, is_L2 f B b 1) /\ (exists g : Op (Vec 2), is_L1 g 1) /\ (forall z, exists v, B (ladj B v) = B z) /\ (forall v, norm2 (B v) <= 1 * norm2 v) /\
  good_solver (fun x => 1 / 2 * norm2 (B x [-] b)) (etot (fun x : Vec 2 => 1 * sum_abs x)) (fun x => x) 1 first2_solver /\
  ~ exact_solver (fun x => 1 / 2 * norm2 (B x [-] b)) (etot (fun x : Vec 2 => 1 * sum_abs x)) (fun x => x) 1 first2_solver /\
  supported (fun i => Nat.eqb i 0) xs /\ null_space B (fun i => Nat.eqb i 0) /\ multiplier_at (etot (fun x : Vec 2 => 1 * sum_abs x)) (fun x => x) B xs (vtab 1 (fun _ => 1)).
Proof.
  intros B xs b.
  assert (G0 : forall x, get (B x) 0 = get x 0) by (intro x; unfold B, first2; cbn [lapp]; rewrite get_vtab by lia; reflexivity).
  assert (GA0 : forall v, get (ladj B v) 0 = get v 0) by (intro v; unfold B, first2; cbn [ladj]; rewrite get_vtab by lia; reflexivity).
  assert (GA1 : forall v, get (ladj B v) 1 = 0) by (intro v; unfold B, first2; cbn [ladj]; rewrite get_vtab by lia; reflexivity).
  assert (N1 : forall y : Vec 1, norm2 y = get y 0 * get y 0) by (intro y; unfold norm2; rewrite vec_inner; cbn [RS]; ring).
  assert (Gb : get b 0 = 3) by (unfold b; rewrite G0; unfold xs; rewrite get_vtab by lia; reflexivity).
  assert (NB : forall v, norm2 (B v) <= 1 * norm2 v). { intro v. rewrite N1, G0. unfold norm2. rewrite vec_inner. cbn [RS]. pose proof (Rle_0_sqr (get v 1)). unfold Rsqr in *. lra. }
  assert (V : forall v x : Vec 2, eval (eadd (elin (etot (fun x => 1 / 2 * norm2 (B x [-] b))) v) (epre (escal 1 (etot (fun x : Vec 2 => 1 * sum_abs x))) (fun x => x))) x =
     1 / 2 * (get x 0 - (3 - get v 0)) ^ 2 + Rabs (get x 0) + (get v 1 * get x 1 + Rabs (get x 1)) + (1 / 2 * 3 * 3 - 1 / 2 * (3 - get v 0) ^ 2)).
  { intros v x. cbn [eval eadd elin etot epre escal]. rewrite N1, get_sub, G0, Gb by lia. rewrite vec_inner. unfold sum_abs. cbn [RS]. field. }
  split; [|split; [|split; [|split; [|split; [|split; [|split; [|split]]]]]]].
  - eexists. apply (L2_exists 2 (Vec 1) B b 1 (mkL2 (WithOp B true b) None 1 true (fun _ => 10%nat) true Legacy DenseDefault) None); reflexivity.
  - eexists. exists 0%nat, (fun _ _ => 0%nat). reflexivity.
  - intro z. exists (B z). apply vec_ext. intros i Hi. replace i with 0%nat by lia. rewrite G0, GA0. reflexivity.
  - exact NB.
  - intros o1 o2 v x0 _ _ Hgr _ _ [m [_ Hm]]. unfold first2_solver, get_grad. destruct (Hgr vzero) as [d [-> Hd]]. cbn [bind].
    eexists. eexists. split; [reflexivity|]. split; [right; eexists; reflexivity|]. split; [split; exact I|]. intros y _. rewrite !V.
    assert (Ed : get d 0 = get v 0 - 3).
    { assert (d = dsfit B b 1 vzero [+] v) as ->.
      { apply (grad_unique _ (vzero : Vec 2) _ _ Hd). intros eps He. destruct (sfit_grad B b 1 1 ltac:(lra) NB vzero eps He) as [dl [D1 D2]]. exists dl. split; auto. intros h Hh. specialize (D2 h Hh).
        match goal with |- Rabs ?a <= _ => match type of D2 with Rabs ?b <= _ => replace a with b end end; auto. unfold sfit. rewrite inner_add_l, inner_add_r. ring. }
      unfold dsfit. rewrite get_add, get_scal, GA0, get_sub, G0, Gb, get_zero by lia. ring. }
    rewrite Ed. rewrite !get_vtab by lia. cbn [Nat.eqb]. rewrite Rabs_R0.
    assert (H1 : 0 <= get v 1 * get y 1 + Rabs (get y 1)).
    { pose proof (Hm (vtab 2 (fun i => if Nat.eqb i 0 then get m 0 else 0)) ltac:(split; exact I)) as K0. pose proof (Hm (vtab 2 (fun i => if Nat.eqb i 0 then get m 0 else 2 * get m 1)) ltac:(split; exact I)) as K1.
      pose proof (Hm (vtab 2 (fun i => if Nat.eqb i 0 then get m 0 else get y 1)) ltac:(split; exact I)) as K2. rewrite !V in K0, K1, K2. rewrite !get_vtab in K0, K1, K2 by lia. cbn [Nat.eqb] in *. rewrite Rabs_R0 in K0. rewrite (Rabs_mult 2), (Rabs_right 2) in K1 by lra. lra. }
    pose proof (soft_min (3 - get v 0) (get y 0)) as H2. replace (- (get v 0 - 3)) with (3 - get v 0) by ring. lra.
  - intro H. destruct (L2_facts _ B b 1 ltac:(lra) (L2_exists 2 (Vec 1) B b 1 (mkL2 (WithOp B true b) None 1 true (fun _ => 10%nat) true Legacy DenseDefault) None eq_refl eq_refl)) as (P1 & P2 & P3).
    set (v := vtab 2 (fun i => if Nat.eqb i 0 then 0 else 2) : Vec 2).
    destruct (affine_prox (Vec 2) 1 _ _ v P1) as [o [H1 [H2 H3]]]. specialize (H3 P2).
    destruct (affine_grad (Vec 2) 1 _ _ v ltac:(intro x; exists (dsfit B b 1 x); split; [apply P3|apply (sfit_grad B b 1 1 ltac:(lra) NB)])) as [o' [H4 H5]]. assert (o' = o) as -> by congruence.
    destruct (L1_facts 2 _ 1 ltac:(lra) (ex_intro _ 0%nat (ex_intro _ (fun _ _ => 0%nat) eq_refl))) as (Q1 & Q2 & _).
    destruct (scaling_prox (Vec 2) 1 _ _ 1 ltac:(lra) Q1) as [ag [_ [Q3 Q4]]]. specialize (Q4 Q2).
    destruct (H o ag v vzero H2 H3 H5 Q3 Q4) as (out & x & _ & _ & [_ Hm]).
    specialize (Hm (vtab 2 (fun i => if Nat.eqb i 0 then get x 0 else get x 1 - 1)) ltac:(split; exact I)). rewrite !V in Hm. rewrite !get_vtab in Hm by lia. cbn [Nat.eqb] in Hm. unfold v in Hm. rewrite !get_vtab in Hm by lia. cbn [Nat.eqb] in Hm.
    assert (Rabs (get x 1 - 1) <= Rabs (get x 1) + 1); [|lra]. unfold Rabs. repeat destruct (Rcase_abs _); lra.
  - intros i Hi Hs. unfold xs. rewrite get_vtab by exact Hi. rewrite Hs. reflexivity.
  - intros h Hh Hn. assert (E0 : get h 0 = 0) by (rewrite <- G0, Hh; apply get_zero). unfold sum_in, sum_out. cbn [RS Nat.eqb]. rewrite E0, Rabs_R0.
    assert (0 < Rabs (get h 1)); [|lra]. apply Rabs_pos_lt. intro H1. apply Hn. apply vec_ext. intros i Hi. rewrite get_zero. destruct i as [|[|i]]; [assumption|assumption|lia].
  - change (is_subgrad (etot (l1n (n:=2) 1)) xs (ladj B (vtab 1 (fun _ => 1)))). apply l1n_subgrad; [lra|]. intros i Hi. destruct i as [|[|i]]; [| |lia].
    + rewrite GA0, get_vtab by lia. rewrite Rabs_R1. unfold xs. rewrite get_vtab by lia. cbn [Nat.eqb]. repeat split; lra.
    + rewrite GA1, Rabs_R0. unfold xs. rewrite get_vtab by lia. cbn [Nat.eqb]. repeat split; lra.
Qed.
