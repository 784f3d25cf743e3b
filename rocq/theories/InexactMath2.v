(** * The metric in which a primal-dual step is nonexpansive, and error accumulation in it *)
From Coq Require Import Psatz.
From Verif Require Import Base Space Spec ConvexFacts Smooth M_ProxOp SpecOps S_Exist S_Inexact InexactMath.
Open Scope R_scope.

Section PD.
Context {E F : IPS} (A : linop E F) (tau mu kappa : R).
Hypothesis (Ht : 0 < tau) (Hm : 0 < mu) (Hk : 0 <= kappa < 1) (HA : forall a, tau * mu * norm2 (lapp A a) <= kappa * norm2 a).

Definition pd_in (u v : E * F) : R := / tau * << fst u, fst v >> + / mu * << snd u, snd v >> - << lapp A (fst u), snd v >> - << lapp A (fst v), snd u >>.
Lemma sqrtk : 0 <= sqrt kappa < 1.
Proof. split; [apply sqrt_pos|]. rewrite <- sqrt_1. apply sqrt_lt_1_alt. exact Hk. Qed.
Lemma kk : sqrt kappa * sqrt kappa = kappa.
Proof. apply sqrt_sqrt. lra. Qed.
Lemma it : 0 < / tau. Proof. apply Rinv_0_lt_compat; exact Ht. Qed.
Lemma im : 0 < / mu. Proof. apply Rinv_0_lt_compat; exact Hm. Qed.

Lemma cross a b : 2 * << lapp A a, b >> <= sqrt kappa * (/ tau * norm2 a + / mu * norm2 b).
Proof.
  pose proof sqrtk as K. pose proof kk as KK. pose proof it. pose proof im. specialize (HA a). destruct (Req_dec (sqrt kappa) 0) as [Hz|Hz].
  - assert (Hz2 : norm2 (lapp A a) = 0). { rewrite <- KK, Hz in HA. pose proof (norm2_nonneg (lapp A a)). apply Rle_antisym; [|assumption]. apply (Rmult_le_reg_l (tau * mu)); [nra|]. lra. }
    apply norm2_eq0 in Hz2. rewrite Hz2, inner_zero_l, Hz. lra.
  - pose proof (Young (lapp A a) b (mu / sqrt kappa) ltac:(apply Rdiv_lt_0_compat; lra)) as Y. apply Rle_trans with (1 := Y).
    assert (mu / sqrt kappa * norm2 (lapp A a) <= sqrt kappa * (/ tau * norm2 a)).
    { apply (Rmult_le_reg_l (tau * sqrt kappa)); [nra|]. replace (tau * sqrt kappa * (mu / sqrt kappa * norm2 (lapp A a))) with (tau * mu * norm2 (lapp A a)) by (field; lra).
      replace (tau * sqrt kappa * (sqrt kappa * (/ tau * norm2 a))) with (sqrt kappa * sqrt kappa * norm2 a) by (field; lra). rewrite KK. exact HA. }
    replace (/ (mu / sqrt kappa) * norm2 b) with (sqrt kappa * (/ mu * norm2 b)) by (field; lra). lra.
Qed.
Lemma cross' a b : - (2 * << lapp A a, b >>) <= sqrt kappa * (/ tau * norm2 a + / mu * norm2 b).
Proof. pose proof (cross ((-1) [*] a) b) as H. rewrite lapp_scal, inner_scal_l, norm2_scal in H. lra. Qed.
Lemma pd_in_lo u : (1 - sqrt kappa) * (/ tau * norm2 (fst u) + / mu * norm2 (snd u)) <= pd_in u u.
Proof. unfold pd_in. pose proof (cross (fst u) (snd u)). unfold norm2 in *. lra. Qed.
Lemma pd_in_hi u : pd_in u u <= (1 + sqrt kappa) * (/ tau * norm2 (fst u) + / mu * norm2 (snd u)).
Proof. unfold pd_in. pose proof (cross' (fst u) (snd u)). unfold norm2 in *. lra. Qed.
Lemma pd_in_pos u : 0 <= pd_in u u.
Proof.
  eapply Rle_trans; [|apply pd_in_lo]. pose proof sqrtk. pose proof it. pose proof im. pose proof (norm2_nonneg (fst u)). pose proof (norm2_nonneg (snd u)).
  apply Rmult_le_pos; [lra|]. assert (0 <= / tau * norm2 (fst u)) by (apply Rmult_le_pos; lra). assert (0 <= / mu * norm2 (snd u)) by (apply Rmult_le_pos; lra). lra.
Qed.
Definition pd_ips : IPS.
Proof.
  refine (mkIPS (E * F) (vzero, vzero) (fun u v => (fst u [+] fst v, snd u [+] snd v)) (fun c u => (c [*] fst u, c [*] snd u)) pd_in _ _ _ _ pd_in_pos _).
  - intro y. unfold pd_in. cbn [fst snd]. rewrite lapp_zero. repeat rewrite inner_zero_l. rewrite inner_zero_r. ring.
  - intros x y z. unfold pd_in. cbn [fst snd]. rewrite lapp_add. repeat rewrite inner_add_l. rewrite inner_add_r. ring.
  - intros c x y. unfold pd_in. cbn [fst snd]. rewrite lapp_scal. repeat rewrite inner_scal_l. rewrite inner_scal_r. ring.
  - intros x y. unfold pd_in. rewrite (inner_sym _ (fst x)), (inner_sym (snd y) (snd x)). ring.
  - intros x y H.
    assert (G : pd_in (fst x [-] fst y, snd x [-] snd y) (fst x [-] fst y, snd x [-] snd y) = 0).
    { set (d := (fst x [-] fst y, snd x [-] snd y)). pose proof (H d) as Hd. assert (Hl : pd_in d d = pd_in x d - pd_in y d).
      { unfold pd_in. unfold d at 1 3 5 8. cbn [fst snd]. rewrite !lapp_sub. repeat rewrite inner_sub_l. repeat rewrite inner_sub_r. ring. }
      rewrite Hl, Hd. ring. }
    pose proof (pd_in_lo (fst x [-] fst y, snd x [-] snd y)) as Hl. rewrite G in Hl. cbn [fst snd] in Hl. pose proof sqrtk. pose proof it. pose proof im.
    pose proof (norm2_nonneg (fst x [-] fst y)) as N1. pose proof (norm2_nonneg (snd x [-] snd y)) as N2.
    pose proof (Rmult_le_pos _ _ (Rlt_le _ _ it) N1) as M1. pose proof (Rmult_le_pos _ _ (Rlt_le _ _ im) N2) as M2.
    assert (Hs : / tau * norm2 (fst x [-] fst y) + / mu * norm2 (snd x [-] snd y) <= 0) by (apply (Rmult_le_reg_l (1 - sqrt kappa)); lra).
    rewrite (surjective_pairing x), (surjective_pairing y). f_equal; apply norm2_sub_eq0.
    + assert (Hz : / tau * norm2 (fst x [-] fst y) = 0) by lra. apply Rmult_integral in Hz. destruct Hz; lra.
    + assert (Hz : / mu * norm2 (snd x [-] snd y) = 0) by lra. apply Rmult_integral in Hz. destruct Hz; lra.
Defined.

Definition pr (a : E) (b : F) : pd_ips := (a, b).
Lemma pr_sub a b c d : pr a b [-] pr c d = pr (a [-] c) (b [-] d).
Proof. reflexivity. Qed.
Lemma pr_norm2 a b : norm2 (pr a b) = pd_in (a, b) (a, b).
Proof. reflexivity. Qed.
Lemma w_nonneg (a : E) (b : F) : 0 <= / tau * norm2 a + / mu * norm2 b.
Proof. pose proof (Rmult_le_pos _ _ (Rlt_le _ _ it) (norm2_nonneg a)). pose proof (Rmult_le_pos _ _ (Rlt_le _ _ im) (norm2_nonneg b)). lra. Qed.
Lemma pr_lo a b : sqrt (1 - sqrt kappa) * wnorm tau mu a b <= norm (pr a b).
Proof.
  unfold wnorm, norm. rewrite <- sqrt_mult_alt by (pose proof sqrtk; lra). apply sqrt_le_1_alt. exact (pd_in_lo (a, b)).
Qed.
Lemma pr_hi a b : norm (pr a b) <= sqrt (1 + sqrt kappa) * wnorm tau mu a b.
Proof.
  unfold wnorm, norm. rewrite <- sqrt_mult_alt by (pose proof sqrtk; lra). apply sqrt_le_1_alt. exact (pd_in_hi (a, b)).
Qed.
Lemma wnorm_le (a : E) (b : F) : wnorm tau mu a b <= norm a / sqrt tau + norm b / sqrt mu.
Proof.
  assert (St : 0 < sqrt tau) by (apply sqrt_lt_R0; exact Ht). assert (Sm : 0 < sqrt mu) by (apply sqrt_lt_R0; exact Hm).
  assert (P1 : 0 <= norm a / sqrt tau) by (apply Rmult_le_pos; [apply norm_nonneg|apply Rlt_le, Rinv_0_lt_compat; exact St]).
  assert (P2 : 0 <= norm b / sqrt mu) by (apply Rmult_le_pos; [apply norm_nonneg|apply Rlt_le, Rinv_0_lt_compat; exact Sm]).
  unfold wnorm. rewrite <- (sqrt_square (norm a / sqrt tau + norm b / sqrt mu)) by lra. apply sqrt_le_1_alt.
  assert (Q1 : norm a / sqrt tau * (norm a / sqrt tau) = / tau * norm2 a). { replace (norm a / sqrt tau * (norm a / sqrt tau)) with (norm a * norm a * / (sqrt tau * sqrt tau)) by (field; lra). rewrite norm_sq, sqrt_sqrt by lra. ring. }
  assert (Q2 : norm b / sqrt mu * (norm b / sqrt mu) = / mu * norm2 b). { replace (norm b / sqrt mu * (norm b / sqrt mu)) with (norm b * norm b * / (sqrt mu * sqrt mu)) by (field; lra). rewrite norm_sq, sqrt_sqrt by lra. ring. }
  pose proof (Rmult_le_pos _ _ P1 P2). nra.
Qed.
Lemma wnorm_fst (a : E) (b : F) : norm a <= sqrt tau * wnorm tau mu a b.
Proof.
  unfold wnorm. rewrite <- sqrt_mult_alt by lra. unfold norm. apply sqrt_le_1_alt. pose proof (Rmult_le_pos _ _ (Rlt_le _ _ im) (norm2_nonneg b)) as H. pose proof (Rmult_le_pos _ _ (Rlt_le _ _ Ht) H).
  replace (norm2 a) with (tau * (/ tau * norm2 a)) at 1 by (field; lra). lra.
Qed.
Lemma wnorm_snd (a : E) (b : F) : norm b <= sqrt mu * wnorm tau mu a b.
Proof.
  unfold wnorm. rewrite <- sqrt_mult_alt by lra. unfold norm. apply sqrt_le_1_alt. pose proof (Rmult_le_pos _ _ (Rlt_le _ _ it) (norm2_nonneg a)) as H. pose proof (Rmult_le_pos _ _ (Rlt_le _ _ Hm) H).
  replace (norm2 b) with (mu * (/ mu * norm2 b)) at 1 by (field; lra). lra.
Qed.
Lemma lapp_norm a : norm (lapp A a) * sqrt mu <= sqrt kappa / sqrt tau * norm a.
Proof.
  assert (St : 0 < sqrt tau) by (apply sqrt_lt_R0; exact Ht). apply (Rmult_le_reg_l (sqrt tau)); [exact St|].
  replace (sqrt tau * (sqrt kappa / sqrt tau * norm a)) with (sqrt kappa * norm a) by (field; lra).
  unfold norm. replace (sqrt tau * (sqrt (norm2 (lapp A a)) * sqrt mu)) with (sqrt tau * sqrt mu * sqrt (norm2 (lapp A a))) by ring.
  rewrite <- sqrt_mult_alt by lra. rewrite <- sqrt_mult_alt by nra. rewrite <- sqrt_mult_alt by lra. apply sqrt_le_1_alt. apply HA.
Qed.

Section Step.
Variables (f : efun E) (gs : efun F) (z : E).
Hypothesis (Cf : convex f) (Cg : convex gs).
Lemma pd_exact x y x' y' u v u' v' :
  is_prox f tau (x [-] tau [*] (ladj A y [+] z)) x' -> is_prox gs mu (y [+] mu [*] lapp A (x' [+] 1 [*] (x' [-] x))) y' ->
  is_prox f tau (u [-] tau [*] (ladj A v [+] z)) u' -> is_prox gs mu (v [+] mu [*] lapp A (u' [+] 1 [*] (u' [-] u))) v' ->
  norm (pr (x' [-] u') (y' [-] v')) <= norm (pr (x [-] u) (y [-] v)).
Proof.
  intros Px Py Pu Pv. apply prox_subgrad in Px; auto. apply prox_subgrad in Py; auto. apply prox_subgrad in Pu; auto. apply prox_subgrad in Pv; auto.
  pose proof (subgrad_mono _ _ _ _ _ Px Pu) as H1. pose proof (subgrad_mono _ _ _ _ _ Py Pv) as H2.
  assert (H : norm2 (pr (x' [-] u') (y' [-] v')) <= << pr (x' [-] u') (y' [-] v'), pr (x [-] u) (y [-] v) >>).
  { change (pd_in (x' [-] u', y' [-] v') (x' [-] u', y' [-] v') <= pd_in (x' [-] u', y' [-] v') (x [-] u, y [-] v)). unfold pd_in. cbn [fst snd].
    rewrite !lapp_add, !lapp_scal, !lapp_sub in H2. rewrite !lapp_sub.
    revert H1 H2. inner_lin_all. rewrite !ladj_spec'.
    assert (K1 : / tau * tau = 1) by (field; lra). assert (K2 : / mu * mu = 1) by (field; lra).
    intros H1 H2. inner_comm_goal.
    match type of H1 with 0 <= ?a => match type of H2 with 0 <= ?b => match goal with |- ?c <= ?d => assert (G : d - c = a + b) end end end; [|lra].
    rewrite (inner_sym x' u'), (inner_sym x x'), (inner_sym x u'), (inner_sym u x'), (inner_sym u u'),  (inner_sym y' v'), (inner_sym y y'), (inner_sym y v'), (inner_sym v y'), (inner_sym v v'). iexp. 
    field_simplify_eq; [|lra]. repeat rewrite (inner_sym _ (lapp A _)). ring. }
  pose proof (CS (pr (x' [-] u') (y' [-] v')) (pr (x [-] u) (y [-] v))) as HC. rewrite <- norm_sq in H. pose proof (norm_nonneg (pr (x' [-] u') (y' [-] v'))) as N1. pose proof (norm_nonneg (pr (x [-] u) (y [-] v))) as N2.
  destruct (Req_dec (norm (pr (x' [-] u') (y' [-] v'))) 0) as [Hz|Hz]; [lra|]. apply (Rmult_le_reg_l (norm (pr (x' [-] u') (y' [-] v')))); lra.
Qed.

Definition pd_seq (e1 e2 : R) (xs : nat -> E) (ys : nat -> F) : Prop := forall j,
  (exists p, is_prox f tau (xs j [-] tau [*] (ladj A (ys j) [+] z)) p /\ norm (xs (S j) [-] p) <= e1) /\
  (exists p, is_prox gs mu (ys j [+] mu [*] lapp A (xs (S j) [+] 1 [*] (xs (S j) [-] xs j))) p /\ norm (ys (S j) [-] p) <= e2).
Hypothesis (Eg : forall y, exists p, is_prox gs mu y p).
Definition pd_err (e1 e2 : R) : R := 3 * e1 / sqrt tau + e2 / sqrt mu.
Lemma pd_near e1 e2 xs ys k : pd_seq e1 e2 xs ys -> exists p r, is_prox f tau (xs k [-] tau [*] (ladj A (ys k) [+] z)) p /\ is_prox gs mu (ys k [+] mu [*] lapp A (p [+] 1 [*] (p [-] xs k))) r /\
  norm (pr (xs (S k) [-] p) (ys (S k) [-] r)) <= sqrt (1 + sqrt kappa) * pd_err e1 e2.
Proof.
  intro Hs. destruct (Hs k) as [(p & Hp & Hep) (r0 & Hr0 & Her)]. destruct (Eg (ys k [+] mu [*] lapp A (p [+] 1 [*] (p [-] xs k)))) as [r Hr]. exists p, r. split; [exact Hp|]. split; [exact Hr|].
  eapply Rle_trans; [apply pr_hi|]. apply Rmult_le_compat_l; [apply sqrt_pos|]. eapply Rle_trans; [apply wnorm_le|].
  assert (St : 0 < sqrt tau) by (apply sqrt_lt_R0; exact Ht). assert (Sm : 0 < sqrt mu) by (apply sqrt_lt_R0; exact Hm). pose proof sqrtk as K.
  pose proof (Rinv_0_lt_compat _ St) as It. pose proof (Rinv_0_lt_compat _ Sm) as Im.
  pose proof (prox_nonexp gs mu _ _ _ _ Cg Hm Hr0 Hr) as Hn.
  replace (ys k [+] mu [*] lapp A (xs (S k) [+] 1 [*] (xs (S k) [-] xs k)) [-] (ys k [+] mu [*] lapp A (p [+] 1 [*] (p [-] xs k)))) with ((2 * mu) [*] lapp A (xs (S k) [-] p)) in Hn
    by (rewrite !lapp_add, !lapp_scal, !lapp_sub; vring).
  rewrite norm_scal, Rabs_right in Hn by lra. pose proof (lapp_norm (xs (S k) [-] p)) as HL.
  assert (Hb : norm (ys (S k) [-] r) / sqrt mu <= e2 / sqrt mu + 2 * e1 / sqrt tau).
  { pose proof (tri3 (ys (S k)) r0 r) as T. apply Rle_trans with ((e2 + 2 * mu * norm (lapp A (xs (S k) [-] p))) * / sqrt mu); [apply Rmult_le_compat_r; lra|].
    replace ((e2 + 2 * mu * norm (lapp A (xs (S k) [-] p))) * / sqrt mu) with (e2 / sqrt mu + 2 * (norm (lapp A (xs (S k) [-] p)) * (mu * / sqrt mu))) by (field; lra).
    replace (mu * / sqrt mu) with (sqrt mu) by (rewrite <- (sqrt_sqrt mu) at 2 by lra; field; lra).
    assert (sqrt kappa / sqrt tau * norm (xs (S k) [-] p) <= / sqrt tau * e1).
    { unfold Rdiv. rewrite Rmult_assoc. apply Rle_trans with (1 * (/ sqrt tau * norm (xs (S k) [-] p))); [apply Rmult_le_compat_r; [apply Rmult_le_pos; [lra|apply norm_nonneg]|lra]|]. rewrite Rmult_1_l. apply Rmult_le_compat_l; lra. }
    unfold Rdiv in *. lra. }
  assert (Ha : norm (xs (S k) [-] p) / sqrt tau <= e1 / sqrt tau) by (apply Rmult_le_compat_r; lra). unfold pd_err. unfold Rdiv in *. lra.
Qed.
Lemma pd_cmp e1 e2 e1' e2' xs ys xs' ys' : pd_seq e1 e2 xs ys -> pd_seq e1' e2' xs' ys' ->
  forall n, wnorm tau mu (xs' n [-] xs n) (ys' n [-] ys n) <=
    sqrt ((1 + sqrt kappa) / (1 - sqrt kappa)) * (wnorm tau mu (xs' 0%nat [-] xs 0%nat) (ys' 0%nat [-] ys 0%nat) + INR n * pd_err (e1 + e1') (e2 + e2')).
Proof.
  intros Hx Hy n. pose proof sqrtk as K. set (c := sqrt (1 + sqrt kappa)).
  assert (Hacc : norm (pr (xs' n [-] xs n) (ys' n [-] ys n)) <= 1 ^ n * norm (pr (xs' 0%nat [-] xs 0%nat) (ys' 0%nat [-] ys 0%nat)) + c * pd_err (e1 + e1') (e2 + e2') * geom 1 n).
  { apply (accumulate (fun n => norm (pr (xs' n [-] xs n) (ys' n [-] ys n))) 1); [lra|]. intro k.
    destruct (pd_near _ _ _ _ k Hx) as (p & r & Hp & Hr & Hn). destruct (pd_near _ _ _ _ k Hy) as (p' & r' & Hp' & Hr' & Hn').
    pose proof (pd_exact _ _ _ _ _ _ _ _ Hp' Hr' Hp Hr) as He. rewrite <- pr_sub in Hn, Hn', He. pose proof (approx_pair 1 _ _ _ _ _ _ _ Hn' Hn He) as H. rewrite pr_sub in H. fold c in H.
    unfold pd_err in *. unfold Rdiv in *. lra. }
  rewrite geom_one, pow1, Rmult_1_l in Hacc. pose proof (pr_lo (xs' n [-] xs n) (ys' n [-] ys n)) as Hlo. pose proof (pr_hi (xs' 0%nat [-] xs 0%nat) (ys' 0%nat [-] ys 0%nat)) as Hhi. fold c in Hhi.
  assert (Hs : 0 < sqrt (1 - sqrt kappa)) by (apply sqrt_lt_R0; lra). rewrite sqrt_div_alt by lra. fold c.
  apply (Rmult_le_reg_l (sqrt (1 - sqrt kappa))); [exact Hs|].
  match goal with |- _ <= ?s * (c / ?s * ?w) => replace (s * (c / s * w)) with (c * w) by (field; lra) end. lra.
Qed.
End Step.
End PD.
