(** * The primal-dual iteration as a firmly non-expansive map in its own inner product *)
From Coq Require Import Psatz Classical.
From Verif Require Import Base Space Spec S_Seq Compact Fejer IterMath IterMath2 CountMath S_Pnp PnpMath InconsMath EscapeMath S_Incons.
Open Scope R_scope.

Section M.
Context {E F : IPS} (A : linop E F) (tau mu kappa : R).
Hypothesis Ht : 0 < tau.
Hypothesis Hm : 0 < mu.
Hypothesis Hk : 0 <= kappa < 1.
Hypothesis HA : forall a, tau * mu * norm2 (lapp A a) <= kappa * norm2 a.

Definition minner (p q : E * F) : R := / tau * << fst p, fst q >> + / mu * << snd p, snd q >> - << lapp A (fst p), snd q >> - << lapp A (fst q), snd p >>.
Definition mc : R := (1 - kappa) / 2.
Lemma mc_pos : 0 < mc.
Proof. unfold mc. lra. Qed.
Lemma minner_low p : mc * (/ tau * norm2 (fst p) + / mu * norm2 (snd p)) <= minner p p.
Proof.
  destruct p as [a b]. unfold minner, mc. cbn [fst snd]. fold (norm2 a) (norm2 b). specialize (HA a). pose proof (norm2_nonneg a) as Na. pose proof (norm2_nonneg b) as Nb.
  set (s := 2 / (1 + kappa)). assert (Hs : 0 < s) by (apply Rdiv_lt_0_compat; lra).
  pose proof (norm2_nonneg ((s * mu) [*] lapp A a [-] b)) as H. rewrite norm2_sub, norm2_scal, inner_scal_l in H.
  assert (Hsm : 0 < s * mu) by (apply Rmult_lt_0_compat; lra).
  assert (H2 : 2 * << lapp A a, b >> <= s * mu * norm2 (lapp A a) + / (s * mu) * norm2 b).
  { apply (Rmult_le_reg_l (s * mu)); [exact Hsm|]. replace (s * mu * (s * mu * norm2 (lapp A a) + / (s * mu) * norm2 b)) with (s * mu * (s * mu) * norm2 (lapp A a) + norm2 b) by (field; lra). lra. }
  assert (H3 : s * mu * norm2 (lapp A a) <= s * kappa * (/ tau * norm2 a)).
  { apply (Rmult_le_reg_l tau); [exact Ht|]. replace (tau * (s * kappa * (/ tau * norm2 a))) with (s * (kappa * norm2 a)) by (field; lra). replace (tau * (s * mu * norm2 (lapp A a))) with (s * (tau * mu * norm2 (lapp A a))) by ring. apply Rmult_le_compat_l; lra. }
  assert (E1 : s * kappa = 1 - (1 - kappa) / (1 + kappa)) by (unfold s; field; lra).
  assert (E2 : / (s * mu) * norm2 b = (1 + kappa) / 2 * (/ mu * norm2 b)) by (unfold s; field; lra).
  rewrite E1 in H3. rewrite E2 in H2. assert (Pa : 0 <= / tau * norm2 a) by (apply Rmult_le_pos; [left; apply Rinv_0_lt_compat|]; assumption). assert (Pb : 0 <= / mu * norm2 b) by (apply Rmult_le_pos; [left; apply Rinv_0_lt_compat|]; assumption).
  assert (E3 : (1 - kappa) / 2 * (/ tau * norm2 a) <= (1 - kappa) / (1 + kappa) * (/ tau * norm2 a)).
  { apply Rmult_le_compat_r; [exact Pa|]. unfold Rdiv. apply Rmult_le_compat_l; [lra|]. apply Rinv_le_contravar; lra. }
  nra.
Qed.
Lemma minner_up p : minner p p <= 2 * (/ tau * norm2 (fst p) + / mu * norm2 (snd p)).
Proof.
  destruct p as [a b]. unfold minner. cbn [fst snd]. fold (norm2 a) (norm2 b). specialize (HA a). pose proof (norm2_nonneg a) as Na. pose proof (norm2_nonneg b) as Nb.
  pose proof (norm2_nonneg (mu [*] lapp A a [+] b)) as H. rewrite norm2_add, norm2_scal, inner_scal_l in H.
  assert (H2 : - (2 * << lapp A a, b >>) <= mu * norm2 (lapp A a) + / mu * norm2 b).
  { apply (Rmult_le_reg_l mu); [exact Hm|]. replace (mu * (mu * norm2 (lapp A a) + / mu * norm2 b)) with (mu * mu * norm2 (lapp A a) + norm2 b) by (field; lra). lra. }
  assert (H3 : mu * norm2 (lapp A a) <= / tau * norm2 a).
  { apply (Rmult_le_reg_l tau); [exact Ht|]. replace (tau * (/ tau * norm2 a)) with (norm2 a) by (field; lra). nra. }
  lra.
Qed.
Definition madd (a b : E * F) : E * F := (fst a [+] fst b, snd a [+] snd b).
Definition mscal (t : R) (a : E * F) : E * F := (t [*] fst a, t [*] snd a).
Lemma minner_zero y : minner (vzero, vzero) y = 0.
Proof. unfold minner. cbn [fst snd]. assert (Z : lapp A vzero = vzero) by (replace (vzero : E) with (0 [*] (vzero : E)) by vring; rewrite lapp_scal; vring). rewrite Z, !inner_zero_l, inner_zero_r. ring. Qed.
Lemma minner_add x y w : minner (madd x y) w = minner x w + minner y w.
Proof. unfold minner, madd. cbn [fst snd]. rewrite lapp_add, !inner_add_l, inner_add_r. ring. Qed.
Lemma minner_scal t x y : minner (mscal t x) y = t * minner x y.
Proof. unfold minner, mscal. cbn [fst snd]. rewrite lapp_scal, !inner_scal_l, inner_scal_r. ring. Qed.
Lemma minner_sym x y : minner x y = minner y x.
Proof. unfold minner. rewrite (inner_sym (fst x)), (inner_sym (snd x)). ring. Qed.
Lemma minner_pos p : 0 <= minner p p.
Proof.
  destruct p as [c c0]. pose proof (minner_low (c, c0)) as H. cbn [fst snd] in H. pose proof mc_pos. pose proof (norm2_nonneg c). pose proof (norm2_nonneg c0).
  assert (0 <= mc * (/ tau * norm2 c + / mu * norm2 c0)); [|lra]. apply Rmult_le_pos; [lra|]. apply Rplus_le_le_0_compat; (apply Rmult_le_pos; [left; apply Rinv_0_lt_compat|]; assumption).
Qed.
Lemma minner_ext x y : (forall w, minner x w = minner y w) -> x = y.
Proof.
  intro H. destruct x as [c1 c2], y as [c c0].
  assert (H1 : minner (c1 [-] c, c2 [-] c0) (c1 [-] c, c2 [-] c0) = 0).
  { specialize (H (c1 [-] c, c2 [-] c0)). transitivity (minner (c1, c2) (c1 [-] c, c2 [-] c0) - minner (c, c0) (c1 [-] c, c2 [-] c0)); [|lra]. clear H. unfold minner. cbn [fst snd]. rewrite !lapp_sub, !inner_sub_l. ring_simplify. rewrite !inner_sub_r. ring. }
  pose proof (minner_low (c1 [-] c, c2 [-] c0)) as H2. rewrite H1 in H2. cbn [fst snd] in H2. pose proof mc_pos as Hp. pose proof (norm2_nonneg (c1 [-] c)) as N1. pose proof (norm2_nonneg (c2 [-] c0)) as N2.
  pose proof (Rinv_0_lt_compat _ Ht) as I1. pose proof (Rinv_0_lt_compat _ Hm) as I2.
  assert (P1 : 0 <= / tau * norm2 (c1 [-] c)) by (apply Rmult_le_pos; lra). assert (P2 : 0 <= / mu * norm2 (c2 [-] c0)) by (apply Rmult_le_pos; lra).
  assert (S0 : / tau * norm2 (c1 [-] c) + / mu * norm2 (c2 [-] c0) <= 0) by (apply (Rmult_le_reg_l mc); lra).
  f_equal; apply norm2_sub_eq0; apply Rle_antisym; try assumption.
  - apply (Rmult_le_reg_l (/ tau)); lra.
  - apply (Rmult_le_reg_l (/ mu)); lra.
Qed.
Definition MIPS : IPS := mkIPS (E * F) (vzero, vzero) madd mscal minner minner_zero minner_add minner_scal minner_sym minner_pos minner_ext.

(** the two norms on pairs are equivalent *)
Definition up (p : E * F) : MIPS := p.
Lemma m_low : exists c, 0 < c /\ forall a b, c * (norm2 a + norm2 b) <= norm2 (up (a, b)).
Proof.
  pose proof (Rinv_0_lt_compat _ Ht) as I1. pose proof (Rinv_0_lt_compat _ Hm) as I2. pose proof mc_pos. exists (mc * Rmin (/ tau) (/ mu)). split; [apply Rmult_lt_0_compat; [lra|apply Rmin_pos; lra]|].
  intros a b. eapply Rle_trans; [|exact (minner_low (a, b))]. cbn [fst snd]. rewrite Rmult_assoc. apply Rmult_le_compat_l; [lra|]. pose proof (norm2_nonneg a). pose proof (norm2_nonneg b). pose proof (Rmin_l (/ tau) (/ mu)). pose proof (Rmin_r (/ tau) (/ mu)). nra.
Qed.
Lemma m_up : exists c, 0 < c /\ forall a b, norm2 (up (a, b)) <= c * (norm2 a + norm2 b).
Proof.
  pose proof (Rinv_0_lt_compat _ Ht) as I1. pose proof (Rinv_0_lt_compat _ Hm) as I2. exists (2 * Rmax (/ tau) (/ mu)). pose proof (Rmax_l (/ tau) (/ mu)) as Q1. pose proof (Rmax_r (/ tau) (/ mu)) as Q2. split; [lra|].
  intros a b. eapply Rle_trans; [exact (minner_up (a, b))|]. cbn [fst snd]. rewrite Rmult_assoc. apply Rmult_le_compat_l; [lra|]. pose proof (norm2_nonneg a). pose proof (norm2_nonneg b). nra.
Qed.
Lemma m_vcv (u : nat -> E * F) (l : E * F) : vcv (E:=MIPS) u l <-> vcv (fun k => fst (u k)) (fst l) /\ vcv (fun k => snd (u k)) (snd l).
Proof.
  destruct m_low as (c & Hc & Hlow). destruct m_up as (C & HC & Hup). rewrite !vcv_iff2.
  assert (Q : forall k, norm2 (E:=MIPS) (vsub (E:=MIPS) (u k) l) = norm2 (up (fst (u k) [-] fst l, snd (u k) [-] snd l))) by (intro k; reflexivity).
  split.
  - intro H. assert (H2 : Un_cv (fun k => / c * norm2 (E:=MIPS) (vsub (E:=MIPS) (u k) l)) 0) by (replace 0 with (/ c * 0) by ring; apply (CV_mult (fun _ => _)); [apply Un_cv_const|exact H]).
    split; (apply (Un_cv_squeeze _ (fun k => / c * norm2 (E:=MIPS) (vsub (E:=MIPS) (u k) l))); [|exact H2]); intro k; (split; [apply norm2_nonneg|]); rewrite Q; specialize (Hlow (fst (u k) [-] fst l) (snd (u k) [-] snd l)); pose proof (norm2_nonneg (fst (u k) [-] fst l)); pose proof (norm2_nonneg (snd (u k) [-] snd l));
      (apply (Rmult_le_reg_l c); [exact Hc|]); rewrite <- Rmult_assoc, Rinv_r, Rmult_1_l by lra; nra.
  - intros [H1 H2]. apply (Un_cv_squeeze _ (fun k => C * (norm2 (fst (u k) [-] fst l) + norm2 (snd (u k) [-] snd l)))).
    + intro k. split; [apply norm2_nonneg|]. rewrite Q. apply Hup.
    + replace 0 with (C * (0 + 0)) by ring. apply (CV_mult (fun _ => C)); [apply Un_cv_const|]. apply CV_plus; assumption.
Qed.
Lemma m_bw : bw E -> bw F -> bw MIPS.
Proof.
  intros HE HF u M HM. destruct m_low as (c & Hc & Hlow). pose proof (bw_prod E F HE HF) as HP.
  destruct (HP u (sqrt (/ c * (M * M)))) as (l & phi & Hphi & Hl).
  - intro k. unfold norm. apply sqrt_le_1_alt. specialize (HM k). pose proof (norm_nonneg (E:=MIPS) (u k)) as N. assert (H : norm2 (E:=MIPS) (u k) <= M * M) by (rewrite <- (norm_sq (E:=MIPS)); apply Rmult_le_compat; assumption).
    specialize (Hlow (fst (u k)) (snd (u k))). change (up (fst (u k), snd (u k))) with ((fst (u k), snd (u k)) : MIPS) in Hlow. rewrite <- surjective_pairing in Hlow.
    change (norm2 (E:=Prod_IPS E F) (u k)) with (norm2 (fst (u k)) + norm2 (snd (u k))). apply (Rmult_le_reg_l c); [exact Hc|]. rewrite <- Rmult_assoc, Rinv_r, Rmult_1_l by lra. lra.
  - exists l, phi. split; [exact Hphi|]. apply m_vcv. destruct l as [a b]. apply prod_vcv in Hl. exact Hl.
Qed.
Lemma m_escapes (u : nat -> E * F) : escapes (E:=MIPS) u -> escapes (E:=Prod_IPS E F) u.
Proof.
  intros H M. destruct m_up as (C & HC & Hup). destruct (H (sqrt C * (Rabs M + 1))) as [N HN]. exists N. intros n Hn. specialize (HN n Hn). pose proof (Rabs_pos M). pose proof (Rle_abs M).
  assert (norm (E:=MIPS) (u n) <= sqrt C * norm (E:=Prod_IPS E F) (u n)).
  { unfold norm. rewrite <- sqrt_mult_alt by lra. apply sqrt_le_1_alt. specialize (Hup (fst (u n)) (snd (u n))). change (up (fst (u n), snd (u n))) with ((fst (u n), snd (u n)) : MIPS) in Hup. rewrite <- surjective_pairing in Hup. exact Hup. }
  assert (Hs : 0 < sqrt C) by (apply sqrt_lt_R0; lra). assert (Rabs M + 1 < norm (E:=Prod_IPS E F) (u n)); [|lra]. apply (Rmult_lt_reg_l (sqrt C)); [exact Hs|]. lra.
Qed.
Lemma m_snd : exists C, 0 < C /\ forall p : MIPS, norm (snd p) <= C * norm p.
Proof.
  destruct m_low as (c & Hc & Hlow). exists (sqrt (/ c)). split; [apply sqrt_lt_R0, Rinv_0_lt_compat, Hc|]. intros [x y]. unfold norm. rewrite <- sqrt_mult_alt by (left; apply Rinv_0_lt_compat; exact Hc). apply sqrt_le_1_alt. cbn [snd].
  specialize (Hlow x y). pose proof (norm2_nonneg x). apply (Rmult_le_reg_l c); [exact Hc|]. rewrite <- Rmult_assoc, Rinv_r, Rmult_1_l by lra. change (up (x, y)) with ((x, y) : MIPS) in Hlow. pose proof (norm2_nonneg y). nra.
Qed.

(** the iteration *)
Variables (P : E -> E) (Q : F -> F) (z : E).
Hypothesis HP : firm P.
Hypothesis HQ : firm Q.
Definition pdmap (w : MIPS) : MIPS :=
  let x' := P (fst w [-] tau [*] (ladj A (snd w) [+] z)) in (x', Q (snd w [+] mu [*] lapp A (x' [+] 1 [*] (x' [-] fst w)))).
Lemma pdmap_firm : firm pdmap.
Proof.
  intros [x y] [u v]. unfold pdmap. cbn [fst snd]. set (x1 := P (x [-] tau [*] (ladj A y [+] z))). set (u1 := P (u [-] tau [*] (ladj A v [+] z))).
  set (y1 := Q (y [+] mu [*] lapp A (x1 [+] 1 [*] (x1 [-] x)))). set (v1 := Q (v [+] mu [*] lapp A (u1 [+] 1 [*] (u1 [-] u)))).
  pose proof (HP (x [-] tau [*] (ladj A y [+] z)) (u [-] tau [*] (ladj A v [+] z))) as H1. fold x1 u1 in H1.
  pose proof (HQ (y [+] mu [*] lapp A (x1 [+] 1 [*] (x1 [-] x))) (v [+] mu [*] lapp A (u1 [+] 1 [*] (u1 [-] u)))) as H2. fold y1 v1 in H2.
  replace (x [-] tau [*] (ladj A y [+] z) [-] (u [-] tau [*] (ladj A v [+] z))) with ((x [-] u) [-] tau [*] ladj A (y [-] v)) in H1 by (rewrite ladj_sub; vring).
  replace (y [+] mu [*] lapp A (x1 [+] 1 [*] (x1 [-] x)) [-] (v [+] mu [*] lapp A (u1 [+] 1 [*] (u1 [-] u)))) with
    ((y [-] v) [+] mu [*] ((2 [*] lapp A (x1 [-] u1)) [-] lapp A (x [-] u))) in H2 by (rewrite !lapp_add, !lapp_scal, !lapp_sub; vring).
  change (minner (x1 [-] u1, y1 [-] v1) (x1 [-] u1, y1 [-] v1) <= minner (x1 [-] u1, y1 [-] v1) (x [-] u, y [-] v)). unfold minner. cbn [fst snd].
  revert H1 H2. generalize (x1 [-] u1) (y1 [-] v1) (x [-] u) (y [-] v). intros p q a b H1 H2. unfold norm2 in H1, H2.
  rewrite inner_sub_r, inner_scal_r, <- ladj_spec in H1. rewrite inner_add_r, inner_scal_r, inner_sub_r, inner_scal_r in H2. rewrite !(inner_sym q (lapp A _)) in H2.
  apply (Rmult_le_compat_l (/ tau)) in H1; [|left; apply Rinv_0_lt_compat, Ht]. apply (Rmult_le_compat_l (/ mu)) in H2; [|left; apply Rinv_0_lt_compat, Hm].
  replace (/ tau * (<< p, a >> - tau * << lapp A p, b >>)) with (/ tau * << p, a >> - << lapp A p, b >>) in H1 by (field; lra).
  replace (/ mu * (<< q, b >> + mu * (2 * << lapp A p, q >> - << lapp A a, q >>))) with (/ mu * << q, b >> + (2 * << lapp A p, q >> - << lapp A a, q >>)) in H2 by (field; lra). lra.
Qed.
End M.
