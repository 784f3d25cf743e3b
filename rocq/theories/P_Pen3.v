(** * Proofs about ETP and Geman (M_Pen.v) *)
From Verif Require Import Base Space Spec ConvexFacts Sep M_ProxOp SpecOps P_ProxOp M_L1 P_L1 M_Pen P_Pen Smooth P_Pen2.
From Coq Require Import Psatz Rtrigo1 Ratan Rpower Ranalysis FunctionalExtensionality.
From Verif Require Export S_Pen3.
Open Scope result_scope.

(** A penalty whose objective on the half line increases, decreases up to the candidate P, then increases: the better of P and 0
    is the minimiser. *)
Lemma best_of_two elem tau m P h' : 0 < tau -> 0 <= m -> elem 0 = 0 -> (forall z, 0 <= elem z) ->
  let val := fun z => tau * elem z + (z - m) * (z - m) / 2 in
  (exists h, (forall c, 0 <= c -> derivable_pt_lim h c (h' c)) /\ forall z, 0 <= z -> val z = h z) ->
  (forall u v, 0 <= u -> u <= v -> v < P -> 0 <= h' v -> 0 <= h' u) ->
  (forall c, 0 <= c -> P < c -> 0 <= h' c) ->
  let r := if Rltb (val P) (m * m / 2) then P else 0 in
  0 <= r /\ (m = 0 -> r = 0) /\ forall z, 0 <= z -> val r <= val z.
Proof.
  intros Ht Hm E0 Hpos val [h [Hd Hv]] H1 H2 r.
  assert (Hv0 : val 0 = m * m / 2) by (unfold val; rewrite E0; field).
  assert (HP : val P < m * m / 2 -> 0 <= P).
  { intro H. destruct (Rle_dec 0 P); auto. exfalso. unfold val in H. specialize (Hpos P). nra. }
  assert (Hm0 : m = 0 -> ~ val P < m * m / 2).
  { intros -> H. unfold val in H. specialize (Hpos P). pose proof (Rle_0_sqr (P - 0)). unfold Rsqr in *. nra. }
  assert (Hz : forall z, 0 <= z -> val 0 <= val z \/ (0 <= P /\ val P <= val z)).
  { intros z Hz. destruct (Rle_dec 0 P) as [HP0|HP0].
    - destruct (two_phase h h' P HP0 Hd H1) with (z := z) as [H|H]; auto; [intros c Hc; apply H2; lra| |].
      + left. rewrite !Hv by lra. exact H.
      + right. split; auto. rewrite !Hv by lra. exact H.
    - left. rewrite !Hv by lra. apply (mvt_le h h'); auto; intros c Hc; [apply Hd; lra|apply H2; lra]. }
  unfold r. destruct (Rltb_spec (val P) (m * m / 2)) as [[H ->]|[H ->]].
  - split; auto. split; [intro Q; exfalso; apply (Hm0 Q); auto|]. intros z Hz'. destruct (Hz z Hz') as [Q|[_ Q]]; lra.
  - split; [lra|]. split; auto. intros z Hz'. destruct (Hz z Hz') as [Q|[_ Q]]; lra.
Qed.

Lemma exp_ge_1 x : 1 + x <= exp x.
Proof. destruct (Req_dec x 0) as [->|H]; [rewrite exp_0; lra|]. left. apply exp_ineq1; auto. Qed.

(** ** ETP *)

Lemma etp_den gamma : 0 < gamma -> 0 < 1 - exp (- gamma).
Proof. intro H. assert (exp (- gamma) < exp 0) by (apply exp_increasing; lra). rewrite exp_0 in *. lra. Qed.
Lemma etp_elem_even sigma gamma y : etp_elem sigma gamma y = etp_elem sigma gamma (Rabs y).
Proof. unfold etp_elem. rewrite Rabs_Rabsolu. auto. Qed.
Lemma etp_elem_nonneg sigma gamma z : 0 <= sigma -> 0 < gamma -> 0 <= etp_elem sigma gamma z.
Proof.
  intros Hs Hg. unfold etp_elem. apply Rmult_le_pos; [apply Rmult_le_pos; auto; left; apply Rinv_0_lt_compat, etp_den; auto|].
  pose proof (Rabs_pos z). assert (exp (- gamma * Rabs z) <= 1); [|lra]. rewrite <- exp_0. destruct (Req_dec (Rabs z) 0) as [->|H0].
  - right. f_equal. ring.
  - left. apply exp_increasing. nra.
Qed.

Lemma etp_scalar_ok W sigma gamma tau a : lambert W -> 0 <= sigma -> 0 < gamma -> 0 < tau ->
  sprox (etp_elem sigma gamma) tau a (etp_pr W sigma gamma tau a).
Proof.
  intros HW Hs Hg Ht. pose proof (etp_den gamma Hg) as Hden. pose proof (Rabs_pos a) as Hm.
  set (k := tau * sigma / (1 - exp (- gamma))). assert (Hk : 0 <= k) by (apply Rmult_le_pos; [nra|left; apply Rinv_0_lt_compat; auto]).
  set (m := Rabs a) in *.
  set (h := fun z => k * (1 - exp (- gamma * z)) + (z - m) * (z - m) / 2).
  set (h' := fun z => k * gamma * exp (- gamma * z) + (z - m)).
  assert (Hd : forall c, 0 <= c -> derivable_pt_lim h c (h' c)).
  { intros c _. unfold h, h'. replace (k * gamma * exp (- gamma * c) + (c - m)) with (k * (0 - exp (- gamma * c) * (- gamma * 1)) + ((1 - 0) * (c - m) + (c - m) * (1 - 0)) / 2) by field.
    apply (derivable_pt_lim_plus (fun z => k * (1 - exp (- gamma * z))) (fun z => (z - m) * (z - m) / 2)).
    - apply (derivable_pt_lim_scal (fun z => 1 - exp (- gamma * z)) k). apply (derivable_pt_lim_minus (fun _ => 1) (fun z => exp (- gamma * z))); [apply derivable_pt_lim_const|].
      apply (derivable_pt_lim_comp (fun z => - gamma * z) exp); [|apply derivable_pt_lim_exp]. apply (derivable_pt_lim_scal id). apply derivable_pt_lim_id.
    - unfold Rdiv. rewrite Rmult_comm. 
      assert (D : derivable_pt_lim (fun z => z - m) c (1 - 0)) by (apply (derivable_pt_lim_minus id (fun _ => m)); [apply derivable_pt_lim_id|apply derivable_pt_lim_const]).
      pose proof (derivable_pt_lim_scal (fun z => (z - m) * (z - m)) (/ 2) c _ (derivable_pt_lim_mult (fun z => z - m) (fun z => z - m) c _ _ D D)) as D2.
      intros eps He. destruct (D2 eps He) as [dl Hdl]. exists dl. intros h0 Hh0 Hh1. specialize (Hdl h0 Hh0 Hh1). unfold mult_real_fct in Hdl.
      replace ((c + h0 - m) * (c + h0 - m) * / 2 - (c - m) * (c - m) * / 2) with (/ 2 * ((c + h0 - m) * (c + h0 - m)) - / 2 * ((c - m) * (c - m))) by ring. exact Hdl. }
  assert (Hval : forall z, 0 <= z -> tau * etp_elem sigma gamma z + (z - m) * (z - m) / 2 = h z).
  { intros z Hz. unfold h, k, etp_elem. rewrite (Rabs_pos_eq z) by auto. f_equal. field. lra. }
  set (t := exp (- m * gamma) * k * (gamma * gamma)).
  assert (Ht0 : 0 <= t) by (unfold t; apply Rmult_le_pos; [apply Rmult_le_pos; [left; apply exp_pos|auto]|nra]).
  (* gamma h'(m + y/gamma) = t exp(-y) + y *)
  assert (Hq : forall z, gamma * h' z = t * exp (- (gamma * (z - m))) + gamma * (z - m)).
  { intro z. unfold h', t. replace (exp (- gamma * z)) with (exp (- m * gamma) * exp (- (gamma * (z - m)))) by (rewrite <- exp_plus; f_equal; ring). ring. }
  assert (Hsg : forall z, 0 <= t * exp (- (gamma * (z - m))) + gamma * (z - m) -> 0 <= h' z).
  { intros z H. rewrite <- Hq in H. destruct (Rle_dec 0 (h' z)); auto. exfalso. nra. }
  unfold etp_pr. fold m k. fold t.
  destruct (Rleb_spec t (exp (-1))) as [[H1 ->]|[H1 ->]].
  - destruct (HW t (conj Ht0 H1)) as [Hw Hw1]. set (w := W (- t)) in *. set (P := m + w / gamma).
    assert (Hw0 : w <= 0) by (destruct (Rle_dec w 0); auto; exfalso; pose proof (exp_pos w); nra).
    assert (Hst : sgn a * w / gamma + a = sgn a * P).
    { unfold P. rewrite <- (sgn_abs a) at 2. fold m. field. lra. }
    assert (Htw : t = - w * exp w) by lra.
    assert (Hqy : forall y, t * exp (- y) + y = y - w * exp (w - y)).
    { intro y. rewrite Htw. replace (w - y) with (w + - y) by ring. rewrite exp_plus. ring. }
    destruct (best_of_two (etp_elem sigma gamma) tau m P h' Ht Hm) as [B1 [B2 B3]].
    + unfold etp_elem. rewrite Rabs_R0, Rmult_0_r, exp_0. ring.
    + intro. apply etp_elem_nonneg; auto.
    + exists h. split; auto.
    + intros u v Hu Huv HvP Hv. apply Hsg.
      assert (HvP' : gamma * (v - m) < w).
      { apply Rmult_lt_reg_l with (/ gamma); [apply Rinv_0_lt_compat; auto|]. replace (/ gamma * (gamma * (v - m))) with (v - m) by (field; lra). unfold P in HvP. unfold Rdiv in HvP. lra. }
      assert (Hv' : 0 <= t * exp (- (gamma * (v - m))) + gamma * (v - m)) by (rewrite <- Hq; nra).
      set (y := gamma * (v - m)) in *. set (x := gamma * (u - m)) in *. assert (Hxy : x <= y) by (unfold x, y; nra).
      rewrite Hqy in *. 
      (* chord: exp(w - y) <= ((w-y) exp(w-x) + (y-x)) / (w-x) *)
      assert (Hch : (w - x) * exp (w - y) <= (w - y) * exp (w - x) + (y - x) * 1).
      { pose proof (exp_ge_1 (y - x)) as E1. pose proof (exp_ge_1 (y - w)) as E2. pose proof (exp_pos (w - y)) as Ep.
        replace (exp (w - x)) with (exp (w - y) * exp (y - x)) by (rewrite <- exp_plus; f_equal; ring).
        assert (E3 : exp (w - y) * exp (y - w) = 1) by (rewrite <- exp_plus; replace (w - y + (y - w)) with 0 by ring; apply exp_0).
        rewrite <- E3.
        assert (exp (w - y) * (w - x) <= exp (w - y) * ((w - y) * exp (y - x) + (y - x) * exp (y - w))); [|lra].
        apply Rmult_le_compat_l; [lra|]. assert ((w - y) * (1 + (y - x)) <= (w - y) * exp (y - x)) by (apply Rmult_le_compat_l; lra).
        assert ((y - x) * (1 + (y - w)) <= (y - x) * exp (y - w)) by (apply Rmult_le_compat_l; lra). nra. }
      assert (0 <= (w - y) * (x - w * exp (w - x))); [|nra].
      assert ((- w) * ((w - x) * exp (w - y)) <= (- w) * ((w - y) * exp (w - x) + (y - x) * 1)) by (apply Rmult_le_compat_l; lra).
      assert (0 <= (w - x) * (y - w * exp (w - y))) by (apply Rmult_le_pos; lra). nra.
    + intros c Hc HPc. apply Hsg.
      assert (HcP : w < gamma * (c - m)).
      { apply Rmult_lt_reg_l with (/ gamma); [apply Rinv_0_lt_compat; auto|]. replace (/ gamma * (gamma * (c - m))) with (c - m) by (field; lra). unfold P in HPc. unfold Rdiv in HPc. lra. }
      set (y := gamma * (c - m)) in *. rewrite Hqy. pose proof (exp_ge_1 (w - y)) as E1.
      assert (- w * (1 + (w - y)) <= - w * exp (w - y)) by (apply Rmult_le_compat_l; lra). nra.
    + cbn zeta in B1, B2, B3.
      assert (Hc : tau * etp_elem sigma gamma (sgn a * w / gamma + a) + (sgn a * w / gamma + a - a) * (sgn a * w / gamma + a - a) / 2 = tau * etp_elem sigma gamma P + (P - m) * (P - m) / 2 \/ a = 0).
      { destruct (Req_dec a 0) as [|Ha]; [auto|left]. rewrite Hst. assert (Hs2 : sgn a * sgn a = 1) by (destruct (Rtotal_order a 0) as [Q|[Q|Q]]; [rewrite sgn_neg by auto; ring|contradiction|rewrite sgn_pos by auto; ring]).
        assert (Hs1 : Rabs (sgn a * P) = Rabs P) by (rewrite Rabs_mult; replace (Rabs (sgn a)) with 1; [ring|]; destruct (Rtotal_order a 0) as [Q|[Q|Q]]; [rewrite sgn_neg by auto; rewrite Rabs_left; lra|contradiction|rewrite sgn_pos by auto; rewrite Rabs_right; lra]).
        rewrite etp_elem_even, Hs1, <- etp_elem_even. f_equal. f_equal.
        assert (Ea : sgn a * P - a = sgn a * (P - m)) by (transitivity (sgn a * P - sgn a * m); [f_equal; unfold m; symmetry; apply sgn_abs|ring]).
        rewrite Ea. replace (sgn a * (P - m) * (sgn a * (P - m))) with (sgn a * sgn a * ((P - m) * (P - m))) by ring. rewrite Hs2. ring. }
      replace (a * a / 2) with (m * m / 2) by (unfold m; rewrite Rabs2; auto).
      destruct Hc as [Hc|Ha].
      * rewrite Hc. replace (if Rltb (tau * etp_elem sigma gamma P + (P - m) * (P - m) / 2) (m * m / 2) then sgn a * w / gamma + a else 0)
          with (sgn a * (if Rltb (tau * etp_elem sigma gamma P + (P - m) * (P - m) / 2) (m * m / 2) then P else 0)).
        -- apply even_prox_l; auto; [apply etp_elem_even|]. intro Q. apply B2. unfold m. rewrite Q. apply Rabs_R0.
        -- destruct (Rltb _ _); [rewrite Hst; auto|ring].
      * assert (Hm0 : m = 0) by (unfold m; rewrite Ha; apply Rabs_R0). rewrite Hst.
        replace (sgn a) with 0 by (rewrite Ha; unfold sgn; destruct (Rltb_spec 0 0) as [[? _]|[_ ->]]; [lra|reflexivity]).
        match goal with |- sprox _ _ _ ?e => assert (Ee : e = 0 * sgn a) by (rewrite !Rmult_0_l; match goal with |- (if ?b then _ else _) = _ => destruct b end; reflexivity); rewrite Ee; clear Ee end.
        apply even_prox; auto; [apply etp_elem_even|lra|]. fold m. intros z Hz. specialize (B3 z Hz). rewrite (B2 Hm0) in B3. exact B3.
  - replace 0 with (0 * sgn a) by ring. apply even_prox; auto; [apply etp_elem_even|lra|]. fold m. intros z Hz. rewrite !Hval by lra.
    apply (mvt_le h h'); auto; intros c Hc; [apply Hd; lra|]. apply Hsg. set (y := gamma * (c - m)).
    pose proof (exp_ge_1 (-1 - y)) as E1. pose proof (exp_pos (- y)). assert (exp (-1) * exp (- y) <= t * exp (- y)) by (apply Rmult_le_compat_r; lra).
    rewrite <- exp_plus in H0. replace (-1 + - y) with (-1 - y) in H0 by ring. lra.
Qed.

(** A Lambert function exists (by the intermediate value theorem), so the hypothesis [lambert] is satisfiable. *)
Lemma lambert_pt t : 0 <= t <= exp (-1) -> { w | w * exp w = - t /\ -1 <= w }.
Proof.
  intros [H0 H1]. destruct (IVT_cor (fun w => w * exp w + t) (-1) 0) as [w [Hw E]].
  - apply continuity_plus; [|apply continuity_const; intros ? ?; auto]. apply continuity_mult; [apply derivable_continuous, derivable_id|apply derivable_continuous, derivable_exp].
  - lra.
  - rewrite Rmult_0_l. assert (0 <= exp (-1) - t) by lra. nra.
  - exists w. lra.
Qed.
Lemma lambert_exists : exists W, lambert W.
Proof.
  exists (fun u => match Rle_dec 0 (- u) with left a => match Rle_dec (- u) (exp (-1)) with left b => proj1_sig (lambert_pt (- u) (conj a b)) | _ => 0 end | _ => 0 end).
  intros t [H0 H1]. destruct (Rle_dec 0 (- - t)) as [a|a]; [|lra]. destruct (Rle_dec (- - t) (exp (-1))) as [b|b]; [|lra].
  destruct (lambert_pt (- - t) (conj a b)) as [w [E H]]. simpl. lra.
Qed.

(*! C70_etp_exact : for every accepted sigma, gamma and every tau > 0, ETP.call is sum_i sigma (1 - exp(-gamma |x_i|)) / (1 - exp(-gamma))
   and ETP.prox is a global minimiser of that function plus |y-x|^2/(2 tau), for all inputs *)
Lemma C70_etp_exact_l : forall W n fuel sigma gamma, lambert W -> etp_init sigma gamma = Ok tt ->
  let o := obj (S fuel) (sep_body (n:=n) (etp_elem sigma gamma) (etp_pr W sigma gamma)) in
  let f := etot (sumf (fun a => sigma * (1 - exp (- gamma * Rabs a)) / (1 - exp (- gamma)))) in
  impl_call o f /\ impl_prox o f.
Proof.
  intros W n fuel sigma gamma HW Hi o f. unfold etp_init in Hi. destruct (Rltb_spec sigma 0) as [[H Hr]|[H Hr]]; rewrite Hr in Hi; [discriminate|].
  destruct (Rleb_spec gamma 0) as [[H' Hr']|[H' Hr']]; rewrite Hr' in Hi; [discriminate|].
  assert (Ef : f = etot (sumf (etp_elem sigma gamma))).
  { unfold f. f_equal. unfold sumf. apply functional_extensionality. intro x. f_equal. apply map_ext. intro a. unfold etp_elem. field. pose proof (etp_den gamma H'). lra. }
  rewrite Ef. split.
  - intros x _. reflexivity.
  - intros x tau Ht. apply sep_prox_ok; auto. intros a _. apply etp_scalar_ok; auto; lra.
Qed.
(*! C70_init : the constructors of ETP and Geman raise ValueError exactly when sigma < 0 or gamma <= 0 *)
Lemma C70_init_l : forall sigma gamma, (etp_init sigma gamma = Ok tt /\ geman_init sigma gamma = Ok tt <-> 0 <= sigma /\ 0 < gamma) /\
  (etp_init sigma gamma = Err ValueError /\ geman_init sigma gamma = Err ValueError <-> sigma < 0 \/ gamma <= 0).
Proof.
  intros. unfold etp_init, geman_init. destruct (Rltb_spec sigma 0) as [[H ->]|[H ->]].
  - split; split; intro Q; try (destruct Q; discriminate); try lra; auto.
  - destruct (Rleb_spec gamma 0) as [[H' ->]|[H' ->]]; split; split; intro Q; try (destruct Q; discriminate); try lra; auto.
Qed.
(*!ex C70_example : a Lambert function exists and sigma = 1, gamma = 1 is accepted; sigma = 0 leaves every entry unchanged *)
Lemma C70_example_l : (exists W, lambert W) /\ etp_init 1 1 = Ok tt /\ forall W a, lambert W -> a <> 0 -> etp_pr W 0 1 1 a = a.
Proof.
  split; [apply lambert_exists|]. split.
  - apply (C70_init_l 1 1). lra.
  - intros W a HW Ha. unfold etp_pr. unfold etp_elem. replace (exp (- Rabs a * 1) * (1 * 0 / (1 - exp (- (1)))) * (1 * 1)) with 0 by (unfold Rdiv; ring).
    destruct (Rleb_spec 0 (exp (-1))) as [[_ ->]|[H _]]; [|pose proof (exp_pos (-1)); lra].
    destruct (HW 0) as [E _]; [pose proof (exp_pos (-1)); lra|]. assert (W (- 0) = 0). { rewrite Ropp_0 in *. pose proof (exp_pos (W 0)). nra. }
    rewrite H. replace (sgn a * 0 / 1 + a) with a by field.
    destruct (Rltb_spec (1 * (0 / (1 - exp (- (1))) * (1 - exp (- (1) * Rabs a))) + (a - a) * (a - a) / 2) (a * a / 2)) as [[_ ->]|[H2 _]]; auto.
    exfalso. unfold Rdiv in H2. rewrite !Rmult_0_l in H2. assert (0 < a * a) by nra. nra.
Qed.

(** ** Geman *)
Lemma cos_3 x : cos (3 * x) = 4 * (cos x * cos x * cos x) - 3 * cos x.
Proof.
  replace (3 * x) with (2 * x + x) by ring. rewrite cos_plus, cos_2a, sin_2a. pose proof (sin2_cos2 x) as H. unfold Rsqr in H.
  replace (sin x * sin x) with (1 - cos x * cos x) by lra. replace (2 * sin x * cos x * sin x) with (2 * cos x * (sin x * sin x)) by ring.
  replace (sin x * sin x) with (1 - cos x * cos x) by lra. ring.
Qed.
Lemma geman_elem_even sigma gamma y : geman_elem sigma gamma y = geman_elem sigma gamma (Rabs y).
Proof. unfold geman_elem. rewrite Rabs_Rabsolu. auto. Qed.
Lemma geman_elem_nonneg sigma gamma z : 0 <= sigma -> 0 < gamma -> 0 <= geman_elem sigma gamma z.
Proof.
  intros Hs Hg. unfold geman_elem. pose proof (Rabs_pos z). apply Rmult_le_pos; [nra|]. left. apply Rinv_0_lt_compat. lra.
Qed.

(** The largest root of w^3 - s w^2 + kap given by the trigonometric formula *)
Lemma cubic_root s kap : 0 < s -> 0 <= kap <= 4 * (s * s * s) / 27 ->
  let w := s / 3 + 2 * s / 3 * cos (acos (1 - 27 * kap / (2 * (s * s * s))) / 3) in
  2 * s / 3 <= w <= s /\ kap = w * w * (s - w).
Proof.
  intros Hs Hk w. assert (H3 : 0 < s * s * s) by (apply Rmult_lt_0_compat; [nra|auto]).
  set (C := 1 - 27 * kap / (2 * (s * s * s))) in *.
  assert (HC : -1 <= C <= 1).
  { unfold C. assert (0 <= 27 * kap / (2 * (s * s * s)) <= 2); [|lra]. split.
    - apply Rmult_le_pos; [lra|]. left. apply Rinv_0_lt_compat. lra.
    - apply Rmult_le_reg_r with (2 * (s * s * s)); [lra|]. replace (27 * kap / (2 * (s * s * s)) * (2 * (s * s * s))) with (27 * kap) by (field; lra). lra. }
  set (x := acos C / 3) in *. pose proof (acos_bound C) as Hb. pose proof PI_RGT_0 as HPI.
  assert (Hx : 0 <= x <= PI / 3) by (unfold x; lra).
  assert (Hc3 : cos (3 * x) = C). { unfold x. replace (3 * (acos C / 3)) with (acos C) by field. apply cos_acos; auto. }
  assert (Hc1 : cos x <= 1) by apply COS_bound.
  assert (Hc2 : 1 / 2 <= cos x). { rewrite <- cos_PI3. apply cos_decr_1; lra. }
  rewrite cos_3 in Hc3. assert (Hw : w = s / 3 + 2 * s / 3 * cos x) by reflexivity. clearbody w. set (c := cos x) in *. clearbody c.
  split; [split; rewrite Hw; nra|].
  assert (Hkap : kap = 2 * (s * s * s) / 27 * (1 - C)) by (unfold C; field; nra).
  rewrite Hkap, <- Hc3, Hw. field.
Qed.

Lemma geman_scalar_ok sigma gamma tau a : 0 <= sigma -> 0 < gamma -> 0 < tau ->
  sprox (geman_elem sigma gamma) tau a (geman_pr sigma gamma tau a).
Proof.
  intros Hs Hg Ht. pose proof (Rabs_pos a) as Hm. set (m := Rabs a) in *. set (s := m + gamma). set (kap := tau * sigma * gamma).
  assert (Hsp : 0 < s) by (unfold s; lra). assert (Hkp : 0 <= kap) by (unfold kap; apply Rmult_le_pos; nra).
  assert (Hs3 : 0 < s * s * s) by (apply Rmult_lt_0_compat; [nra|auto]).
  set (h := fun z => tau * sigma * (z / (z + gamma)) + (z - m) * (z - m) / 2).
  set (h' := fun z => kap / ((z + gamma) * (z + gamma)) + (z - m)).
  assert (Hd : forall c, 0 <= c -> derivable_pt_lim h c (h' c)).
  { intros c Hc. unfold h, h'. 
    replace (kap / ((c + gamma) * (c + gamma)) + (c - m)) with (tau * sigma * ((1 * (c + gamma) - (1 + 0) * c) / Rsqr (c + gamma)) + (/ 2 * ((1 - 0) * (c - m) + (c - m) * (1 - 0)))) by (unfold kap, Rsqr; field; lra).
    apply (derivable_pt_lim_plus (fun z => tau * sigma * (z / (z + gamma))) (fun z => (z - m) * (z - m) / 2)).
    - apply (derivable_pt_lim_scal (fun z => z / (z + gamma)) (tau * sigma)).
      apply (derivable_pt_lim_div id (fun z => z + gamma)); [apply derivable_pt_lim_id| |lra].
      apply (derivable_pt_lim_plus id (fun _ => gamma)); [apply derivable_pt_lim_id|apply derivable_pt_lim_const].
    - assert (D : derivable_pt_lim (fun z => z - m) c (1 - 0)) by (apply (derivable_pt_lim_minus id (fun _ => m)); [apply derivable_pt_lim_id|apply derivable_pt_lim_const]).
      pose proof (derivable_pt_lim_scal (fun z => (z - m) * (z - m)) (/ 2) c _ (derivable_pt_lim_mult (fun z => z - m) (fun z => z - m) c _ _ D D)) as D2.
      intros eps He. destruct (D2 eps He) as [dl Hdl]. exists dl. intros h0 Hh0 Hh1. specialize (Hdl h0 Hh0 Hh1). unfold mult_real_fct in Hdl.
      replace ((c + h0 - m) * (c + h0 - m) / 2 - (c - m) * (c - m) / 2) with (/ 2 * ((c + h0 - m) * (c + h0 - m)) - / 2 * ((c - m) * (c - m))) by field. exact Hdl. }
  assert (Hval : forall z, 0 <= z -> tau * geman_elem sigma gamma z + (z - m) * (z - m) / 2 = h z).
  { intros z Hz. unfold h, geman_elem. rewrite (Rabs_pos_eq z) by auto. f_equal. field. lra. }
  (* sign of h' at z is the sign of x^3 - s x^2 + kap, x = z + gamma *)
  set (q := fun x => x * x * (x - s) + kap).
  assert (Hq : forall z, 0 <= z -> (z + gamma) * (z + gamma) * h' z = q (z + gamma)) by (intros; unfold h', q, s; field; lra).
  assert (Hsg : forall z, 0 <= z -> 0 <= q (z + gamma) -> 0 <= h' z).
  { intros z Hz H. rewrite <- Hq in H by auto. destruct (Rle_dec 0 (h' z)); auto. exfalso. assert (0 < (z + gamma) * (z + gamma)) by (apply Rmult_lt_0_compat; lra). nra. }
  assert (Hsg2 : forall z, 0 <= z -> 0 <= h' z -> 0 <= q (z + gamma)).
  { intros z Hz H. rewrite <- Hq by auto. apply Rmult_le_pos; [apply Rmult_le_pos; lra|auto]. }
  unfold geman_pr. fold m.
  set (b := 2 * gamma - m). set (cc := gamma * gamma - 2 * gamma * m). set (d := gamma * sigma * tau - gamma * gamma * m).
  assert (Ef : - ((cc - b * b / 3) ^ 3) / 27 = (s * s * s / 27) * (s * s * s / 27)) by (unfold cc, b, s; field).
  assert (Eg : (2 * b ^ 3 - 9 * b * cc + 27 * d) / 27 = kap - 2 * (s * s * s) / 27) by (unfold cc, b, d, s, kap; field).
  rewrite Ef, Eg. set (S3 := s * s * s / 27) in *. assert (HS3 : 0 < S3) by (unfold S3; lra).
  assert (Esq : sqrt (S3 * S3) = S3) by (apply sqrt_square; lra). rewrite Esq.
  assert (Er : Rpower S3 (1 / 3) = s / 3).
  { unfold S3. replace (s * s * s / 27) with ((s / 3) ^ 3) by field. rewrite <- Rpower_pow by lra. rewrite Rpower_mult.
    replace (INR 3 * (1 / 3)) with 1 by (simpl; field). apply Rpower_1. lra. }
  rewrite Er.
  replace (- ((kap - 2 * (s * s * s) / 27) / (2 * S3))) with (1 - 27 * kap / (2 * (s * s * s))) by (unfold S3; field; lra).
  set (lm := 2 * (s / 3) * cos (acos (1 - 27 * kap / (2 * (s * s * s))) / 3) - b / 3).
  match goal with |- context [Rleb ?e 0] => destruct (Rleb_spec e 0) as [[HD ->]|[HD ->]] end.
  - assert (Hk2 : kap <= 4 * (s * s * s) / 27).
    { destruct (Rle_dec kap (4 * (s * s * s) / 27)); auto. exfalso. unfold S3 in HD.
      assert (2 * (s * s * s) / 27 < kap - 2 * (s * s * s) / 27) by lra. nra. }
    destruct (cubic_root s kap Hsp (conj Hkp Hk2)) as [Hw Hroot].
    set (w := s / 3 + 2 * s / 3 * cos (acos (1 - 27 * kap / (2 * (s * s * s))) / 3)) in *.
    assert (Hlm : lm = w - gamma) by (unfold lm, w, b, s; field).
    clearbody lm w.
    assert (Hfac : forall x, q x = (x - w) * (x * x - (s - w) * (x + w))) by (intro x; unfold q; rewrite Hroot; ring).
    destruct (best_of_two (geman_elem sigma gamma) tau m lm h' Ht Hm) as [B1 [B2 B3]].
    + unfold geman_elem. rewrite Rabs_R0. unfold Rdiv. ring.
    + intro. apply geman_elem_nonneg; auto.
    + exists h. split; auto.
    + intros u v Hu Huv Hv H. apply Hsg; auto. apply Hsg2 in H; [|lra]. rewrite Hfac in *.
      set (x := u + gamma) in *. set (y := v + gamma) in *. assert (Hxy : 0 < x <= y) by (unfold x, y; lra). assert (Hyw : y < w) by (unfold y; lra).
      assert (Hy : y * y <= (s - w) * (y + w)) by nra.
      assert (Hx : x * x <= (s - w) * (x + w)).
      { assert (H1 : x * x * (y + w) <= y * y * (x + w)).
        { assert (x * x * y <= y * y * x) by (replace (x * x * y) with (x * y * x) by ring; replace (y * y * x) with (x * y * y) by ring; apply Rmult_le_compat_l; [nra|lra]).
          assert (x * x * w <= y * y * w) by (apply Rmult_le_compat_r; nra). lra. }
        assert (H2 : y * y * (x + w) <= (s - w) * (y + w) * (x + w)) by (apply Rmult_le_compat_r; lra).
        apply Rmult_le_reg_r with (y + w); [lra|]. nra. }
      nra.
    + intros c Hc HPc. apply Hsg; auto. rewrite Hfac. set (x := c + gamma). assert (Hxw : w < x) by (unfold x; lra).
      apply Rmult_le_pos; [lra|]. assert (s - w <= w / 2) by lra.
      assert ((s - w) * (x + w) <= w / 2 * (x + w)) by (apply Rmult_le_compat_r; lra). nra.
    + cbn zeta in B1, B2, B3.
      replace (if Rltb (tau * geman_elem sigma gamma lm + (lm - m) * (lm - m) / 2) (m * m / 2) then sgn a * lm else 0)
        with (sgn a * (if Rltb (tau * geman_elem sigma gamma lm + (lm - m) * (lm - m) / 2) (m * m / 2) then lm else 0)) by (destruct (Rltb _ _); ring).
      apply even_prox_l; auto; [apply geman_elem_even|]. intro Q. apply B2. unfold m. rewrite Q. apply Rabs_R0.
  - replace 0 with (0 * sgn a) by ring. apply even_prox; auto; [apply geman_elem_even|lra|]. fold m. intros z Hz. rewrite !Hval by lra.
    apply (mvt_le h h'); auto; intros c Hc; [apply Hd; lra|]. apply Hsg; [lra|]. set (x := c + gamma). unfold q.
    assert (Hx : 0 < x) by (unfold x; lra).
    assert (Hk2 : 4 * (s * s * s) / 27 < kap).
    { destruct (Rlt_dec (4 * (s * s * s) / 27) kap); auto. exfalso. unfold S3 in HD.
      assert (- (2 * (s * s * s) / 27) <= kap - 2 * (s * s * s) / 27 <= 2 * (s * s * s) / 27) by lra. nra. }
    assert (0 <= (x - 2 * s / 3) * (x - 2 * s / 3) * (x + s / 3)) by (apply Rmult_le_pos; [apply Rle_0_sqr|lra]).
    replace (x * x * (x - s)) with ((x - 2 * s / 3) * (x - 2 * s / 3) * (x + s / 3) - 4 * (s * s * s) / 27) by field. lra.
Qed.

(*! C71_geman_exact : for every accepted sigma, gamma and every tau > 0, Geman.call is sum_i sigma |x_i| / (|x_i| + gamma) and
   Geman.prox (closed-form cubic root, compared with zero) is a global minimiser of that function plus |y-x|^2/(2 tau), for all inputs *)
Lemma C71_geman_exact_l : forall n fuel sigma gamma, geman_init sigma gamma = Ok tt ->
  let o := obj (S fuel) (sep_body (n:=n) (geman_elem sigma gamma) (geman_pr sigma gamma)) in
  let f := etot (sumf (fun a => sigma * Rabs a / (Rabs a + gamma))) in
  impl_call o f /\ impl_prox o f.
Proof.
  intros n fuel sigma gamma Hi o f. unfold geman_init in Hi. destruct (Rltb_spec sigma 0) as [[H Hr]|[H Hr]]; rewrite Hr in Hi; [discriminate|].
  destruct (Rleb_spec gamma 0) as [[H' Hr']|[H' Hr']]; rewrite Hr' in Hi; [discriminate|]. split.
  - intros x _. reflexivity.
  - intros x tau Ht. apply sep_prox_ok; auto. intros a _. apply geman_scalar_ok; auto; lra.
Qed.
(*! C71_defined : in the branch where Geman.prox evaluates the closed form every step is defined: the number under the square root is
   positive, the divisor is not zero and the argument of arccos lies in [-1, 1]; so no NaN can arise *)
Lemma C71_defined_l : forall sigma gamma tau a, 0 < gamma ->
  let b := 2 * gamma - Rabs a in let c := gamma * gamma - 2 * gamma * Rabs a in let d := gamma * sigma * tau - gamma * gamma * Rabs a in
  let f := - ((c - b * b / 3) ^ 3) / 27 in let g := (2 * b ^ 3 - 9 * b * c + 27 * d) / 27 in
  g * g / 4 - f <= 0 -> 0 < f /\ 2 * sqrt f <> 0 /\ -1 <= - (g / (2 * sqrt f)) <= 1.
Proof.
  intros sigma gamma tau a Hg b c d f g HD. pose proof (Rabs_pos a) as Hm. set (m := Rabs a) in *. set (s := m + gamma).
  assert (Hs : 0 < s) by (unfold s; lra). assert (H3 : 0 < s * s * s) by (apply Rmult_lt_0_compat; [nra|auto]).
  assert (Ef : f = (s * s * s / 27) * (s * s * s / 27)) by (unfold f, c, b, s; field).
  set (S3 := s * s * s / 27) in *. assert (HS3 : 0 < S3) by (unfold S3; lra).
  assert (Esq : sqrt f = S3) by (rewrite Ef; apply sqrt_square; lra). rewrite Esq. clearbody g S3. rewrite Ef in *. clearbody f. subst f.
  split; [nra|]. split; [lra|]. assert (- (2 * S3) <= g <= 2 * S3) by (split; nra).
  assert (Hi : 0 < / (2 * S3)) by (apply Rinv_0_lt_compat; lra). assert (E1 : 2 * S3 * / (2 * S3) = 1) by (field; lra). unfold Rdiv. split; nra.
Qed.
(*!ex C71_example : sigma = gamma = 1, accepted; with tau = 1 the input 1/8 is sent to 0 *)
Lemma C71_example_l : geman_init 1 1 = Ok tt /\ geman_pr 1 1 1 (1/8) = 0.
Proof.
  split; [apply (C70_init_l 1 1); lra|]. unfold geman_pr. rewrite (Rabs_right (1/8)) by lra.
  match goal with |- context [Rleb ?e 0] => destruct (Rleb_spec e 0) as [[HD _]|[HD ->]] end; auto. exfalso. lra.
Qed.
