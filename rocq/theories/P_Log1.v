(** * Proofs about Log1 (M_Pen.v, M_Log1.v) *)
From Verif Require Import Base Space Spec ConvexFacts Sep M_ProxOp SpecOps P_ProxOp M_L1 P_L1 M_Pen P_Pen P_Pen2 Smooth MatFacts M_Log1.
From Coq Require Import Psatz Rtrigo1 Ratan Rpower Ranalysis.
Open Scope result_scope.

Lemma get_vmap {n} f (x : Vec n) i : (i < n)%nat -> get (vmap f x) i = f (get x i).
Proof.
  intro Hi. destruct x as [l Hl]. unfold get, lst; simpl. rewrite (nth_indep _ 0 (f 0)).
  - apply map_nth.
  - rewrite map_length. simpl in *. lia.
Qed.

(** The penalty w * sum_i log(|x_i| + delta): documented with w = sigma. *)
Definition logpen (w delta a : R) : R := w * ln (Rabs a + delta).

Lemma logpen_even w delta y : logpen w delta y = logpen w delta (Rabs y).
Proof. unfold logpen. rewrite Rabs_Rabsolu. reflexivity. Qed.

Lemma log1_deriv k delta m c : 0 < c + delta ->
  derivable_pt_lim (fun z => k * ln (z + delta) + (z - m) * (z - m) / 2) c (((c - m) * (c + delta) + k) / (c + delta)).
Proof.
  intros Hp.
  replace (((c - m) * (c + delta) + k) / (c + delta)) with
    (k * (/ (c + delta) * (1 + 0)) + (((1 - 0) * (c - m) + (c - m) * (1 - 0)) * / 2 + (c - m) * (c - m) * 0)) by (field; lra).
  apply derivable_pt_lim_plus.
  - apply (derivable_pt_lim_scal (fun z => ln (z + delta)) k).
    apply (derivable_pt_lim_comp (fun z => z + delta) ln).
    + apply derivable_pt_lim_plus; [apply derivable_pt_lim_id|apply derivable_pt_lim_const].
    + apply derivable_pt_lim_ln; auto.
  - unfold Rdiv. apply (derivable_pt_lim_mult (fun z => (z - m) * (z - m)) (fun _ => / 2)); [|apply derivable_pt_lim_const].
    apply (derivable_pt_lim_mult (fun z => z - m) (fun z => z - m));
      (apply derivable_pt_lim_minus; [apply derivable_pt_lim_id | apply derivable_pt_lim_const]).
Qed.

(** What one entry becomes, with t = sigma tau and the threshold not negative. *)
Definition root1 (t delta m : R) : R := / 2 * (m - delta + sqrt ((m + delta) * (m + delta) - 2 * t)).

Lemma log1_pr_abs sigma delta tau a : 0 < delta -> delta <= sqrt (2 * (sigma * tau)) ->
  log1_pr sigma delta tau a =
  if Rle_dec (Rabs a) (sqrt (2 * (sigma * tau)) - delta) then 0 else root1 (sigma * tau) delta (Rabs a) * sgn a.
Proof.
  intros Hd Hth. unfold log1_pr, root1. set (t := sigma * tau) in *.
  destruct (Rle_dec (Rabs a) (sqrt (2 * t) - delta)) as [H|H].
  - assert (Ha : - (sqrt (2 * t) - delta) <= a <= sqrt (2 * t) - delta).
    { unfold Rabs in H; destruct (Rcase_abs a); lra. }
    destruct (Rltb_spec a (- (sqrt (2 * t) - delta))) as [[? _]|[_ ->]]; [lra|].
    destruct (Rltb_spec (sqrt (2 * t) - delta) a) as [[? _]|[_ ->]]; [lra|]. reflexivity.
  - destruct (Rle_dec 0 a) as [Ha|Ha].
    + rewrite (Rabs_right a) in * by lra.
      destruct (Rltb_spec a (- (sqrt (2 * t) - delta))) as [[? _]|[_ ->]]; [lra|].
      destruct (Rltb_spec (sqrt (2 * t) - delta) a) as [[_ ->]|[? _]]; [|lra].
      rewrite sgn_pos, (Rabs_right (a + delta)) by lra. ring.
    + rewrite (Rabs_left a) in * by lra.
      destruct (Rltb_spec a (- (sqrt (2 * t) - delta))) as [[_ ->]|[? _]]; [|lra].
      rewrite sgn_neg, (Rabs_left (a - delta)) by lra.
      replace (- (a - delta) * - (a - delta)) with ((- a + delta) * (- a + delta)) by ring. ring.
Qed.

(** 2 delta^2 <= t makes the threshold at least delta. *)
Lemma thresh_ge t delta : 0 < delta -> 2 * (delta * delta) <= t -> 2 * delta <= sqrt (2 * t).
Proof.
  intros Hd H. rewrite <- (sqrt_square (2 * delta)) by lra. apply sqrt_le_1_alt. nra.
Qed.

Lemma root1_facts t delta m : 0 < delta -> 0 < t -> 2 * (delta * delta) <= t -> sqrt (2 * t) - delta < m ->
  let p := root1 t delta m in
  0 < p < m /\ (m - delta) / 2 <= p /\ delta < m /\
  (forall c, (c - m) * (c + delta) + t / 2 = (c - p) * (c - (m - delta - p))).
Proof.
  intros Hd Ht H Hm p. pose proof (thresh_ge t delta Hd H) as Hth.
  assert (Hs2 : 2 * t < (m + delta) * (m + delta)).
  { rewrite <- (sqrt_sqrt (2 * t)) by lra. pose proof (sqrt_pos (2 * t)). apply Rmult_le_0_lt_compat; lra. }
  unfold p, root1. set (w := sqrt ((m + delta) * (m + delta) - 2 * t)).
  assert (Hw : w * w = (m + delta) * (m + delta) - 2 * t) by (apply sqrt_sqrt; lra).
  assert (Hw0 : 0 <= w) by apply sqrt_pos.
  assert (Hwl : w < m + delta) by nra.
  repeat split; try lra. intro c. nra.
Qed.

(** Above the threshold the result is minimal among all |z| >= (m - delta)/2; among all z once m >= t/(2 delta). *)
Lemma root1_min t delta m : 0 < delta -> 0 < t -> 2 * (delta * delta) <= t -> sqrt (2 * t) - delta < m ->
  let p := root1 t delta m in let h := fun z => t / 2 * ln (z + delta) + (z - m) * (z - m) / 2 in
  forall z, 0 <= z -> (m - delta) / 2 <= z \/ t / (2 * delta) <= m -> h p <= h z.
Proof.
  intros Hd Ht H Hm p h z Hz Hc. destruct (root1_facts t delta m Hd Ht H Hm) as [[Hp Hpm] [Hmid [Hdm Hq]]]. fold p in Hp, Hpm, Hmid, Hq.
  assert (HD : forall c, 0 <= c -> derivable_pt_lim h c (((c - m) * (c + delta) + t / 2) / (c + delta))).
  { intros c Hc0. apply log1_deriv. lra. }
  destruct (Rle_dec p z) as [Hpz|Hpz].
  - apply (mvt_le h (fun c => ((c - m) * (c + delta) + t / 2) / (c + delta))); auto; intros c Hc0; [apply HD; lra|].
    rewrite Hq. apply Rmult_le_pos; [|left; apply Rinv_0_lt_compat; lra]. apply Rmult_le_pos; lra.
  - apply (mvt_ge h (fun c => ((c - m) * (c + delta) + t / 2) / (c + delta))); [lra| |]; intros c Hc0; [apply HD; lra|].
    assert (Hneg : (c - m) * (c + delta) + t / 2 <= 0).
    { rewrite Hq. destruct Hc as [Hc|Hc].
      - assert (0 <= c - (m - delta - p)) by lra. nra.
      - assert (Hk : (0 - m) * (0 + delta) + t / 2 <= 0).
        { assert (t <= 2 * delta * m); [|lra]. apply (Rmult_le_compat_l (2 * delta)) in Hc; [|lra].
          replace (2 * delta * (t / (2 * delta))) with t in Hc by (field; lra). lra. }
        rewrite Hq in Hk. assert (0 <= - (m - delta - p)) by (apply (Rmult_le_reg_l p); lra || nra).
        assert (0 <= c - (m - delta - p)) by lra. nra. }
    unfold Rdiv. assert (0 < / (c + delta)) by (apply Rinv_0_lt_compat; lra). nra.
Qed.

(*! C28_log1_local : Log1.prox on arrays of every length, 2 delta^2 <= sigma tau: entries with |x_i| <= sqrt(2 sigma tau) - delta
   become 0; every other entry keeps its sign, gets smaller in absolute value, and minimises (sigma/2) log(|z| + delta) +
   (z - x_i)^2/(2 tau) (half the documented weight) among all z with |z| >= (|x_i| - delta)/2 *)
Lemma C28_log1_local_l : forall n fuel sigma delta tau (x : Vec n), 0 < sigma -> 0 < tau -> 0 < delta ->
  2 * (delta * delta) <= sigma * tau ->
  exists p : Vec n, o_prox (obj (S fuel) (sep_body (n:=n) (log1_elem delta) (log1_pr sigma delta))) x tau = Ok p /\
  forall i, (i < n)%nat ->
    let a := get x i in let r := get p i in let thresh := sqrt (2 * (sigma * tau)) - delta in
    (Rabs a <= thresh -> r = 0) /\
    (thresh < Rabs a -> 0 < r * a /\ (Rabs a - delta) / 2 <= Rabs r < Rabs a /\
       forall z, (Rabs a - delta) / 2 <= Rabs z ->
         sigma / 2 * ln (Rabs r + delta) + (r - a) * (r - a) / (2 * tau) <=
         sigma / 2 * ln (Rabs z + delta) + (z - a) * (z - a) / (2 * tau)).
Proof.
  intros n fuel sigma delta tau x Hs Ht Hd Hc. exists (vmap (log1_pr sigma delta tau) x).
  split; [simpl; rewrite check_tau_pos by auto; reflexivity|].
  intros i Hi a r thresh. assert (Hr : r = log1_pr sigma delta tau a) by (unfold r; rewrite get_vmap; auto).
  assert (Htp : 0 < sigma * tau) by nra. pose proof (thresh_ge _ _ Hd Hc) as Hth.
  rewrite log1_pr_abs in Hr by lra. fold thresh in Hr. destruct (Rle_dec (Rabs a) thresh) as [Hle|Hle]; (split; [intro H|intro H]); try lra; auto.
  destruct (root1_facts _ _ _ Hd Htp Hc H) as [[Hp Hpm] [Hmid [Hdm _]]].
  pose proof (root1_min _ _ _ Hd Htp Hc H) as Hmin. cbv zeta in Hmin.
  set (p := root1 (sigma * tau) delta (Rabs a)) in *.
  assert (Ha0 : a <> 0) by (intro E; rewrite E, Rabs_R0 in Hdm; lra).
  assert (Hsg : sgn a * a = Rabs a).
  { destruct (Rle_dec 0 a); [rewrite sgn_pos, Rabs_right by lra|rewrite sgn_neg, Rabs_left by lra]; ring. }
  assert (Hsa : Rabs (sgn a) = 1).
  { destruct (Rle_dec 0 a); [rewrite sgn_pos by lra; apply Rabs_R1|rewrite sgn_neg by lra; rewrite Rabs_left; lra]. }
  assert (Hra : Rabs r = p) by (rewrite Hr, Rabs_mult, Hsa, Rabs_right; lra).
  split; [|split].
  - rewrite Hr, Rmult_assoc, Hsg. apply Rmult_lt_0_compat; lra.
  - rewrite Hra. lra.
  - intros z Hz. specialize (Hmin (Rabs z) (Rabs_pos z) (or_introl Hz)).
    assert (E1 : (r - a) * (r - a) = (p - Rabs a) * (p - Rabs a)).
    { rewrite Hr. destruct (Rle_dec 0 a); [rewrite sgn_pos, Rabs_right by lra|rewrite sgn_neg, Rabs_left by lra]; ring. }
    assert (E2 : (Rabs z - Rabs a) * (Rabs z - Rabs a) <= (z - a) * (z - a)).
    { clear. unfold Rabs in *; destruct (Rcase_abs z), (Rcase_abs a); nra. }
    rewrite Hra, E1. apply (Rmult_le_reg_l tau); auto.
    replace (tau * (sigma / 2 * ln (p + delta) + (p - Rabs a) * (p - Rabs a) / (2 * tau))) with
      (sigma * tau / 2 * ln (p + delta) + (p - Rabs a) * (p - Rabs a) / 2) by (field; lra).
    replace (tau * (sigma / 2 * ln (Rabs z + delta) + (z - a) * (z - a) / (2 * tau))) with
      (sigma * tau / 2 * ln (Rabs z + delta) + (z - a) * (z - a) / 2) by (field; lra). lra.
Qed.

(*! C28_log1_exact : it is a global minimiser of the sum of (sigma/2) log(|z_i| + delta) plus quadratic when every non-zero
   result comes from an |x_i| >= sigma tau/(2 delta), in particular for all inputs when 2 delta^2 = sigma tau *)
Lemma C28_log1_exact_l : forall n fuel sigma delta tau (x : Vec n), 0 < sigma -> 0 < tau -> 0 < delta ->
  2 * (delta * delta) = sigma * tau \/
  (2 * (delta * delta) <= sigma * tau /\ forall a, In a (proj1_sig (x : nlist R n)) -> sigma * tau / (2 * delta) <= Rabs a) ->
  exists p : Vec n, o_prox (obj (S fuel) (sep_body (n:=n) (log1_elem delta) (log1_pr sigma delta))) x tau = Ok p /\
    is_prox (etot (sumf (fun a => sigma / 2 * ln (Rabs a + delta)))) tau x p.
Proof.
  intros n fuel sigma delta tau x Hs Ht Hd Hcc. apply sep_prox_ok; auto. intros a Hin.
  assert (Htp : 0 < sigma * tau) by nra.
  assert (Hc : 2 * (delta * delta) <= sigma * tau) by (destruct Hcc as [->|[H _]]; lra).
  pose proof (thresh_ge _ _ Hd Hc) as Hth. rewrite log1_pr_abs by lra.
  assert (Heq : 2 * (delta * delta) = sigma * tau -> sqrt (2 * (sigma * tau)) = 2 * delta).
  { intro E. rewrite <- E. replace (2 * (2 * (delta * delta))) with (2 * delta * (2 * delta)) by ring. apply sqrt_square; lra. }
  assert (Hev : forall y, sigma / 2 * ln (Rabs y + delta) = sigma / 2 * ln (Rabs (Rabs y) + delta)) by (intro; rewrite Rabs_Rabsolu; auto).
  assert (Hsc : forall y, 0 <= y -> tau * (sigma / 2 * ln (Rabs y + delta)) = sigma * tau / 2 * ln (y + delta)).
  { intros y Hy. rewrite (Rabs_right y) by lra. field. }
  destruct (Rle_dec (Rabs a) (sqrt (2 * (sigma * tau)) - delta)) as [Hle|Hle].
  - replace 0 with (0 * sgn a) by ring. apply even_prox; auto; [lra|]. intros z Hz. rewrite !Hsc by lra.
    apply (mvt_le (fun y => sigma * tau / 2 * ln (y + delta) + (y - Rabs a) * (y - Rabs a) / 2)
      (fun c => ((c - Rabs a) * (c + delta) + sigma * tau / 2) / (c + delta))); auto; intros c Hc0; [apply log1_deriv; lra|].
    apply Rmult_le_pos; [|left; apply Rinv_0_lt_compat; lra].
    destruct Hcc as [E|[_ Hall]].
    + rewrite (Heq E) in Hle. rewrite <- E. assert (Rabs a <= delta) by lra. nra.
    + specialize (Hall a Hin). apply (Rmult_le_compat_l (2 * delta)) in Hall; [|lra].
      replace (2 * delta * (sigma * tau / (2 * delta))) with (sigma * tau) in Hall by (field; lra).
      (* t/(2 delta) <= |a| <= sqrt (2t) - delta forces equality *)
      pose proof (sqrt_sqrt (2 * (sigma * tau)) ltac:(lra)) as Hss. set (w := sqrt (2 * (sigma * tau))) in *.
      assert (Hz0 : (w - 2 * delta) * (w - 2 * delta) <= 0) by nra.
      assert (w = 2 * delta) by nra. nra.
  - apply even_prox; auto.
    + destruct (root1_facts (sigma * tau) delta (Rabs a) Hd Htp Hc ltac:(lra)) as [[? _] _]; lra.
    + intro E. exfalso. rewrite E, Rabs_R0 in Hle. lra.
    + intros z Hz. destruct (root1_facts (sigma * tau) delta (Rabs a) Hd Htp Hc ltac:(lra)) as [[Hp _] _].
      rewrite !Hsc by lra. apply root1_min; auto; [lra|]. right.
      destruct Hcc as [E|[_ Hall]]; [|auto]. rewrite (Heq E) in Hle. rewrite <- E.
      replace (2 * (delta * delta) / (2 * delta)) with delta by (field; lra). lra.
Qed.

(*! C28_log1_refuted : whenever Log1.prox (2 delta^2 <= sigma tau) leaves an entry non-zero, its result is not a minimiser
   of w sum_i log(|x_i| + delta) plus quadratic for any weight w other than sigma/2: neither for the documented penalty
   (w = sigma) nor, unless sigma = 2, for the function that call evaluates (w = 1); all lengths, inputs and parameters *)
Lemma C28_log1_refuted_l : forall n fuel sigma delta tau w (x : Vec n) a, 0 < sigma -> 0 < tau -> 0 < delta ->
  2 * (delta * delta) <= sigma * tau -> In a (proj1_sig (x : nlist R n)) -> sqrt (2 * (sigma * tau)) - delta < Rabs a ->
  w <> sigma / 2 ->
  exists p : Vec n, o_prox (obj (S fuel) (sep_body (n:=n) (log1_elem delta) (log1_pr sigma delta))) x tau = Ok p /\
    ~ is_prox (etot (sumf (fun b => w * ln (Rabs b + delta)))) tau x p.
Proof.
  intros n fuel sigma delta tau w x a Hs Ht Hd Hc Hin Hth Hw. apply (sep_prox_bad _ _ _ _ _ _ a); auto.
  assert (Htp : 0 < sigma * tau) by nra. pose proof (thresh_ge _ _ Hd Hc) as Hth2.
  rewrite log1_pr_abs by lra. destruct (Rle_dec (Rabs a) (sqrt (2 * (sigma * tau)) - delta)) as [?|_]; [lra|].
  destruct (root1_facts _ _ _ Hd Htp Hc Hth) as [[Hp Hpm] [_ [Hdm Hq]]]. set (p := root1 (sigma * tau) delta (Rabs a)) in *.
  intro H. rewrite sprox_unfold in H by auto.
  assert (H2 : forall z, 0 < z -> tau * w * ln (p + delta) + (p - Rabs a) * (p - Rabs a) / 2 <=
                 tau * w * ln (z + delta) + (z - Rabs a) * (z - Rabs a) / 2).
  { intros z Hz. specialize (H (z * sgn a)).
    assert (E : forall y, 0 < y -> Rabs (y * sgn a) = y /\ (y * sgn a - a) * (y * sgn a - a) = (y - Rabs a) * (y - Rabs a)).
    { intros y Hy. rewrite Rabs_mult, (Rabs_right y) by lra.
      assert (a <> 0) by (intro E; rewrite E, Rabs_R0 in Hdm; lra).
      destruct (Rle_dec 0 a); [rewrite sgn_pos, Rabs_R1, (Rabs_right a) by lra|rewrite sgn_neg, (Rabs_left a) by lra; rewrite (Rabs_left (-1)) by lra]; split; ring. }
    destruct (E p Hp) as [E1 E2], (E z Hz) as [E3 E4]. rewrite E1, E2, E3, E4 in H. lra. }
  pose proof (log1_deriv (tau * w) delta (Rabs a) p ltac:(lra)) as HD.
  set (h := fun z => tau * w * ln (z + delta) + (z - Rabs a) * (z - Rabs a) / 2) in *.
  pose proof (deriv_minimum h 0 (p + 1) p (exist _ _ HD) Hp ltac:(lra) (fun z Hz _ => H2 z Hz)) as H0.
  cbn in H0. unfold derive_pt in H0. cbn [proj1_sig] in H0.
  assert (Hz : (p - Rabs a) * (p + delta) + tau * w = 0).
  { apply (Rmult_eq_compat_r (p + delta)) in H0. unfold Rdiv in H0. rewrite Rmult_assoc, Rinv_l in H0 by lra. lra. }
  specialize (Hq p). apply Hw. apply (Rmult_eq_reg_l tau); lra.
Qed.

Lemma ln_taylor2 r : 0 < r < 1 -> (1 - r) + (1 - r) * (1 - r) / 2 < - ln r.
Proof.
  intros Hr. set (f := fun u => - ln u - (1 - u) - (1 - u) * (1 - u) / 2).
  assert (Hd : forall c, r <= c <= 1 -> derivable_pt_lim f c (- / c + 1 + (1 - c))).
  { intros c Hc. unfold f.
    replace (- / c + 1 + (1 - c)) with (- (/ c) - (0 - 1) - (((0 - 1) * (1 - c) + (1 - c) * (0 - 1)) * / 2 + (1 - c) * (1 - c) * 0)) by (field; lra).
    apply derivable_pt_lim_minus; [apply derivable_pt_lim_minus|].
    - apply derivable_pt_lim_opp. apply derivable_pt_lim_ln. lra.
    - apply derivable_pt_lim_minus; [apply derivable_pt_lim_const|apply derivable_pt_lim_id].
    - unfold Rdiv. apply (derivable_pt_lim_mult (fun z => (1 - z) * (1 - z)) (fun _ => / 2)); [|apply derivable_pt_lim_const].
      apply (derivable_pt_lim_mult (fun z => 1 - z) (fun z => 1 - z));
        (apply derivable_pt_lim_minus; [apply derivable_pt_lim_const | apply derivable_pt_lim_id]). }
  destruct (MVT_cor2 f _ r 1 ltac:(lra) Hd) as [c [H1 H2]].
  assert (Hneg : - / c + 1 + (1 - c) < 0).
  { apply (Rmult_lt_reg_l c); [lra|]. rewrite Rmult_0_r. replace (c * (- / c + 1 + (1 - c))) with (- ((1 - c) * (1 - c))) by (field; lra). nra. }
  assert (Hf1 : f 1 = 0) by (unfold f; rewrite ln_1; field).
  assert (0 < f r) by nra. unfold f in H. lra.
Qed.

(*! C28_log1_threshold_refuted : when 2 delta^2 < sigma tau it is not even a minimiser of (sigma/2) sum log for all inputs: just
   above the threshold an entry is kept although 0 is strictly better, for all sigma, tau and delta *)
Lemma C28_log1_threshold_refuted_l : forall fuel sigma delta tau, 0 < sigma -> 0 < tau -> 0 < delta ->
  2 * (delta * delta) < sigma * tau ->
  exists (x p : Vec 1), o_prox (obj (S fuel) (sep_body (n:=1) (log1_elem delta) (log1_pr sigma delta))) x tau = Ok p /\
    ~ is_prox (etot (sumf (fun b => sigma / 2 * ln (Rabs b + delta)))) tau x p.
Proof.
  intros fuel sigma delta tau Hs Ht Hd Hc. set (t := sigma * tau) in *. assert (Htp : 0 < t) by (unfold t; nra).
  set (k := t / 2). set (s := sqrt k). assert (Hk : 0 < k) by (unfold k; lra).
  assert (Hss : s * s = k) by (apply sqrt_sqrt; lra). assert (Hs0 : 0 <= s) by apply sqrt_pos.
  assert (Hsd : delta < s) by (apply (Rsqr_incrst_0 delta s); unfold Rsqr; unfold k in Hss; lra).
  (* G p = gain of 0 over p at the input whose result is p *)
  set (G := fun p => k * (ln (p + delta) - ln delta) - p * p / 2 - p * (k / (p + delta))).
  set (p0 := s - delta).
  assert (HG0 : 0 < G p0).
  { unfold G, p0. replace (s - delta + delta) with s by ring. set (r := delta / s).
    assert (Hr : 0 < r < 1).
    { unfold r; split; [apply Rmult_lt_0_compat; auto; apply Rinv_0_lt_compat; lra|].
      apply (Rmult_lt_reg_r s); [lra|]. unfold Rdiv. rewrite Rmult_assoc, Rinv_l by lra. lra. }
    pose proof (ln_taylor2 r Hr) as Hl.
    assert (Hlr : ln r = ln delta - ln s) by (unfold r, Rdiv; rewrite ln_mult, ln_Rinv; [ring|lra|lra|apply Rinv_0_lt_compat; lra]).
    rewrite Hlr in Hl. assert (Hdr : delta = r * s) by (unfold r; field; lra).
    rewrite <- Hss. replace (s * s / s) with s by (field; lra).
    assert (Hx : (s * s) * ((1 - r) + (1 - r) * (1 - r) / 2) < (s * s) * - (ln delta - ln s)) by (apply Rmult_lt_compat_l; nra).
    rewrite Hdr at 2 3. rewrite Hdr at 2. nra. }
  assert (HGc : continuity_pt G p0).
  { unfold G. assert (Hn : 0 < p0 + delta) by (unfold p0; lra).
    apply derivable_continuous_pt.
    apply (derivable_pt_minus (fun p => k * (ln (p + delta) - ln delta) - p * p / 2) (fun p => p * (k / (p + delta)))).
    - apply (derivable_pt_minus (fun p => k * (ln (p + delta) - ln delta)) (fun p => p * p / 2)).
      + exists (k * (/ (p0 + delta) * (1 + 0) - 0)). apply (derivable_pt_lim_scal (fun p => ln (p + delta) - ln delta) k).
        apply derivable_pt_lim_minus; [|apply derivable_pt_lim_const].
        apply (derivable_pt_lim_comp (fun z => z + delta) ln);
         [apply derivable_pt_lim_plus; [apply derivable_pt_lim_id|apply derivable_pt_lim_const]|apply derivable_pt_lim_ln; auto].
      + reg.
    - apply (derivable_pt_mult id (fun p => k / (p + delta))); [apply derivable_pt_id|].
      apply (derivable_pt_div (fun _ => k) (fun p => p + delta)); [reg|reg|lra]. }
  destruct (HGc (G p0) HG0) as [e [He HGe]].
  set (p := p0 + e / 2).
  assert (HGp : 0 < G p).
  { specialize (HGe p). simpl in HGe. unfold R_dist in HGe.
    assert (Hx : Rabs (G p - G p0) < G p0).
    { apply HGe. split; [split; [exact I|unfold p; lra]|]. unfold p. replace (p0 + e / 2 - p0) with (e / 2) by ring. rewrite Rabs_right; lra. }
    apply Rabs_def2 in Hx. lra. }
  assert (Hp0 : 0 < p0) by (unfold p0; lra). assert (Hpp : 0 < p) by (unfold p; lra).
  set (a := p + k / (p + delta)). assert (Hkp : 0 < k / (p + delta)) by (apply Rmult_lt_0_compat; [lra|apply Rinv_0_lt_compat; lra]).
  assert (Hka : (a - p) * (p + delta) = k) by (unfold a; field; lra).
  assert (Hd2 : sqrt (2 * t) = 2 * s).
  { replace (2 * t) with (2 * s * (2 * s)) by (unfold k in Hss; lra). apply sqrt_square; lra. }
  assert (Hps : s < p + delta) by (unfold p, p0; lra).
  assert (Hth : sqrt (2 * t) - delta < a).
  { rewrite Hd2. assert (0 < (p + delta - s) * (p + delta - s)) by nra.
    apply (Rmult_lt_reg_r (p + delta)); [lra|]. nra. }
  exists (nl [a] : Vec 1).
  assert (Hpr : log1_pr sigma delta tau a = p).
  { rewrite log1_pr_abs; fold t; try lra. rewrite (Rabs_right a) by lra.
    destruct (Rle_dec a (sqrt (2 * t) - delta)) as [?|_]; [lra|]. rewrite sgn_pos, Rmult_1_r by lra.
    unfold root1. replace ((a + delta) * (a + delta) - 2 * t) with ((2 * p + delta - a) * (2 * p + delta - a)).
    - rewrite sqrt_square; [field|]. apply (Rmult_le_reg_r (p + delta)); [lra|]. nra.
    - unfold k in Hka. nra. }
  apply (sep_prox_bad _ _ _ _ _ _ a); auto; [left; reflexivity|].
  rewrite Hpr. intro H. rewrite sprox_unfold in H by auto. specialize (H 0). rewrite Rabs_R0, Rplus_0_l, (Rabs_right p) in H by lra.
  unfold G in HGp. replace (tau * (sigma / 2 * ln (p + delta))) with (k * ln (p + delta)) in H by (unfold k, t; field).
  replace (tau * (sigma / 2 * ln delta)) with (k * ln delta) in H by (unfold k, t; field).
  assert (Ea : a * a / 2 - (p - a) * (p - a) / 2 = p * p / 2 + p * (k / (p + delta))) by (unfold a; field; lra). nra.
Qed.

(*! C28_log1_sign_refuted : when sigma tau < 2 delta^2 <= 4 sigma tau some positive entries become negative *)
Lemma C28_log1_sign_refuted_l : forall fuel sigma delta tau, 0 < sigma -> 0 < tau -> 0 < delta ->
  sigma * tau < 2 * (delta * delta) <= 4 * (sigma * tau) ->
  exists (x p : Vec 1), o_prox (obj (S fuel) (sep_body (n:=1) (log1_elem delta) (log1_pr sigma delta))) x tau = Ok p /\
    0 < get x 0 /\ get p 0 < 0.
Proof.
  intros fuel sigma delta tau Hs Ht Hd [H1 H2]. set (t := sigma * tau) in *. assert (Htp : 0 < t) by (unfold t; nra).
  set (w := sqrt (2 * t)). assert (Hww : w * w = 2 * t) by (apply sqrt_sqrt; lra). assert (Hw0 : 0 <= w) by apply sqrt_pos.
  assert (Hwd : delta <= w) by (apply Rsqr_incr_0; unfold Rsqr; nra).
  assert (Hw2 : w < 2 * delta) by (apply Rsqr_incrst_0; unfold Rsqr; nra).
  set (u := t / (2 * delta)). assert (Hu : 2 * delta * u = t) by (unfold u; field; lra).
  assert (Hlt : w - delta < u).
  { apply (Rmult_lt_reg_l (2 * delta)); [lra|]. rewrite Hu. assert (0 < (2 * delta - w) * (2 * delta - w)) by nra. nra. }
  set (a := (w - delta + u) / 2). assert (Ha : w - delta < a < u) by (unfold a; lra).
  exists (nl [a] : Vec 1), (vmap (log1_pr sigma delta tau) (nl [a] : Vec 1)).
  split; [simpl; rewrite check_tau_pos by auto; reflexivity|]. rewrite get_vmap by lia.
  split; [unfold get; simpl; lra|]. unfold get; simpl. rewrite log1_pr_abs; fold t; fold w; auto.
  rewrite (Rabs_right a) by lra. destruct (Rle_dec a (w - delta)) as [?|_]; [lra|]. rewrite sgn_pos, Rmult_1_r by lra.
  unfold root1. assert (Hud : u < delta) by (apply (Rmult_lt_reg_l (2 * delta)); nra).
  set (v := sqrt ((a + delta) * (a + delta) - 2 * t)).
  assert (Hv : v < delta - a).
  { unfold v. rewrite <- (sqrt_square (delta - a)) by lra.
    assert (0 <= (a + delta) * (a + delta) - 2 * t).
    { assert (w <= a + delta) by lra. assert (w * w <= (a + delta) * (a + delta)) by (apply Rmult_le_compat; lra). lra. }
    apply sqrt_lt_1; try nra. }
  lra.
Qed.

(*! C28_log1_zero_refuted : when 2 sigma tau < delta^2 the two masks overlap and prox(0) is a positive number *)
Lemma C28_log1_zero_refuted_l : forall fuel sigma delta tau, 0 < sigma -> 0 < tau -> 0 < delta ->
  2 * (sigma * tau) < delta * delta ->
  exists p : Vec 1, o_prox (obj (S fuel) (sep_body (n:=1) (log1_elem delta) (log1_pr sigma delta))) (nl [0] : Vec 1) tau = Ok p /\ 0 < get p 0.
Proof.
  intros fuel sigma delta tau Hs Ht Hd H. exists (vmap (log1_pr sigma delta tau) (nl [0] : Vec 1)).
  split; [simpl; rewrite check_tau_pos by auto; reflexivity|]. rewrite get_vmap by lia. unfold get; simpl. unfold log1_pr.
  set (t := sigma * tau) in *. assert (Htp : 0 < t) by (unfold t; nra).
  assert (Hlt : forall y, 0 <= y < delta * delta -> sqrt y < delta).
  { intros y Hy. rewrite <- (sqrt_square delta) by lra. apply sqrt_lt_1; lra. }
  pose proof (Hlt (2 * t) ltac:(lra)).
  destruct (Rltb_spec 0 (- (sqrt (2 * t) - delta))) as [[_ ->]|[? _]]; [|lra].
  rewrite (Rabs_left (0 - delta)) by lra. pose proof (Hlt (- (0 - delta) * - (0 - delta) - 2 * t) ltac:(lra)). lra.
Qed.

(*! C28_log1_complex_refuted : the complex branch does not agree with the real one on the same numbers: sigma = 1, tau = 1/2,
   delta = 1/2, x = -2 stored in a complex array gives -(3/2 + sqrt(5/4))/2, in a real array -(3/2 + sqrt(21/4))/2; and an
   entry above the threshold can give NaN: x = -3/4 as a complex number *)
Lemma C28_log1_complex_refuted_l :
  log1c_pr 1 (1/2) (1/2) ((-2, 0) : C_IPS) = Some ((- ((3/2 + sqrt (5/4)) / 2), 0) : C_IPS) /\
  log1_pr 1 (1/2) (1/2) (-2) = - ((3/2 + sqrt (21/4)) / 2) /\ sqrt (5/4) <> sqrt (21/4) /\
  log1c_pr 1 (1/2) (1/2) ((-3/4, 0) : C_IPS) = None.
Proof.
  assert (H1 : sqrt (2 * (1 * (1/2))) = 1) by (replace (2 * (1 * (1/2))) with (1 * 1) by field; apply sqrt_square; lra).
  assert (Hn : forall u, norm ((u, 0) : C_IPS) = Rabs u).
  { intro u. unfold norm, norm2; simpl. replace (u * u + 0 * 0) with (u * u) by ring. apply sqrt_Rsqr_abs. }
  split; [|split; [|split]].
  - unfold log1c_pr. rewrite H1, Hn. rewrite (Rabs_left (-2)) by lra.
    destruct (Rltb_spec (1 - 1/2) (- -2)) as [[_ ->]|[? _]]; [|lra].
    assert (E : norm2 (((-2, 0) : C_IPS) [+] ((1/2, 0) : C_IPS)) - 2 * (1 * (1/2)) = 5/4) by (unfold norm2; simpl; field).
    rewrite E. destruct (Rltb_spec (5/4) 0) as [[? _]|[_ ->]]; [lra|].
    destruct (Reqb_spec (- -2) 0) as [[? _]|[_ ->]]; [lra|]. simpl. f_equal. f_equal; field.
  - unfold log1_pr. rewrite H1. destruct (Rltb_spec (-2) (- (1 - 1/2))) as [[_ ->]|[? _]]; [|lra].
    rewrite (Rabs_left (-2 - 1/2)) by lra. replace (- (-2 - 1 / 2) * - (-2 - 1 / 2) - 2 * (1 * (1 / 2))) with (21/4) by field. field.
  - intro E. assert (5/4 = 21/4); [|lra]. apply sqrt_inj; lra.
  - unfold log1c_pr. rewrite H1, Hn. rewrite (Rabs_left (-3/4)) by lra.
    destruct (Rltb_spec (1 - 1/2) (- (-3/4))) as [[_ ->]|[? _]]; [|lra].
    assert (E : norm2 (((-3/4, 0) : C_IPS) [+] ((1/2, 0) : C_IPS)) - 2 * (1 * (1/2)) = -15/16) by (unfold norm2; simpl; field).
    rewrite E. destruct (Rltb_spec (-15/16) 0) as [[_ ->]|[? _]]; [reflexivity|lra].
Qed.

(*!ex C28_log1_example : sigma = 2, tau = 1, delta = 1 (threshold 1, 2 delta^2 = sigma tau): 3 is mapped to 1 + sqrt 3 *)
Lemma C28_log1_example_l : log1_pr 2 1 1 3 = 1 + sqrt 3 /\ log1_pr 2 1 1 1 = 0 /\ 2 * (1 * 1) = 2 * 1 /\
  2 * 1 / (2 * 1) <= Rabs 3 /\ sqrt (2 * (2 * 1)) - 1 < Rabs 3.
Proof.
  assert (H1 : sqrt (2 * (2 * 1)) = 2) by (replace (2 * (2 * 1)) with (2 * 2) by field; apply sqrt_square; lra).
  rewrite !log1_pr_abs by lra. rewrite !H1, Rabs_R1, (Rabs_right 3) by lra.
  destruct (Rle_dec 3 (2 - 1)) as [?|_]; [lra|]. destruct (Rle_dec 1 (2 - 1)) as [_|?]; [|lra].
  repeat split; try lra. rewrite sgn_pos by lra. unfold root1.
  replace ((3 + 1) * (3 + 1) - 2 * (2 * 1)) with (2 * 2 * 3) by ring. rewrite sqrt_mult, sqrt_square by lra. field.
Qed.
