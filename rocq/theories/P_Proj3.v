(** * L1 ball; examples for the simplex *)
From Verif Require Import Base Space Spec SpecOps ConvexFacts M_ProxOp M_L1 P_L1 MatFacts VSum M_Proj P_Proj P_Proj2 SeqFacts.
From Coq Require Import Psatz.
From Verif Require Export S_Proj3.
Open Scope result_scope.

Lemma abs_m1 : Rabs (-1) = 1.
Proof. rewrite Rabs_left; lra. Qed.
Definition softv {n} (x : Vec n) (mu : R) : Vec n := vtab n (fun i => sgn (get x i) * Rmax (Rabs (get x i) - mu) 0).
Lemma soft_entry a mu z : 0 <= mu -> let p := sgn a * Rmax (Rabs a - mu) 0 in (a - p) * (z - p) <= mu * (Rabs z - Rabs p).
Proof.
  intros Hm p. destruct (Rtotal_order a 0) as [Ha|[Ha|Ha]].
  - unfold p. rewrite (sgn_neg a Ha), (Rabs_left a Ha). unfold Rmax. destruct (Rle_dec (- a - mu) 0).
    + replace (-1 * 0) with 0 by ring. rewrite Rabs_R0. pose proof (Rle_abs (- z)). rewrite Rabs_Ropp in *. pose proof (Rle_abs z). nra.
    + rewrite (Rabs_left1 (-1 * (- a - mu))) by lra. pose proof (Rle_abs (- z)). rewrite Rabs_Ropp in *. nra.
  - unfold p. subst a. rewrite sgn_0. replace (0 * Rmax (Rabs 0 - mu) 0) with 0 by ring. rewrite Rabs_R0. pose proof (Rabs_pos z). nra.
  - unfold p. rewrite (sgn_pos a Ha), (Rabs_right a) by lra. unfold Rmax. destruct (Rle_dec (a - mu) 0).
    + replace (1 * 0) with 0 by ring. rewrite Rabs_R0. pose proof (Rle_abs (- z)). rewrite Rabs_Ropp in *. pose proof (Rle_abs z). nra.
    + rewrite (Rabs_right (1 * (a - mu))) by lra. pose proof (Rle_abs z). nra.
Qed.
Lemma soft_abs a mu : 0 <= mu -> Rabs (sgn a * Rmax (Rabs a - mu) 0) = Rmax (Rabs a - mu) 0.
Proof.
  intro Hm. pose proof (Rmax_r (Rabs a - mu) 0). rewrite Rabs_mult, (Rabs_right (Rmax _ _)) by lra. destruct (Rtotal_order a 0) as [Ha|[Ha|Ha]].
  - rewrite sgn_neg, abs_m1 by auto. ring.
  - subst a. rewrite Rabs_R0. rewrite sgn_0, Rabs_R0. unfold Rmax. destruct (Rle_dec _ _); lra.
  - rewrite sgn_pos, Rabs_R1 by auto. ring.
Qed.
Lemma softv_proj n (x : Vec n) mu : 0 <= mu -> is_proj (l1_ball (RS n (fun i => Rmax (Rabs (get x i) - mu) 0))) x (softv x mu).
Proof.
  intro Hm. set (r := RS n (fun i => Rmax (Rabs (get x i) - mu) 0)).
  assert (Hr : RS n (fun i => Rabs (get (softv x mu) i)) = r).
  { apply RS_ext. intros i Hi. unfold softv. rewrite get_vtab by auto. apply soft_abs; auto. }
  apply vi_proj; [unfold l1_ball; lra|]. intros z Hz. unfold l1_ball in Hz. rewrite vec_inner.
  apply Rle_trans with (mu * (RS n (fun i => Rabs (get z i)) - r)); [|nra]. rewrite <- Hr, <- RS_sub, <- RS_scal. apply RS_le. intros i Hi.
  rewrite !get_sub by auto. unfold softv. rewrite get_vtab by auto. apply soft_entry; auto.
Qed.
Lemma get_absv n (x : Vec n) i : (i < n)%nat -> get (absv x) i = Rabs (get x i).
Proof. intro H. unfold absv. rewrite get_vtab by auto. reflexivity. Qed.
Lemma abs_sgn_le a : Rabs (sgn a) <= 1.
Proof. unfold sgn. destruct (Rltb a 0); [rewrite abs_m1; lra|]. destruct (Rltb 0 a); [rewrite Rabs_R1|rewrite Rabs_R0]; lra. Qed.

Lemma l1_outside_core n radius maxiter xtol fuel (x y : Vec n) : (0 < n)%nat -> radius <= RS n (fun i => Rabs (get x i)) ->
  l1_ball_proj radius maxiter xtol fuel x = Ok y ->
  exists mo, 0 <= mo /\ is_proj (l1_ball radius) x (softv x mo) /\ norm (y [-] softv x mo) <= (xtol + bisect_rtol * Rmax 1 (2 * RS n (fun i => Rabs (get (softv x mo) i - get x i)))) * sqrt (INR n).
Proof.
  intros Hn Hr. unfold l1_ball_proj.
  unfold simplex_proj, hp_proj. destruct (hp_bracket _ fuel) as [[lo hi]|] eqn:Eb; cbn [bind fst snd]; [|discriminate].
  assert (Eb' := Eb). apply bracket_spec in Eb as [B1 [B2 [B3 B4]]]. set (f := hp_fun _ _ _ _) in *.
  destruct (bisect f lo hi maxiter xtol) as [mu|] eqn:Em; cbn [bind]; [|discriminate]. intro Ey. apply Ok_inj in Ey. subst y.
  assert (Hin : lo <= mu <= hi) by (eapply bisect_in; [|exact Em]; lra). apply bisect_spec in Em as [mo [M1 M2]]; auto; [|apply hp_ivt|lra].
  assert (Hz : hp_set (ones n) radius nonneg_bounds (boxv nonneg_bounds (absv x [-] mo [*] ones n))) by (apply (hp_root_proj (ones n) radius nonneg_bounds (nonneg_lu n) (absv x) mo M1)).
  pose proof (mu_bound _ _ _ _ _ _ _ _ _ _ Eb' Hin Hz) as Hmu. rewrite reach_ones in Hmu.
  assert (Hf : forall m, f m = RS n (fun i => Rmax (Rabs (get x i) - m) 0) - radius).
  { intro m. unfold f. rewrite hp_fun_RS. f_equal. apply RS_ext. intros i Hi. rewrite get_ones, get_absv by auto. unfold clip, nonneg_bounds; cbn [fst snd]. rewrite Rmult_1_l. do 2 f_equal. ring. }
  assert (H0 : 0 <= mo).
  { destruct (Rle_dec 0 mo) as [H|H]; auto. exfalso. rewrite Hf in M1.
    assert (RS n (fun i => Rabs (get x i)) + INR n * (- mo) <= RS n (fun i => Rmax (Rabs (get x i) - mo) 0)).
    { rewrite <- RS_const, <- RS_add. apply RS_le. intros i Hi. eapply Rle_trans; [|apply Rmax_l]. lra. }
    assert (0 < INR n) by (apply lt_0_INR; auto). nra. }
  rewrite (RS_ext n _ (fun i => Rabs (get (softv x mo) i - get x i))) in Hmu.
  2:{ intros i Hi. rewrite (get_yv (ones n) nonneg_bounds (absv x) mo i Hi), get_ones, get_absv by auto. unfold clip, nonneg_bounds, softv; cbn [fst snd]. rewrite get_vtab by auto.
      replace (mo * 1) with mo by ring. destruct (Rtotal_order (get x i) 0) as [Ha|[Ha|Ha]].
      - rewrite sgn_neg by auto. rewrite (Rabs_left (get x i)) by auto. rewrite <- Rabs_Ropp. f_equal. ring.
      - rewrite Ha. unfold sgn. rewrite (proj2 (Rltb_false 0 0)) by lra. rewrite Rabs_R0, Rmax_right by lra. f_equal. ring.
      - rewrite sgn_pos by auto. rewrite (Rabs_right (get x i)) by lra. f_equal. ring. }
  exists mo. split; auto. split.
  - replace radius with (RS n (fun i => Rmax (Rabs (get x i) - mo) 0)) by (rewrite Hf in M1; lra). apply softv_proj; auto.
  - eapply Rle_trans; [|apply Rmult_le_compat_r; [apply sqrt_pos|eapply Rle_trans; [exact M2|apply Rplus_le_compat_l, Rmult_le_compat_l; [apply rtol_nonneg|exact Hmu]]]]. rewrite <- norm_ones.
    eapply Rle_trans; [|apply (yv_lip (ones n) nonneg_bounds (absv x))].
    apply norm_le_of_sq; [apply norm_nonneg|]. rewrite norm_sq. rewrite !vec_norm2. apply RS_le. intros i Hi. rewrite !get_sub by auto.
    unfold softv at 1 2. rewrite !get_vtab by auto.
    assert (E : Rmax (Rabs (get x i) - mo) 0 = get (boxv nonneg_bounds (absv x [-] mo [*] ones n)) i).
    { rewrite (get_yv (ones n) nonneg_bounds (absv x) mo i Hi), get_ones, get_absv by auto. unfold clip, nonneg_bounds; cbn [fst snd]. f_equal. ring. }
    rewrite E. set (a := get (boxv _ _) i). set (b := get (boxv _ _) i).
    replace ((sgn (get x i) * a - sgn (get x i) * b) * (sgn (get x i) * a - sgn (get x i) * b)) with (sgn (get x i) * sgn (get x i) * ((a - b) * (a - b))) by ring.
    pose proof (abs_sgn_le (get x i)). assert (sgn (get x i) * sgn (get x i) <= 1).
    { replace (sgn (get x i) * sgn (get x i)) with (Rabs (sgn (get x i)) * Rabs (sgn (get x i))); [pose proof (Rabs_pos (sgn (get x i))); nra|]. rewrite <- Rabs_mult, Rabs_right; auto. apply Rle_ge, Rle_0_sqr. }
    pose proof (Rle_0_sqr (a - b)). unfold Rsqr in *. nra.
Qed.

(*! C24_outside : inputs outside or on the ball (sum |x_i| >= radius), all lengths: whenever L1Ball.prox returns y, y is within sqrt n (xtol + rtol max(1, 2 sum_i |p_i - x_i|)) of
   the Euclidean projection p on {sum |x_i| <= radius}. Inputs strictly inside the ball: see the next theorems *)
Lemma C24_outside_l : forall n radius maxiter xtol fuel (x y : Vec n) tau, (0 < n)%nat -> radius <= RS n (fun i => Rabs (get x i)) ->
  l1ball_prox radius maxiter xtol fuel x tau = Ok y ->
  exists p, is_proj (l1_ball radius) x p /\ norm (y [-] p) <= (xtol + bisect_rtol * Rmax 1 (2 * RS n (fun i => Rabs (get p i - get x i)))) * sqrt (INR n).
Proof.
  intros n radius maxiter xtol fuel x y tau Hn Hr. unfold l1ball_prox. destruct (Rleb tau 0); [discriminate|]. intro E. destruct (l1_outside_core n radius maxiter xtol fuel x y Hn Hr E) as [mo [_ H]]. eauto.
Qed.

Lemma fun_half mu : hp_fun (ones 1) 1 nonneg_bounds half1 mu = Rmax (1 / 2 - mu) 0 - 1.
Proof. rewrite hp_fun_RS. unfold RS. unfold half1, ones. rewrite !get_vtab by lia. unfold clip, nonneg_bounds; cbn [fst snd]. rewrite Rplus_0_l, Rmult_1_l, Rmult_1_r. reflexivity. Qed.
Lemma simplex_half maxiter xtol fuel : (0 < fuel)%nat -> (2 <= maxiter)%nat -> 0 < xtol < 1 / 2 -> simplex_proj 1 maxiter xtol fuel half1 = Ok (vtab 1 (fun _ => 1)).
Proof.
  intros Hf Hm Hx. unfold simplex_proj, hp_proj. destruct fuel as [|fuel]; [lia|]. unfold hp_bracket. cbn [double_while]. rewrite !fun_half.
  unfold Rmax at 1. destruct (Rle_dec (1 / 2 - -1) 0); [lra|]. destruct (Rltb_spec (1 / 2 - -1 - 1) 0) as [[? ->]|[_ ->]]; [lra|]. cbn [bind].
  unfold Rmax at 1. destruct (Rle_dec (1 / 2 - 1) 0); [|lra]. destruct (Rltb_spec 0 (0 - 1)) as [[? ->]|[_ ->]]; [lra|]. cbn [bind fst snd].
  assert (Hb : bisect (hp_fun (ones 1) 1 nonneg_bounds half1) (-1) 1 maxiter xtol = Ok (-1 / 2)).
  { unfold bisect. destruct (Rleb_spec xtol 0) as [[? ->]|[_ ->]]; [lra|]. rewrite !fun_half.
    assert (E1 : Rmax (1 / 2 - -1) 0 = 3 / 2) by (unfold Rmax; destruct (Rle_dec _ _); lra). assert (E2 : Rmax (1 / 2 - 1) 0 = 0) by (unfold Rmax; destruct (Rle_dec _ _); lra).
    rewrite E1, E2. destruct (Reqb_spec (3 / 2 - 1) 0) as [[? ->]|[_ ->]]; [lra|]. destruct (Reqb_spec (0 - 1) 0) as [[? ->]|[_ ->]]; [lra|].
    unfold same_sign at 1. destruct (Rltb_spec (3 / 2 - 1) 0) as [[? ->]|[_ ->]]; [lra|]. destruct (Rltb_spec (0 - 1) 0) as [[_ ->]|[? ->]]; [|lra]. cbn [Bool.eqb].
    destruct maxiter as [|[|k]]; [lia|lia|]. cbn [bisect_loop]. rewrite !fun_half.
    replace (1 / 2 - (-1 + (1 - -1) / 2)) with (1 / 2) by field. assert (E3 : Rmax (1 / 2) 0 = 1 / 2) by (unfold Rmax; destruct (Rle_dec _ _); lra). rewrite E3.
    destruct (Reqb_spec (1 / 2 - 1) 0) as [[? ->]|[_ ->]]; [lra|]. cbn [orb]. replace (-1 + (1 - -1) / 2) with 0 by field. rewrite Rabs_R0, Rmult_0_r, Rplus_0_r.
    replace ((1 - -1) / 2) with 1 by field. rewrite Rabs_R1. destruct (Rltb_spec 1 xtol) as [[? ->]|[_ ->]]; [lra|].
    unfold same_sign at 1 2 3 4. destruct (Rltb_spec (1 / 2 - 1) 0) as [[_ ->]|[? ->]]; [|lra]. destruct (Rltb_spec (3 / 2 - 1) 0) as [[? ->]|[_ ->]]; [lra|]. cbn [Bool.eqb].
    replace (1 / 2 - (-1 + 1 / 2)) with 1 by field. assert (E4 : Rmax 1 0 = 1) by (unfold Rmax; destruct (Rle_dec _ _); lra). rewrite E4.
    destruct (Reqb_spec (1 - 1) 0) as [[_ ->]|[? ->]]; [|lra]. cbn [orb]. f_equal. field. }
  rewrite Hb. cbn [bind]. f_equal. apply vec_ext. intros i Hi. rewrite (get_yv (ones 1) nonneg_bounds half1 _ i Hi), get_ones by auto. unfold half1. rewrite !get_vtab by auto.
  unfold clip, nonneg_bounds; cbn [fst snd]. unfold Rmax. destruct (Rle_dec _ _); lra.
Qed.

(*! C24_inside_refuted : points strictly inside the ball are moved to its boundary: for radius 1 the prox of the single-entry array (1/2) is (1), although
   (1/2) is in the ball, accepted by the operator's own call and so its own projection *)
Lemma C24_inside_refuted_l : forall maxiter xtol fuel tau tol, (0 < fuel)%nat -> (2 <= maxiter)%nat -> 0 < xtol < 1 / 2 -> 0 < tau -> 0 < tol ->
  l1ball_prox 1 maxiter xtol fuel half1 tau = Ok (vtab 1 (fun _ => 1)) /\ l1ball_call 1 tol half1 = true /\ is_proj (l1_ball 1) half1 half1 /\ ~ is_proj (l1_ball 1) half1 (vtab 1 (fun _ => 1)).
Proof.
  intros maxiter xtol fuel tau tol Hf Hm Hx Ht Htol.
  assert (Hin : l1_ball 1 half1). { unfold l1_ball, RS, half1. rewrite get_vtab by lia. rewrite Rabs_right; lra. }
  split.
  - unfold l1ball_prox. destruct (Rleb_spec tau 0) as [[? ->]|[_ ->]]; [lra|]. unfold l1_ball_proj.
    assert (E : absv half1 = half1). { apply vec_ext. intros i Hi. rewrite get_absv by auto. unfold half1. rewrite get_vtab by auto. apply Rabs_right. lra. }
    rewrite E, simplex_half by auto. cbn [bind]. f_equal. apply vtab_ext. intros i Hi. unfold half1. rewrite !get_vtab by auto. rewrite sgn_pos by lra. ring.
  - split; [|split].
    + unfold l1ball_call, RS, half1. rewrite get_vtab by lia. apply Rltb_true. rewrite Rabs_right; lra.
    + apply proj_id; auto.
    + intro H. apply proj_of_mem in H; auto. assert (get (vtab 1 (fun _ => 1)) 0 = get half1 0) by (rewrite H; reflexivity). unfold half1 in *. rewrite !get_vtab in H0 by lia. lra.
Qed.

(*! C24_moved_refuted : more generally any input without zero entries, however small, is sent, up to the accuracy n (xtol + rtol max(1, 2 sum_i |p_i - |x_i||)) of the search, to the sphere sum |x_i| = radius *)
Lemma C24_moved_refuted_l : forall n radius maxiter xtol fuel (x y : Vec n) tau, (forall i, (i < n)%nat -> get x i <> 0) ->
  l1ball_prox radius maxiter xtol fuel x tau = Ok y -> exists p, is_proj (simplex_set radius) (absv x) p /\
    Rabs (RS n (fun i => Rabs (get y i)) - radius) <= INR n * (xtol + bisect_rtol * Rmax 1 (2 * RS n (fun i => Rabs (get p i - Rabs (get x i))))).
Proof.
  intros n radius maxiter xtol fuel x y tau Hx. unfold l1ball_prox, l1_ball_proj. destruct (Rleb tau 0); [discriminate|].
  destruct (simplex_proj radius maxiter xtol fuel (absv x)) as [w|] eqn:E; cbn [bind]; [|discriminate]. intro Ey. apply Ok_inj in Ey. subst y.
  destruct (C23_simplex_l _ _ _ _ _ _ _ E) as [p [HP [[mu H1] [H2 _]]]]. exists p. split; auto.
  rewrite (RS_ext n (fun i => Rabs (get p i - Rabs (get x i))) (fun i => Rabs (get p i - get (absv x) i))) by (intros i Hi; rewrite get_absv by auto; reflexivity). replace (RS n (fun i => Rabs (get (vtab n (fun i => sgn (get x i) * get w i)) i))) with (RS n (get w)); auto.
  apply RS_ext. intros i Hi. rewrite get_vtab by auto. assert (0 <= get w i) by (rewrite H1 by auto; apply Rmax_r). rewrite Rabs_mult, (Rabs_right (get w i)) by lra.
  destruct (Rtotal_order (get x i) 0) as [Ha|[Ha|Ha]]; [rewrite sgn_neg, abs_m1 by auto; ring|elim (Hx i Hi Ha)|rewrite sgn_pos, Rabs_R1 by auto; ring].
Qed.

(*! C24_call : L1Ball's call accepts x exactly when sum |x_i| < radius + tol *)
Lemma C24_call_l : forall n radius tol (x : Vec n), l1ball_call radius tol x = true <-> RS n (fun i => Rabs (get x i)) < radius + tol.
Proof. intros. unfold l1ball_call. rewrite Rltb_true. split; lra. Qed.

(*!ex C24_example : an input on the sphere: half1 with radius 1/2 meets the hypotheses of C24_outside (n = 1, sum |x| >= radius, and the prox returns) *)
Lemma C24_example_l : (0 < 1)%nat /\ 1 / 2 <= RS 1 (fun i => Rabs (get half1 i)) /\ exists fuel maxiter y, l1ball_prox (1 / 2) maxiter 1 fuel half1 1 = Ok y.
Proof.
  split; [lia|]. split; [unfold RS, half1; rewrite get_vtab by lia; rewrite Rabs_right; lra|].
  destruct (C23_simplex_runs_l 1 (1 / 2) (absv half1) ltac:(lia)) as [H _]. destruct (H ltac:(lra)) as [N HN]. destruct (HN N (le_n N)) as [w Hw].
  destruct (pow2_above (w + 1)) as [k Hk]. destruct (Hw 1 (S k)) as [y Hy]; [lra|lia|simpl; assert (0 < 2 ^ k) by (apply pow_lt; lra); lra|].
  exists N, (S k). eexists. unfold l1ball_prox. destruct (Rleb_spec 1 0) as [[? ->]|[_ ->]]; [lra|]. unfold l1_ball_proj. rewrite Hy. reflexivity.
Qed.

(*!ex C23_example : the simplex projection of (1/2) on {sum = 1, >= 0} runs and returns (1): the hypotheses of C23_result and C23_simplex hold *)
Lemma C23_example_l : lu_ok 1 nonneg_bounds /\ simplex_proj 1 100 (1 / 100000) 5 half1 = Ok (vtab 1 (fun _ => 1)) /\ (exists z : Vec 3, hp_set (ones 3) 2 nonneg_bounds z) /\
  (forall z : Vec 3, ~ hp_set (ones 3) (-2) nonneg_bounds z).
Proof.
  split; [apply nonneg_lu|]. split; [apply simplex_half; try lia; lra|]. split.
  - destruct (simplex_nonempty 3 2) as [z Hz]; [lra|lia|]. exists z. apply simplex_hp; auto.
  - intros z Hz. apply simplex_hp in Hz as [H1 H2]. pose proof (RS_nonneg 3 (get z) H2). lra.
Qed.
