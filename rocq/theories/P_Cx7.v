(** * Concrete complex arrays for the theorems of P_Cx*.v *)
From Coq Require Import Psatz ZArith.
From Verif Require Import Base Space Spec SpecOps ConvexFacts Sep VSum MatFacts Cplx M_ProxOp M_Loop M_L1 M_Pen M_Proj M_L0 M_Cx S_Pen3 P_Pen3 P_Proj2 P_Proj3 P_L0 SeqFacts DFT P_Conv P_L1 P_Cx P_ProxOp P_Cx2 P_Cx3 P_Cx4 P_Cx5 P_Cx6 P_Proj.
From Verif Require Export S_Cx S_L0.
Open Scope result_scope.

Lemma mod34 : cmod (3, 4) = 5.
Proof. unfold cmod, cabs2; simpl. replace (3 * 3 + 4 * 4) with (5 * 5) by ring. apply sqrt_square. lra. Qed.
Lemma turn34 : turned (cvec 1 (fun _ => (3, 4))) (vtab 1 (fun _ => 2)) (cvec 1 (fun _ => (6 / 5, 8 / 5))).
Proof.
  intros i Hi. rewrite !cg_cvec, get_vtab by auto. rewrite mod34. split; [unfold cscal; simpl; f_equal; field|].
  unfold cmod, cabs2; simpl. replace (6 / 5 * (6 / 5) + 8 / 5 * (8 / 5)) with (2 * 2) by field. rewrite sqrt_square, Rabs_right by lra. reflexivity.
Qed.
(*!ex C80_radial_example : for x = 3 + 4i, of modulus 5, the point 1.2 + 1.6i has modulus 2 and the phase of x *)
Lemma C80_radial_example_l : turned (cvec 1 (fun _ => (3, 4))) (vtab 1 (fun _ => 2)) (cvec 1 (fun _ => (6 / 5, 8 / 5))) /\
  sign_free (n:=1) (etot (fun y => Rabs (get y 0))) /\ get (cmodulus (cvec 1 (fun _ => (3, 4)) : CArr 1)) 0 = 5.
Proof.
  split; [exact turn34|]. split.
  - intros x y H. split; [reflexivity|]. intros _. apply H. lia.
  - rewrite get_cmodulus, cg_cvec by lia. apply mod34.
Qed.

Lemma qe34 sign : cmapv (qecc_pr sign 2 (1 / 2)) (cvec 1 (fun _ => (3, 4)) : CArr 1) = cvec 1 (fun _ => cscal 5 (sign (3, 4))).
Proof.
  apply carr_ext. intros i Hi. rewrite cg_cmapv, !cg_cvec by auto. unfold qecc_pr. change (@norm C_IPS (3, 4)) with (cmod (3, 4)). rewrite mod34.
  assert (E : sqrt (2 * 2) = 2) by (apply sqrt_square; lra). rewrite E. destruct (Rltb_spec 5 2) as [[? _]|[_ ->]]; [lra|]. reflexivity.
Qed.
(*!ex C80_sign_example : QuadraticEnvelopeCard with mu = 2, tau = 1/2 sends 3 + 4i, which is above the threshold, to itself with numpy 2 and to the
   real number 5 with numpy < 2: both C80_qe_card and C80_old_sign_qe_card_refuted apply *)
Lemma C80_sign_example_l : forall fuel, let x : CArr 1 := cvec 1 (fun _ => (3, 4)) in
  o_prox (obj (S fuel) (csep_body (n:=1) (qecc_elem 2) (qecc_pr csign_new 2))) x (1 / 2) = Ok x /\
  exists p, o_prox (obj (S fuel) (csep_body (n:=1) (qecc_elem 2) (qecc_pr csign_old 2))) x (1 / 2) = Ok p /\ cg p 0 = (5, 0) /\ snd (cg x 0) <> 0 /\ cg p 0 <> C0.
Proof.
  intros fuel x. simpl o_prox. rewrite !check_tau_pos by lra. unfold x. rewrite !qe34. split.
  - f_equal. apply carr_ext. intros i Hi. rewrite !cg_cvec by auto. unfold csign_new. change (@norm C_IPS (3, 4)) with (cmod (3, 4)). rewrite mod34.
    destruct (Reqb_spec 5 0) as [[? _]|[_ ->]]; [lra|]. unfold cscal; simpl. f_equal; field.
  - eexists; split; [reflexivity|]. rewrite !cg_cvec by lia.
    assert (E : cscal 5 (csign_old (3, 4)) = (5, 0)).
    { unfold csign_old, cscal; simpl. destruct (Reqb_spec 3 0) as [[? _]|[_ ->]]; [lra|]. rewrite sgn_pos by lra. f_equal; ring. }
    rewrite E. split; [reflexivity|]. split; [simpl; lra|]. unfold C0. intro H. injection H. lra.
Qed.
(*!ex C80_scad_example : SCAD with sigma = 2, a = 3, tau = 1 at 3 + 4i: the second branch is taken, the hypotheses of C80_scad and
   C80_old_sign_scad_refuted hold, and call is off by Im(x)^2/(a-1) = 8 *)
Lemma C80_scad_example_l : forall fuel, let x : CArr 1 := cvec 1 (fun _ => (3, 4)) in
  scad_init 2 3 = Ok tt /\ 0 < 1 < 3 - 1 /\ 2 < cmod (cg x 0) <= 3 * 2 /\
  exists p, o_prox (obj (S fuel) (scadc_body csign_old (n:=1) 2 3)) x 1 = Ok p /\ cg p 0 <> C0.
Proof.
  intros fuel x. split; [unfold scad_init; destruct (Rleb_spec 2 0) as [[? _]|[_ ->]]; [lra|]; destruct (Rleb_spec 3 2) as [[? _]|[_ ->]]; [lra|]; reflexivity|].
  split; [lra|]. unfold x at 1 2. rewrite cg_cvec, mod34 by lia. split; [lra|].
  simpl o_prox. rewrite check_tau_pos by lra. eexists; split; [reflexivity|]. unfold x. rewrite cg_cmapv, cg_cvec by lia. unfold scadc_pr.
  change (@norm C_IPS (3, 4)) with (cmod (3, 4)). rewrite mod34.
  destruct (Rleb_spec 5 (2 * (3 - 1 - 1 + 1 * 3) / (3 - 1))) as [[? _]|[_ ->]]; [lra|]. destruct (Rleb_spec 5 (3 * 2)) as [[_ ->]|[? _]]; [|lra].
  intro H. apply (f_equal snd) in H. unfold csign_old, vsub in H; simpl in H. lra.
Qed.
(*!ex C80_etp_example : a Lambert function exists, and sigma = gamma = tau = 1, b = 10 meet the hypotheses of C80_etp_refuted *)
Lemma C80_etp_example_l : (exists W, lambert W) /\ / 1 <= Rabs 10 /\ 1 * (1 / (1 - exp (- (1)))) < 10 * 10 / 2.
Proof.
  split; [exact lambert_exists|]. rewrite Rabs_right by lra. split; [lra|].
  assert (H : exp (-1) <= 1 / 2).
  { replace (-1) with (- (1)) by ring. rewrite exp_Ropp. assert (2 <= exp 1) by (pose proof (exp_ineq1 1 ltac:(lra)); lra).
    apply Rle_trans with (/ 2); [apply Rinv_le_contravar; lra|lra]. }
  replace (- (1)) with (-1) by ring. assert (0 < 1 - exp (-1)) by lra.
  apply (Rmult_lt_reg_r (1 - exp (-1))); auto. replace (1 * (1 / (1 - exp (-1))) * (1 - exp (-1))) with 1 by (field; lra). nra.
Qed.
(*!ex C80_l21_example : the group (3i, 4i) has norm 5; with sigma = tau = 1 the conclusions of C80_l21_refuted about prox and proxdual apply to it *)
Lemma C80_l21_example_l : let r : Vec 2 := vtab 2 (fun i => nth i [3; 4] 0) in
  norm r = 5 /\ 1 * 1 < norm (cvec 2 (fun i => (0, get r i)) : CArr 2) /\ 0 <= 1 / 2 < 1.
Proof.
  intro r. assert (E : norm r = 5).
  { unfold norm. rewrite vec_norm2. unfold r. cbn [RS]. rewrite !get_vtab by lia. simpl nth. replace (0 + 3 * 3 + 4 * 4) with (5 * 5) by ring. apply sqrt_square. lra. }
  split; [exact E|]. destruct (C80_l21_refuted_l 2 1 1 r ltac:(lra) ltac:(lra)) as [H _]. rewrite H, E. lra.
Qed.
(*!ex C80_ball_example : L1Ball of radius 1 returns on the complex array (5i/2), which is outside; an executable argsort exists for C80_l0_ball *)
Lemma C80_ball_example_l : argsort_ok isort /\ let x : CArr 1 := cvec 1 (fun _ => (0, 5 / 2)) in
  1 <= RS 1 (fun i => cmod (cg x i)) /\ exists fuel maxiter y, l1ballc_prox 1 maxiter 1 fuel x 1 = Ok y.
Proof.
  split; [exact isort_ok|]. intro x. split.
  - cbn [RS]. unfold x. rewrite cg_cvec by lia. unfold cmod, cabs2; simpl. replace (0 * 0 + 5 / 2 * (5 / 2)) with (5 / 2 * (5 / 2)) by ring. rewrite sqrt_square; lra.
  - destruct (C23_simplex_runs_l 1 1 (mods x) ltac:(lia)) as [H _]. destruct (H ltac:(lra)) as [N HN]. destruct (HN N (le_n N)) as [w Hw].
    destruct (pow2_above (w + 1)) as [k Hk]. destruct (Hw 1 (S k)) as [y Hy]; [lra|lia|simpl; assert (0 < 2 ^ k) by (apply pow_lt; lra); lra|].
    exists N, (S k). eexists. unfold l1ballc_prox. destruct (Rleb_spec 1 0) as [[? _]|[_ ->]]; [lra|]. rewrite Hy. reflexivity.
Qed.
(*!ex C80_backtracking_example : operators with the assumed values exist, and x0 = i is a start: after two steps the iterate is 9i *)
Lemma C80_backtracking_example_l : exists (f g : Op (CArr 1)),
  (forall x, o_call f x = Ok (VNum (2 * norm2 x))) /\ (forall x, o_grad f x = Ok (Some (4 [*] x))) /\ (forall x t, o_prox g x t = Ok x) /\
  pgc_bt f g 1 (1 / 2) 10 2 (cvec 1 (fun _ => (0, 1))) 1 = Ok (cvec 1 (fun _ => (0, 9)), 1).
Proof.
  set (f := mkOp (E:=CArr 1) (fun x => Ok (VNum (2 * norm2 x))) (fun x t => Ok (/ (1 + 4 * t) [*] x)) (fun x t => Ok x) (fun x => Ok (Some (4 [*] x))) true).
  set (g := mkOp (E:=CArr 1) (fun x => Ok (VNum 0)) (fun x t => Ok x) (fun x t => Ok vzero) (fun x => Ok None) false).
  exists f, g. split; [reflexivity|]. split; [reflexivity|]. split; [reflexivity|].
  rewrite (C80_backtracking_refuted_l 1 f g 1 (1 / 2) 10 2 (cvec 1 (fun _ => (0, 1)))); try reflexivity.
  - f_equal. f_equal. apply carr_ext. intros i Hi. rewrite cg_scal, !cg_cvec by auto. unfold cscal; simpl. f_equal; ring.
  - lia.
  - intros i Hi. rewrite cg_cvec by auto. reflexivity.
Qed.
(*!ex C80_halfspace_example : w = 1, b = 0, x = 1 + i meets the hypotheses of C80_halfspace_refuted; v = i is not real in the sense of C80_sum *)
Lemma C80_halfspace_example_l : let w : CArr 1 := cvec 1 (fun _ => (1, 0)) in let x : CArr 1 := cvec 1 (fun _ => (1, 1)) in
  is_real w /\ w <> vzero /\ 0 < fst (cdot w x) /\ snd (cdot w x) <> 0 /\ ~ is_real (cvec 1 (fun _ => (0, 1))).
Proof.
  intros w x. split; [intros i Hi; unfold w; rewrite cg_cvec by auto; reflexivity|].
  split; [intro H; apply (f_equal (fun v => fst (cg v 0))) in H; unfold w in H; rewrite cg_cvec, cg_zero in H by lia; unfold C0 in H; simpl in H; lra|].
  unfold cdot, w, x. cbn [csum]. rewrite !cg_cvec by lia. simpl. split; [lra|]. split; [lra|].
  intro H. specialize (H 0%nat ltac:(lia)). rewrite cg_cvec in H by lia. simpl in H. lra.
Qed.
