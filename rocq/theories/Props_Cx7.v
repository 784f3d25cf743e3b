(** Property theorems for Cx7: statements only; every proof is [exact] a lemma of P_Cx7.v.
    Generated from the tagged lemmas of that file. *)
From Coq Require Import Psatz ZArith.
From Verif Require Import Base Space Spec SpecOps ConvexFacts Sep VSum MatFacts Cplx M_ProxOp M_Loop M_L1 M_Pen M_Proj M_L0 M_Cx S_Pen3 P_Pen3 P_Proj2 P_Proj3 P_L0 SeqFacts DFT P_Conv P_L1 P_Cx P_ProxOp P_Cx2 P_Cx3 P_Cx4 P_Cx5 P_Cx6 P_Proj.
From Verif Require Import S_Cx S_L0.
From Verif Require Import P_Cx7.
Open Scope result_scope.


(** for x = 3 + 4i, of modulus 5, the point 1.2 + 1.6i has modulus 2 and the phase of x *)
Example C80_radial_example : turned (cvec 1 (fun _ => (3, 4))) (vtab 1 (fun _ => 2)) (cvec 1 (fun _ => (6 / 5, 8 / 5))) /\
  sign_free (n:=1) (etot (fun y => Rabs (get y 0))) /\ get (cmodulus (cvec 1 (fun _ => (3, 4)) : CArr 1)) 0 = 5.
Proof. exact C80_radial_example_l. Qed.

(** QuadraticEnvelopeCard with mu = 2, tau = 1/2 sends 3 + 4i, which is above the threshold, to
    itself with numpy 2 and to the real number 5 with numpy < 2: both C80_qe_card and
    C80_old_sign_qe_card_refuted apply *)
Example C80_sign_example : forall fuel, let x : CArr 1 := cvec 1 (fun _ => (3, 4)) in
  o_prox (obj (S fuel) (csep_body (n:=1) (qecc_elem 2) (qecc_pr csign_new 2))) x (1 / 2) = Ok x /\
  exists p, o_prox (obj (S fuel) (csep_body (n:=1) (qecc_elem 2) (qecc_pr csign_old 2))) x (1 / 2) = Ok p /\ cg p 0 = (5, 0) /\ snd (cg x 0) <> 0 /\ cg p 0 <> C0.
Proof. exact C80_sign_example_l. Qed.

(** SCAD with sigma = 2, a = 3, tau = 1 at 3 + 4i: the second branch is taken, the hypotheses of
    C80_scad and C80_old_sign_scad_refuted hold, and call is off by Im(x)^2/(a-1) = 8 *)
Example C80_scad_example : forall fuel, let x : CArr 1 := cvec 1 (fun _ => (3, 4)) in
  scad_init 2 3 = Ok tt /\ 0 < 1 < 3 - 1 /\ 2 < cmod (cg x 0) <= 3 * 2 /\
  exists p, o_prox (obj (S fuel) (scadc_body csign_old (n:=1) 2 3)) x 1 = Ok p /\ cg p 0 <> C0.
Proof. exact C80_scad_example_l. Qed.

(** a Lambert function exists, and sigma = gamma = tau = 1, b = 10 meet the hypotheses of
    C80_etp_refuted *)
Example C80_etp_example : (exists W, lambert W) /\ / 1 <= Rabs 10 /\ 1 * (1 / (1 - exp (- (1)))) < 10 * 10 / 2.
Proof. exact C80_etp_example_l. Qed.

(** the group (3i, 4i) has norm 5; with sigma = tau = 1 the conclusions of C80_l21_refuted about
    prox and proxdual apply to it *)
Example C80_l21_example : let r : Vec 2 := vtab 2 (fun i => nth i [3; 4] 0) in
  norm r = 5 /\ 1 * 1 < norm (cvec 2 (fun i => (0, get r i)) : CArr 2) /\ 0 <= 1 / 2 < 1.
Proof. exact C80_l21_example_l. Qed.

(** L1Ball of radius 1 returns on the complex array (5i/2), which is outside; an executable
    argsort exists for C80_l0_ball *)
Example C80_ball_example : argsort_ok isort /\ let x : CArr 1 := cvec 1 (fun _ => (0, 5 / 2)) in
  1 <= RS 1 (fun i => cmod (cg x i)) /\ exists fuel maxiter y, l1ballc_prox 1 maxiter 1 fuel x 1 = Ok y.
Proof. exact C80_ball_example_l. Qed.

(** operators with the assumed values exist, and x0 = i is a start: after two steps the iterate
    is 9i *)
Example C80_backtracking_example : exists (f g : Op (CArr 1)),
  (forall x, o_call f x = Ok (VNum (2 * norm2 x))) /\ (forall x, o_grad f x = Ok (Some (4 [*] x))) /\ (forall x t, o_prox g x t = Ok x) /\
  pgc_bt f g 1 (1 / 2) 10 2 (cvec 1 (fun _ => (0, 1))) 1 = Ok (cvec 1 (fun _ => (0, 9)), 1).
Proof. exact C80_backtracking_example_l. Qed.

(** w = 1, b = 0, x = 1 + i meets the hypotheses of C80_halfspace_refuted; v = i is not real in
    the sense of C80_sum *)
Example C80_halfspace_example : let w : CArr 1 := cvec 1 (fun _ => (1, 0)) in let x : CArr 1 := cvec 1 (fun _ => (1, 1)) in
  is_real w /\ w <> vzero /\ 0 < fst (cdot w x) /\ snd (cdot w x) <> 0 /\ ~ is_real (cvec 1 (fun _ => (0, 1))).
Proof. exact C80_halfspace_example_l. Qed.
