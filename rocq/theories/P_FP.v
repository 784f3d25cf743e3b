(** * Proofs about the floating-point model *)
From Coq Require Import Reals ZArith List Lra Lia.
From Flocq Require Import Core.Core IEEE754.BinarySingleNaN Sterbenz Relative Plus_error.
From Verif Require Import Base Space Spec M_L1 M_FP S_FP P_L1.
Import ListNotations.
Open Scope R_scope.

Section Facts.
Context {prec emax : Z} {Hp : Prec_gt_0 prec} {He : Prec_lt_emax prec emax}.
Notation fl := (binary_float prec emax).
Notation fexp := (FLT_exp (3 - emax - prec) prec).
Notation rnd := (round radix2 fexp ZnearestE).
Notation fmt := (generic_format radix2 fexp).
Local Existing Instance FLT_exp_valid.

Lemma sgn_eq_1 a : 0 < a -> sgn a = 1.
Proof. intro. unfold sgn. destruct (Rltb_spec a 0) as [[? ->]|[? ->]]; [lra|]. destruct (Rltb_spec 0 a) as [[? ->]|[? ->]]; lra. Qed.
Lemma sgn_eq_m1 a : a < 0 -> sgn a = -1.
Proof. intro. unfold sgn. destruct (Rltb_spec a 0) as [[? ->]|[? ->]]; lra. Qed.
Lemma sgn_0 : sgn 0 = 0.
Proof. unfold sgn. destruct (Rltb_spec 0 0) as [[? ->]|[? ->]]; [lra|]. reflexivity. Qed.

Lemma fmt_B2R (x : fl) : fmt (B2R x).
Proof. exact (generic_format_B2R prec emax x). Qed.

Lemma rnd_abs_lt p : Rabs p <= Rabs p -> forall b : fl, Rabs p <= Rabs (B2R b) -> Rabs (rnd p) < bpow radix2 emax.
Proof.
  intros _ b Hb. eapply Rle_lt_trans; [|apply (abs_B2R_lt_emax prec emax b)].
  apply abs_round_le_generic; auto with typeclass_instances. apply generic_format_abs, fmt_B2R.
Qed.

Lemma le_fin (a b : fl) : fin a -> fin b -> fl_le a b = true <-> B2R a <= B2R b.
Proof.
  intros Ha Hb. unfold fl_le. rewrite (Bcompare_correct prec emax a b Ha Hb).
  destruct (Rcompare_spec (B2R a) (B2R b)); split; intros; try reflexivity; try discriminate; lra.
Qed.
Lemma lt_fin (a b : fl) : fin a -> fin b -> fl_lt a b = true <-> B2R a < B2R b.
Proof.
  intros Ha Hb. unfold fl_lt. rewrite (Bcompare_correct prec emax a b Ha Hb).
  destruct (Rcompare_spec (B2R a) (B2R b)); split; intros; try reflexivity; try discriminate; lra.
Qed.
Lemma fin_nan (a : fl) : fin a -> is_nan a = false.
Proof. destruct a; easy. Qed.
Lemma max_fin (a b : fl) : fin a -> fin b -> fin (fl_max a b) /\ B2R (fl_max a b) = Rmax (B2R a) (B2R b).
Proof.
  intros Ha Hb. unfold fl_max. rewrite (fin_nan a Ha), (fin_nan b Hb). cbn [orb].
  pose proof (lt_fin a b Ha Hb) as H. destruct (fl_lt a b); split; auto.
  - symmetry. apply Rmax_right. destruct H as [H _]. specialize (H eq_refl). lra.
  - symmetry. apply Rmax_left. apply Rnot_lt_le. intro L. apply H in L. discriminate.
Qed.
Lemma min_fin (a b : fl) : fin a -> fin b -> fin (fl_min a b) /\ B2R (fl_min a b) = Rmin (B2R a) (B2R b).
Proof.
  intros Ha Hb. unfold fl_min. rewrite (fin_nan a Ha), (fin_nan b Hb). cbn [orb].
  pose proof (lt_fin b a Hb Ha) as H. destruct (fl_lt b a); split; auto.
  - symmetry. apply Rmin_right. destruct H as [H _]. specialize (H eq_refl). lra.
  - symmetry. apply Rmin_left. apply Rnot_lt_le. intro L. apply H in L. discriminate.
Qed.
Lemma abs_fin (a : fl) : fin a -> fin (fl_abs a) /\ B2R (fl_abs a) = Rabs (B2R a).
Proof. intro H. split; [unfold fin, fl_abs; rewrite is_finite_Babs; exact H|apply B2R_Babs]. Qed.
Lemma zero_fin : fin (fl_zero : fl).
Proof. reflexivity. Qed.

(** subtraction of a non-negative number from a non-negative number *)
Lemma sub_fin (a t : fl) : fin a -> fin t -> 0 <= B2R a -> 0 <= B2R t ->
  fin (fl_sub a t) /\ B2R (fl_sub a t) = rnd (B2R a - B2R t).
Proof.
  intros Ha Ht Pa Pt. pose proof (Bminus_correct prec emax _ _ mode_NE a t Ha Ht) as H. cbn [round_mode] in H.
  rewrite Rlt_bool_true in H; [destruct H as (E & F & _); split; [exact F|exact E]|].
  change (SpecFloat.fexp prec emax) with fexp.
  destruct (Rle_lt_dec (B2R t) (B2R a)).
  - apply (rnd_abs_lt _ (Rle_refl _) a). rewrite !Rabs_pos_eq; lra.
  - apply (rnd_abs_lt _ (Rle_refl _) t). rewrite Rabs_left, Rabs_pos_eq; lra.
Qed.

Lemma one_gen : B2R (Bone : fl) = 1.
Proof. apply Bone_correct. Qed.

(** multiplication by -1, 0 or 1 is exact *)
Lemma mul_sign (a x : fl) : fin a -> fin x ->
  fin (fl_mul a (fl_sign x)) /\ B2R (fl_mul a (fl_sign x)) = B2R a * sgn (B2R x).
Proof.
  intros Ha Hx.
  assert (Hs : fin (fl_sign x) /\ B2R (fl_sign x) = sgn (B2R x)).
  { destruct x as [s|s| |s m e Hb]; try discriminate; cbn [fl_sign].
    - split; [reflexivity|]. symmetry; apply sgn_0.
    - cbn [Bsign]. destruct s.
      + split; [unfold fin; rewrite is_finite_Bopp; apply is_finite_Bone|]. rewrite B2R_Bopp, one_gen.
        rewrite sgn_eq_m1; [lra|]. cbn [B2R]. apply F2R_lt_0. cbn. lia.
      + split; [apply is_finite_Bone|]. rewrite one_gen. rewrite sgn_eq_1; [lra|]. cbn [B2R]. apply F2R_gt_0. cbn. lia. }
  destruct Hs as [Fs Es].
  pose proof (Bmult_correct prec emax _ _ mode_NE a (fl_sign x)) as H. cbn [round_mode] in H.
  change (SpecFloat.fexp prec emax) with fexp in H.
  assert (E : rnd (B2R a * B2R (fl_sign x)) = B2R a * sgn (B2R x)).
  { rewrite Es. destruct (Rtotal_order (B2R x) 0) as [L|[L|L]].
    - rewrite sgn_eq_m1 by lra. replace (B2R a * -1) with (- B2R a) by ring. apply round_generic; auto with typeclass_instances.
      apply generic_format_opp, fmt_B2R.
    - rewrite L, sgn_0, Rmult_0_r. apply round_0; auto with typeclass_instances.
    - rewrite sgn_eq_1 by lra. rewrite Rmult_1_r. apply round_generic; auto with typeclass_instances. apply fmt_B2R. }
  rewrite E in H. rewrite Rlt_bool_true in H.
  - destruct H as (V & F & _). split; [|exact V]. unfold fin, fl_mul. rewrite F, Ha. exact Fs.
  - eapply Rle_lt_trans; [|apply (abs_B2R_lt_emax prec emax a)].
    rewrite Rabs_mult. rewrite <- (Rmult_1_r (Rabs (B2R a))) at 2. apply Rmult_le_compat_l; [apply Rabs_pos|].
    destruct (Rtotal_order (B2R x) 0) as [L|[L|L]]; [rewrite sgn_eq_m1 by lra|rewrite L, sgn_0|rewrite sgn_eq_1 by lra]; unfold Rabs; destruct (Rcase_abs _); lra.
Qed.

(** value of the soft threshold *)
Lemma soft_val (x t : fl) : fin x -> fin t -> 0 <= B2R t ->
  fin (fl_soft x t) /\ B2R (fl_soft x t) = rnd (soft (B2R t) (B2R x)).
Proof.
  intros Fx Ft Pt. destruct (abs_fin x Fx) as [Fa Ea].
  assert (0 <= B2R (fl_abs x)) by (rewrite Ea; apply Rabs_pos).
  destruct (sub_fin (fl_abs x) t Fa Ft H Pt) as [Fs Es].
  destruct (max_fin _ fl_zero Fs zero_fin) as [Fm Em].
  destruct (mul_sign _ x Fm Fx) as [Fr Er]. split; [exact Fr|].
  unfold fl_soft. rewrite Er, Em, Es, Ea. cbn [fl_zero B2R].
  assert (R0 : rnd 0 = 0) by (apply round_0; auto with typeclass_instances).
  destruct (soft_cases (B2R t) (B2R x) Pt) as [[L ->]|[[L ->]|[L ->]]].
  - rewrite sgn_eq_1 by lra. rewrite Rabs_pos_eq by lra. rewrite Rmult_1_r. apply Rmax_left.
    rewrite <- R0. apply round_le; auto with typeclass_instances. lra.
  - rewrite sgn_eq_m1 by lra. rewrite Rabs_left by lra.
    rewrite Rmax_left by (rewrite <- R0; apply round_le; auto with typeclass_instances; lra).
    replace (B2R x + B2R t) with (- (- B2R x - B2R t)) by ring. rewrite round_NE_opp. ring.
  - rewrite R0. rewrite Rmax_right; [ring|]. rewrite <- R0. apply round_le; auto with typeclass_instances.
    unfold Rabs. destruct (Rcase_abs _); lra.
Qed.

Lemma rnd_nearest p (y : fl) : fin y -> B2R y = rnd p -> nearest p y.
Proof.
  intros Fy Ey. split; [exact Fy|]. intros z _. rewrite Ey.
  destruct (round_N_pt radix2 fexp (fun x => negb (Z.even x)) p) as [_ H]. apply H. apply fmt_B2R.
Qed.

(** products that do not overflow *)
Lemma mul_val (a b : fl) : fin a -> fin b ->
  (fin (fl_mul a b) /\ B2R (fl_mul a b) = rnd (B2R a * B2R b) /\ Rabs (rnd (B2R a * B2R b)) < bpow radix2 emax) \/
  (fl_mul a b = B754_infinity (xorb (Bsign a) (Bsign b)) /\ bpow radix2 emax <= Rabs (rnd (B2R a * B2R b))).
Proof.
  intros Fa Fb. pose proof (Bmult_correct prec emax _ _ mode_NE a b) as H. cbn [round_mode] in H.
  change (SpecFloat.fexp prec emax) with fexp in H.
  destruct (Rlt_bool_spec (Rabs (rnd (B2R a * B2R b))) (bpow radix2 emax)) as [L|L].
  - left. destruct H as (E & F & _). repeat split; auto. unfold fin, fl_mul. rewrite F, Fa. exact Fb.
  - right. split; [|exact L]. apply B2SF_inj. exact H.
Qed.

Lemma rnd_err p : Rabs (rnd p - p) <= ulpu prec * Rabs p + tiny prec emax.
Proof.
  assert (Ht : 0 < tiny prec emax) by apply bpow_gt_0. assert (Hu : 0 < ulpu prec) by apply bpow_gt_0.
  destruct (Rle_lt_dec (bpow radix2 (3 - emax - prec + prec - 1)) (Rabs p)) as [L|L].
  - pose proof (relative_error_N_FLT radix2 (3 - emax - prec) prec Hp (fun x => negb (Z.even x)) p L) as H.
    replace (/ 2 * bpow radix2 (- prec + 1)) with (ulpu prec) in H.
    2:{ unfold ulpu. rewrite bpow_plus. cbn. lra. }
    apply Rle_trans with (1 := H). lra.
  - pose proof (error_le_half_ulp radix2 fexp (fun x => negb (Z.even x)) p) as H.
    assert (U : ulp radix2 fexp p = bpow radix2 (3 - emax - prec)).
    { apply ulp_FLT_small; auto. eapply Rlt_le_trans; [exact L|]. apply bpow_le. lia. }
    rewrite U in H. apply Rle_trans with (1 := H).
    replace (/ 2 * bpow radix2 (3 - emax - prec)) with (tiny prec emax).
    2:{ unfold tiny. replace (3 - emax - prec)%Z with (2 - emax - prec + 1)%Z by lia. rewrite bpow_plus. cbn. lra. }
    pose proof (Rabs_pos p). pose proof (Rmult_le_pos _ _ (Rlt_le _ _ Hu) H0). lra.
Qed.

(** a sum of two numbers is rounded without underflow error *)
Lemma rnd_sum_err a b : fmt a -> fmt b -> Rabs (rnd (a + b) - (a + b)) <= ulpu prec * Rabs (a + b).
Proof.
  intros Fa Fb.
  destruct (FLT_plus_error_N_ex radix2 (3 - emax - prec) prec (fun x => negb (Z.even x)) a b Fa Fb) as (eps & He' & ->).
  replace ((a + b) * (1 + eps) - (a + b)) with (eps * (a + b)) by ring. rewrite Rabs_mult.
  apply Rmult_le_compat_r; [apply Rabs_pos|]. apply Rle_trans with (1 := He').
  apply Rle_trans with (1 := u_rod1pu_ro_le_u_ro radix2 prec). unfold u_ro, ulpu. rewrite bpow_plus. cbn. lra.
Qed.

Lemma ulpu_half : ulpu prec <= / 2.
Proof. unfold ulpu. pose proof (bpow_le radix2 (- prec) (-1)) as H. unfold Prec_gt_0 in Hp. cbn in H. change (IZR (2)) with 2 in H. apply H. lia. Qed.
Lemma ulpu_pos : 0 < ulpu prec.
Proof. apply bpow_gt_0. Qed.
Lemma tiny_pos : 0 < tiny prec emax.
Proof. apply bpow_gt_0. Qed.
Lemma tiny_ulpu : tiny prec emax <= ulpu prec.
Proof. apply bpow_le. unfold Prec_gt_0, Prec_lt_emax in *. lia. Qed.

Lemma fin_pos_sign (a : fl) : fin a -> 0 < B2R a -> Bsign a = false.
Proof.
  intros Fa Pa. destruct a as [s|s| |s m e Hb]; try discriminate; cbn [B2R] in Pa; [lra|].
  destruct s; [|reflexivity]. exfalso. apply (Rlt_irrefl 0), (Rlt_trans _ _ _ Pa).
  apply F2R_lt_0. cbn. lia.
Qed.

(** the threshold tau*sigma *)
Lemma thr_cases (tau sigma : fl) : fin tau -> fin sigma -> 0 < B2R tau -> 0 <= B2R sigma ->
  (fin (fl_mul tau sigma) /\ 0 <= B2R (fl_mul tau sigma) /\ B2R (fl_mul tau sigma) = rnd (B2R tau * B2R sigma)) \/
  (fl_mul tau sigma = B754_infinity false /\ (forall x : fl, Rabs (B2R x) < B2R tau * B2R sigma) /\
   bpow radix2 emax <= rnd (B2R tau * B2R sigma)).
Proof.
  intros Ft Fs Pt Ps. assert (Pm : 0 <= B2R tau * B2R sigma) by (apply Rmult_le_pos; lra).
  assert (R0 : rnd 0 = 0) by (apply round_0; auto with typeclass_instances).
  assert (Rp : 0 <= rnd (B2R tau * B2R sigma)).
  { rewrite <- R0. apply round_le; auto with typeclass_instances. }
  destruct (mul_val tau sigma Ft Fs) as [(F & E & _)|(E & L)].
  - left. repeat split; auto. rewrite E. exact Rp.
  - right. assert (Hs : 0 < B2R sigma).
    { destruct Ps as [|Z]; auto. rewrite <- Z, Rmult_0_r, R0, Rabs_R0 in L. pose proof (bpow_gt_0 radix2 emax). lra. }
    rewrite (fin_pos_sign _ Ft Pt), (fin_pos_sign _ Fs Hs) in E. split; [exact E|].
    split; [|rewrite Rabs_pos_eq in L by exact Rp; exact L]. intro x. apply Rnot_le_lt. intro Hle. rewrite <- (Rabs_pos_eq _ Pm) in Hle.
    pose proof (rnd_abs_lt _ (Rle_refl _) x Hle). lra.
Qed.

Lemma soft_inf (x : fl) : fin x -> fin (fl_soft x (B754_infinity false)) /\ B2R (fl_soft x (B754_infinity false)) = 0.
Proof.
  intro Fx. unfold fl_soft.
  assert (E : fl_max (fl_sub (fl_abs x) (B754_infinity false)) fl_zero = fl_zero).
  { destruct x; try discriminate; reflexivity. }
  rewrite E. destruct (mul_sign fl_zero x zero_fin Fx) as [F V]. split; [exact F|]. rewrite V. cbn. ring.
Qed.

Lemma soft_diff_le s t a : 0 <= s -> 0 <= t -> Rabs (soft s a - soft t a) <= Rabs (s - t).
Proof.
  intros Hs Ht.
  destruct (soft_cases s a Hs) as [[? ->]|[[? ->]|[? ->]]]; destruct (soft_cases t a Ht) as [[? ->]|[[? ->]|[? ->]]];
    unfold Rabs; repeat destruct (Rcase_abs _); lra.
Qed.
Lemma soft_abs_le t a : 0 <= t -> Rabs (soft t a) <= Rabs a.
Proof. intro Ht. destruct (soft_cases t a Ht) as [[? ->]|[[? ->]|[? ->]]]; unfold Rabs; repeat destruct (Rcase_abs _); lra. Qed.
Lemma soft_mono t a b : 0 <= t -> a <= b -> soft t a <= soft t b.
Proof. intros Ht H. destruct (soft_cases t a Ht) as [[? ->]|[[? ->]|[? ->]]]; destruct (soft_cases t b Ht) as [[? ->]|[[? ->]|[? ->]]]; lra. Qed.

Lemma soft_is_sum (x t : fl) : 0 <= B2R t -> exists a b, fmt a /\ fmt b /\ soft (B2R t) (B2R x) = a + b /\ Rabs (a + b) <= Rabs (B2R x).
Proof.
  intro Pt. pose proof (soft_abs_le (B2R t) (B2R x) Pt) as HA.
  destruct (soft_cases (B2R t) (B2R x) Pt) as [[L E]|[[L E]|[L E]]]; rewrite E in *.
  - exists (B2R x), (- B2R t). repeat split; try apply fmt_B2R; [apply generic_format_opp, fmt_B2R|exact HA].
  - exists (B2R x), (B2R t). repeat split; try apply fmt_B2R. exact HA.
  - exists 0, 0. repeat split; try apply generic_format_0; [lra|]. rewrite Rplus_0_r. exact HA.
Qed.

Lemma soft_err (x t : fl) : 0 <= B2R t -> Rabs (rnd (soft (B2R t) (B2R x)) - soft (B2R t) (B2R x)) <= ulpu prec * Rabs (B2R x).
Proof.
  intro Pt. destruct (soft_is_sum x t Pt) as (a & b & Fa & Fb & -> & HA).
  apply Rle_trans with (1 := rnd_sum_err a b Fa Fb). apply Rmult_le_compat_l; [apply bpow_ge_0|exact HA].
Qed.

Lemma rnd_soft_sign (x t : fl) : 0 <= B2R t ->
  Rabs (rnd (soft (B2R t) (B2R x))) <= Rabs (B2R x) /\ 0 <= rnd (soft (B2R t) (B2R x)) * B2R x.
Proof.
  intro Pt. assert (R0 : rnd 0 = 0) by (apply round_0; auto with typeclass_instances). split.
  - apply abs_round_le_generic; auto with typeclass_instances; [apply generic_format_abs, fmt_B2R|apply soft_abs_le; auto].
  - destruct (soft_cases (B2R t) (B2R x) Pt) as [[L ->]|[[L ->]|[L ->]]].
    + apply Rmult_le_pos; [|lra]. rewrite <- R0. apply round_le; auto with typeclass_instances. lra.
    + assert (rnd (B2R x + B2R t) <= 0) by (rewrite <- R0; apply round_le; auto with typeclass_instances; lra).
      replace (rnd (B2R x + B2R t) * B2R x) with ((- rnd (B2R x + B2R t)) * (- B2R x)) by ring. apply Rmult_le_pos; lra.
    + rewrite R0. lra.
Qed.

Lemma check_pos {A} (tau : fl) (r : A) : fin tau -> 0 < B2R tau -> fl_check tau r = Ok r.
Proof.
  intros F P. unfold fl_check. pose proof (le_fin tau fl_zero F zero_fin) as H. destruct (fl_le tau fl_zero); [|reflexivity].
  destruct H as [H _]. specialize (H eq_refl). cbn in H. lra.
Qed.

Lemma Forall2_map {A} (P Q : A -> Prop) (R' : A -> A -> Prop) (f : A -> A) xs :
  (forall x, P x -> R' x (f x)) -> Forall P xs -> Forall2 R' xs (map f xs).
Proof. intros H. induction 1; cbn; constructor; auto. Qed.

Lemma norm_R (a : R_IPS) : norm a = Rabs (a : R).
Proof. unfold norm, norm2. cbn. apply sqrt_Rsqr_abs. Qed.
Lemma normd_R (a b : R_IPS) : norm (a [-] b) = Rabs ((a : R) - (b : R)).
Proof. rewrite norm_R. f_equal. cbn. ring. Qed.

Lemma soft_prox0 w tau (x : R) : 0 <= w -> 0 < tau ->
  is_prox (E:=R_IPS) (etot (E:=R_IPS) (fun a : R => w * Rabs a)) tau x (soft (tau * w) x).
Proof.
  intros Hw Ht. pose proof (soft_prox w 0 tau x Hw Ht) as [_ H]. split; [exact I|].
  intros y Hy. specialize (H y Hy). cbn [eval etot] in *. rewrite ?Rminus_0_r, ?Rplus_0_r, ?Rminus_0_r in H. exact H.
Qed.

(** C76_l1 *)
Lemma fl_l1 (sigma tau : fl) (xs : list fl) : fin sigma -> 0 <= B2R sigma -> fin tau -> 0 < B2R tau -> Forall fin xs ->
  exists ys, fl_l1_prox sigma None xs tau = Ok ys /\
    Forall2 (fun x y => fin y /\ Rabs (B2R y) <= Rabs (B2R x) /\ 0 <= B2R y * B2R x /\
      exists p, is_prox (E:=R_IPS) (etot (E:=R_IPS) (fun a : R => B2R sigma * Rabs a)) (B2R tau) (B2R x) p /\
        Rabs (B2R y - p) <= ulpu prec * (B2R tau * B2R sigma + Rabs (B2R x)) + tiny prec emax) xs ys.
Proof.
  intros Fs Ps Ft Pt Fx. eexists. split.
  { unfold fl_l1_prox. apply check_pos; auto. }
  apply (Forall2_map fin fin); [|exact Fx]. intros x Hx.
  assert (Pm : 0 <= B2R tau * B2R sigma) by (apply Rmult_le_pos; lra).
  pose proof ulpu_pos as Pu. pose proof tiny_pos as Pti. pose proof (Rabs_pos (B2R x)) as Px.
  destruct (thr_cases tau sigma Ft Fs Pt Ps) as [(F & P & E)|(E & L & LB)].
  - destruct (soft_val x _ Hx F P) as [Fy Ey]. destruct (rnd_soft_sign x _ P) as [HA HB].
    rewrite <- Ey in HA, HB. repeat split; auto. exists (soft (B2R tau * B2R sigma) (B2R x)). split; [apply soft_prox0; auto|].
    pose proof (soft_err x _ P) as H1. pose proof (soft_diff_le _ _ (B2R x) P Pm) as H2. rewrite E in H2 at 2.
    pose proof (rnd_err (B2R tau * B2R sigma)) as H3. rewrite (Rabs_pos_eq _ Pm) in H3. rewrite Ey.
    set (s := soft (B2R (fl_mul tau sigma)) (B2R x)) in *. set (q := soft (B2R tau * B2R sigma) (B2R x)) in *.
    replace (rnd s - q) with ((rnd s - s) + (s - q)) by ring. eapply Rle_trans; [apply Rabs_triang|]. lra.
  - rewrite E. destruct (soft_inf x Hx) as [Fy Ey]. split; [exact Fy|]. rewrite Ey. rewrite Rabs_R0.
    split; [lra|]. split; [lra|]. exists (soft (B2R tau * B2R sigma) (B2R x)). split; [apply soft_prox0; auto|]. specialize (L x).
    destruct (soft_cases (B2R tau * B2R sigma) (B2R x) Pm) as [[H ->]|[[H ->]|[H ->]]].
    + revert L. unfold Rabs. destruct (Rcase_abs _); lra.
    + revert L. unfold Rabs at 1. destruct (Rcase_abs _); lra.
    + rewrite Rminus_0_r, Rabs_R0. pose proof (Rmult_le_pos _ _ (Rlt_le _ _ Pu) (Rplus_le_le_0_compat _ _ Pm Px)). lra.
Qed.

(** C76_threshold *)
Lemma fl_threshold (sigma tau big : fl) (xs : list fl) : fin sigma -> 0 <= B2R sigma -> fin tau -> 0 < B2R tau -> Forall fin xs ->
  B2R tau * B2R sigma <= B2R big ->
  exists (t : fl) (ys : list fl), nearest (B2R tau * B2R sigma) t /\ fl_l1_prox sigma None xs tau = Ok ys /\
    Forall2 (fun x y => exists p, is_prox (E:=R_IPS) (etot (E:=R_IPS) (fun a : R => B2R t * Rabs a)) 1 (B2R x) p /\
      nearest p y /\ (Rabs (B2R x) <= 2 * B2R t -> B2R y = p) /\ (B2R y = 0 <-> Rabs (B2R x) <= B2R t)) xs ys.
Proof.
  intros Fs Ps Ft Pt Fx Hb. exists (fl_mul tau sigma).
  destruct (thr_cases tau sigma Ft Fs Pt Ps) as [(F & P & E)|(E & L & LB)].
  2:{ specialize (L big). pose proof (Rle_abs (B2R big)). lra. }
  eexists. split; [apply rnd_nearest; auto|]. split.
  { unfold fl_l1_prox. apply check_pos; auto. }
  apply (Forall2_map fin fin); [|exact Fx]. intros x Hx. set (t := fl_mul tau sigma) in *.
  destruct (soft_val x t Hx F P) as [Fy Ey].
  exists (soft (B2R t) (B2R x)). split.
  { pose proof (soft_prox0 (B2R t) 1 (B2R x) P ltac:(lra)) as H. rewrite Rmult_1_l in H. exact H. }
  split; [apply rnd_nearest; auto|]. split.
  - intro H2. rewrite Ey. apply round_generic; auto with typeclass_instances.
    assert (HS : B2R t <= Rabs (B2R x) -> fmt (Rabs (B2R x) - B2R t)).
    { intro. apply sterbenz; auto with typeclass_instances; [apply generic_format_abs, fmt_B2R|apply fmt_B2R|lra]. }
    destruct (soft_cases (B2R t) (B2R x) P) as [[L ->]|[[L ->]|[L ->]]].
    + rewrite Rabs_pos_eq in HS by lra. apply HS. lra.
    + rewrite Rabs_left in HS by lra. replace (B2R x + B2R t) with (- (- B2R x - B2R t)) by ring. apply generic_format_opp, HS. lra.
    + apply generic_format_0.
  - rewrite Ey. split.
    + intro Z. apply Rnot_lt_le. intro L.
      pose proof ulpu_half as Hu. pose proof ulpu_pos as Hu0.
      destruct (soft_is_sum x t P) as (a & b & Fa & Fb & Es & _).
      pose proof (rnd_sum_err a b Fa Fb) as H. rewrite <- Es, Z in H.
      assert (Hn : 0 < Rabs (soft (B2R t) (B2R x))).
      { apply Rabs_pos_lt. destruct (soft_cases (B2R t) (B2R x) P) as [[? ->]|[[? ->]|[? ->]]]; try lra.
        revert L. unfold Rabs. destruct (Rcase_abs _); lra. }
      rewrite Rminus_0_l, Rabs_Ropp in H.
      pose proof (Rmult_le_compat_r _ _ _ (Rlt_le _ _ Hn) Hu). lra.
    + intro L. destruct (soft_cases (B2R t) (B2R x) P) as [[H ->]|[[H ->]|[H ->]]].
      * revert L. unfold Rabs. destruct (Rcase_abs _); lra.
      * revert L. unfold Rabs. destruct (Rcase_abs _); lra.
      * apply round_0; auto with typeclass_instances.
Qed.

(** C76_l1_monotone *)
Lemma fl_l1_monotone (sigma tau : fl) (xs xs' ys ys' : list fl) : fin sigma -> 0 <= B2R sigma -> fin tau -> 0 < B2R tau ->
  Forall2 (fun x x' => fin x /\ fin x' /\ B2R x <= B2R x') xs xs' ->
  fl_l1_prox sigma None xs tau = Ok ys -> fl_l1_prox sigma None xs' tau = Ok ys' ->
  Forall2 (fun y y' => B2R y <= B2R y') ys ys'.
Proof.
  intros Fs Ps Ft Pt HX. unfold fl_l1_prox. rewrite !(check_pos tau _ Ft Pt).
  intros E1 E2. injection E1 as <-. injection E2 as <-.
  induction HX as [|x x' xs xs' (Fx & Fx' & Hle) _ IH]; cbn [map]; constructor; [|exact IH].
  destruct (thr_cases tau sigma Ft Fs Pt Ps) as [(F & P & E)|(E & L & LB)].
  - destruct (soft_val x _ Fx F P) as [_ ->]. destruct (soft_val x' _ Fx' F P) as [_ ->].
    apply round_le; auto with typeclass_instances. apply soft_mono; auto.
  - rewrite E. destruct (soft_inf x Fx) as [_ ->]. destruct (soft_inf x' Fx') as [_ ->]. lra.
Qed.

(** entries that are not numbers *)
(** C76_nan *)
Lemma fl_nan (sigma tau lo up : fl) (xs : list fl) i : Bleb tau (B754_zero false) = false -> nth_error xs i = Some B754_nan ->
  (exists ys, fl_l1_prox sigma None xs tau = Ok ys /\ nth_error ys i = Some B754_nan) /\
  (exists ys, fl_l2_prox sigma xs tau = Ok ys /\ nth_error ys i = Some B754_nan) /\
  (exists ys, fl_l0_prox sigma xs tau = Ok ys /\ nth_error ys i = Some B754_nan) /\
  (exists ys, fl_box_prox lo up xs tau = Ok ys /\ nth_error ys i = Some B754_nan) /\
  (forall r : list fl, fl_check (B754_nan : fl) r = Ok r).
Proof.
  intros Hc Hi. change (fl_le tau fl_zero = false) in Hc. unfold fl_l1_prox, fl_l2_prox, fl_l0_prox, fl_box_prox, fl_check. rewrite Hc.
  repeat split; eexists; (split; [reflexivity|]); rewrite nth_error_map, Hi; cbn [option_map]; try reflexivity.
Qed.

(** ** The box *)
Lemma max_bound (lo x : fl) : fin x -> (lo = B754_infinity true /\ fl_max x lo = x) \/ lo = B754_infinity false \/ lo = B754_nan \/ (fin lo).
Proof. intro Fx. destruct lo as [s|[|]| |s m e Hb]; try (right; right; right; reflexivity); auto. left. split; auto. destruct x; try discriminate; reflexivity. Qed.
Lemma min_bound (up x : fl) : fin x -> (up = B754_infinity false /\ fl_min x up = x) \/ up = B754_infinity true \/ up = B754_nan \/ (fin up).
Proof. intro Fx. destruct up as [s|[|]| |s m e Hb]; try (right; right; right; reflexivity); auto. left. split; auto. destruct x; try discriminate; reflexivity. Qed.
Lemma above_le (lo x : fl) : fin x -> fl_le lo x = true <-> above lo (B2R x).
Proof.
  intro Fx. destruct lo as [s|s| |s m e Hb].
  - exact (le_fin (B754_zero s) x eq_refl Fx).
  - destruct s, x; try discriminate; cbn; split; intro H; auto; discriminate.
  - cbn. split; [|tauto]. destruct x; discriminate.
  - exact (le_fin (B754_finite s m e Hb) x eq_refl Fx).
Qed.
Lemma below_le (up x : fl) : fin x -> fl_le x up = true <-> below up (B2R x).
Proof.
  intro Fx. destruct up as [s|s| |s m e Hb].
  - exact (le_fin x (B754_zero s) Fx eq_refl).
  - destruct s, x as [[]| | |[]]; try discriminate; cbn; split; intro H; auto; discriminate.
  - cbn. split; [|tauto]. destruct x; discriminate.
  - exact (le_fin x (B754_finite s m e Hb) Fx eq_refl).
Qed.
Lemma below_fin (up : fl) z : fin up -> below up z <-> z <= B2R up.
Proof. intro F. destruct up; try discriminate; reflexivity. Qed.
Lemma above_fin (lo : fl) z : fin lo -> above lo z <-> B2R lo <= z.
Proof. intro F. destruct lo; try discriminate; reflexivity. Qed.

Lemma clip_spec (lo up x : fl) : fin x -> fl_le lo up = true -> lo <> B754_infinity false -> up <> B754_infinity true ->
  let y := fl_clip lo up x in
  fin y /\ above lo (B2R y) /\ below up (B2R y) /\
  (forall z, above lo z -> below up z -> Rabs (B2R y - B2R x) <= Rabs (z - B2R x)).
Proof.
  intros Fx Hle Hl Hu. unfold fl_clip.
  assert (HA : fin (fl_max x lo) /\ above lo (B2R (fl_max x lo)) /\ B2R x <= B2R (fl_max x lo) /\
    (B2R (fl_max x lo) = B2R x \/ (fin lo /\ B2R (fl_max x lo) = B2R lo))).
  { destruct (max_bound lo x Fx) as [[-> E]|[->|[->|Fl]]].
    - rewrite E. repeat split; auto; lra.
    - congruence.
    - discriminate.
    - destruct (max_fin x lo Fx Fl) as [F E]. rewrite (above_fin lo _ Fl), E. repeat split; auto; try apply Rmax_r; try apply Rmax_l.
      unfold Rmax. destruct (Rle_dec _ _); auto. }
  destruct HA as (Fm & Am & Gm & Cm). set (m := fl_max x lo) in *.
  assert (HD : forall z, above lo z -> B2R m - B2R x <= Rabs (z - B2R x)).
  { intros z Hz. destruct Cm as [->|[Fl ->]].
    - pose proof (Rabs_pos (z - B2R x)). lra.
    - rewrite (above_fin lo z Fl) in Hz. pose proof (Rle_abs (z - B2R x)). lra. }
  destruct (min_bound up m Fm) as [[-> E]|[->|[->|Fu]]].
  - rewrite E. repeat split; auto. intros z Hz _. rewrite Rabs_pos_eq by lra. auto.
  - congruence.
  - destruct lo as [|[]| |]; discriminate.
  - destruct (min_fin m up Fm Fu) as [F E]. rewrite E. split; [exact F|].
    assert (Lu : fin lo -> B2R lo <= B2R up) by (intro Fl; apply (le_fin lo up Fl Fu); exact Hle).
    split.
    { destruct (max_bound lo x Fx) as [[-> _]|[->|[->|Fl]]].
      1: reflexivity. 1: congruence. 1: discriminate Hle.
      rewrite (above_fin lo _ Fl) in Am. apply (above_fin lo _ Fl). apply Rmin_glb; auto. }
    split; [rewrite (below_fin up _ Fu); apply Rmin_r|].
    intros z Hz Hz'. rewrite (below_fin up z Fu) in Hz'. specialize (HD z Hz).
    unfold Rmin. destruct (Rle_dec (B2R m) (B2R up)).
    + rewrite Rabs_pos_eq by lra. exact HD.
    + destruct Cm as [Ec|[Fl Ec]]; [|specialize (Lu Fl); lra].
      rewrite (Rabs_left1 (B2R up - B2R x)) by lra. pose proof (Rle_abs (- (z - B2R x))). rewrite Rabs_Ropp in H. lra.
Qed.

Lemma clip_inside (lo up y : fl) : fin y -> fl_le lo y = true -> fl_le y up = true -> fl_clip lo up y = y.
Proof.
  intros Fy H1 H2. unfold fl_clip.
  assert (E : fl_max y lo = y).
  { destruct (max_bound lo y Fy) as [[-> E]|[->|[->|Fl]]]; auto.
    - destruct y; discriminate.
    - destruct y; discriminate.
    - unfold fl_max. rewrite (fin_nan y Fy), (fin_nan lo Fl). cbn [orb]. pose proof (lt_fin y lo Fy Fl) as H.
      apply (le_fin lo y Fl Fy) in H1. destruct (fl_lt y lo); auto. destruct H as [H _]. specialize (H eq_refl). lra. }
  rewrite E. destruct (min_bound up y Fy) as [[-> E']|[->|[->|Fu]]]; auto.
  - destruct y as [[]| | |[]]; discriminate.
  - destruct y; discriminate.
  - unfold fl_min. rewrite (fin_nan y Fy), (fin_nan up Fu). cbn [orb]. pose proof (lt_fin up y Fu Fy) as H.
    apply (le_fin y up Fy Fu) in H2. destruct (fl_lt up y); auto. destruct H as [H _]. specialize (H eq_refl). lra.
Qed.

(** C76_box *)
Lemma fl_box (lo up tau : fl) (xs : list fl) : Bleb lo up = true -> lo <> B754_infinity false -> up <> B754_infinity true ->
  fin tau -> 0 < B2R tau -> Forall fin xs ->
  exists ys, fl_box_prox lo up xs tau = Ok ys /\ fl_box_call lo up ys = true /\ fl_box_prox lo up ys tau = Ok ys /\
    Forall2 (fun x y => fin y /\ is_proj (E:=R_IPS) (fun z : R => above lo z /\ below up z) (B2R x) (B2R y)) xs ys.
Proof.
  intros Hle Hl Hu Ft Pt Fx. change (fl_le lo up = true) in Hle. exists (map (fl_clip lo up) xs). unfold fl_box_prox. rewrite !(check_pos tau _ Ft Pt).
  split; [reflexivity|].
  assert (HC : forall x, fin x -> fin (fl_clip lo up x) /\ fl_le lo (fl_clip lo up x) = true /\ fl_le (fl_clip lo up x) up = true).
  { intros x Hx. destruct (clip_spec lo up x Hx Hle Hl Hu) as (F & A & B & _). split; [exact F|].
    split; [apply above_le; auto|apply below_le; auto]. }
  split; [|split].
  - unfold fl_box_call. induction Fx as [|x xs Hx _ IH]; [reflexivity|]. cbn [map forallb]. destruct (HC x Hx) as (_ & -> & ->). exact IH.
  - f_equal. induction Fx as [|x xs Hx _ IH]; [reflexivity|]. cbn [map]. f_equal; [|exact IH]. destruct (HC x Hx) as (F & A & B). apply clip_inside; auto.
  - apply (Forall2_map fin fin); [|exact Fx]. intros x Hx. destruct (clip_spec lo up x Hx Hle Hl Hu) as (F & A & B & D). split; [exact F|].
    split; [split; auto|]. intros z [Hz1 Hz2]. rewrite !normd_R. apply D; auto.
Qed.

(** C76_l1_dual *)
Lemma fl_dual (sigma tau : fl) (xs : list fl) : fin sigma -> 0 <= B2R sigma -> fin tau -> 0 < B2R tau -> Forall fin xs ->
  exists ys, fl_l1_dual sigma xs tau = Ok ys /\
    Forall2 (fun x y => fin y /\ is_proj (E:=R_IPS) (fun z : R => Rabs z <= B2R sigma) (B2R x) (B2R y)) xs ys.
Proof.
  intros Fs Ps Ft Pt Fx. assert (Fo : fin (Bopp sigma)) by (unfold fin; rewrite is_finite_Bopp; exact Fs).
  eexists. unfold fl_l1_dual. rewrite (check_pos tau _ Ft Pt). split; [reflexivity|].
  apply (Forall2_map fin fin); [|exact Fx]. intros x Hx.
  destruct (clip_spec (Bopp sigma) sigma x Hx) as (F & A & B & D).
  - apply (le_fin _ _ Fo Fs). rewrite B2R_Bopp. lra.
  - destruct sigma; discriminate.
  - destruct sigma; discriminate.
  - rewrite (above_fin _ _ Fo) in A. rewrite (below_fin _ _ Fs) in B. rewrite B2R_Bopp in A.
    split; [exact F|]. split; [apply Rabs_le; lra|]. intros z Hz. apply Rabs_le_inv in Hz.
    rewrite !normd_R. apply D; [rewrite (above_fin _ _ Fo), B2R_Bopp; lra|rewrite (below_fin _ _ Fs); lra].
Qed.

(** C76_l0_twice *)
Lemma fl_l0_twice (sigma tau : fl) (xs ys : list fl) : fl_l0_prox sigma xs tau = Ok ys -> fl_l0_prox sigma ys tau = Ok ys.
Proof.
  unfold fl_l0_prox, fl_check. destruct (fl_le tau fl_zero); [discriminate|]. intro E. injection E as <-. f_equal.
  rewrite map_map. apply map_ext. intro x. unfold fl_hard. destruct (fl_le (fl_abs x) (fl_mul tau sigma)) eqn:E.
  - destruct (fl_le (fl_abs fl_zero) (fl_mul tau sigma)); reflexivity.
  - rewrite E. reflexivity.
Qed.

(** C76_shift *)
Lemma fl_shift (sigma tau : fl) (xs gs ys : list fl) : fin sigma -> 0 <= B2R sigma -> fin tau -> 0 < B2R tau ->
  Forall2 (fun x g => fin x /\ fin g /\ exists s : fl, Rabs (B2R x - B2R g) <= B2R s <= B2R tau * B2R sigma) xs gs ->
  fl_l1_prox sigma (Some gs) xs tau = Ok ys -> Forall2 (fun g y => fin y /\ B2R y = B2R g) gs ys.
Proof.
  intros Fs Ps Ft Pt HX. unfold fl_l1_prox. rewrite (check_pos tau _ Ft Pt). intro E. injection E as <-.
  assert (R0 : rnd 0 = 0) by (apply round_0; auto with typeclass_instances).
  induction HX as [|x g xs gs (Fx & Fg & s & Hd & Hd') _ IH]; cbn [combine map]; constructor; [|exact IH]. cbn [fst snd].
  assert (HL : Rabs (rnd (B2R x - B2R g)) <= B2R s).
  { apply abs_round_le_generic; auto with typeclass_instances. apply fmt_B2R. }
  assert (HS : fin (fl_sub x g) /\ Rabs (B2R (fl_sub x g)) <= B2R s).
  { pose proof (Bminus_correct prec emax _ _ mode_NE x g Fx Fg) as H. cbn [round_mode] in H.
    change (SpecFloat.fexp prec emax) with fexp in H. rewrite Rlt_bool_true in H.
    - destruct H as (E & F & _). split; [exact F|]. unfold fl_sub. rewrite E. exact HL.
    - eapply Rle_lt_trans; [exact HL|]. eapply Rle_lt_trans; [apply Rle_abs|apply (abs_B2R_lt_emax prec emax s)]. }
  destruct HS as [FS HS]. set (t := fl_mul tau sigma).
  assert (Hz : fin (fl_soft (fl_sub x g) t) /\ B2R (fl_soft (fl_sub x g) t) = 0).
  { destruct (thr_cases tau sigma Ft Fs Pt Ps) as [(Fm & P & E)|(E & _)].
    2:{ unfold t. rewrite E. apply soft_inf. exact FS. }
    assert (HT : B2R s <= B2R t).
    { unfold t. rewrite E. apply round_ge_generic; auto with typeclass_instances. apply fmt_B2R. }
    destruct (soft_val _ t FS Fm P) as [Fy Ey]. split; [exact Fy|]. fold t in P.
    rewrite Ey. destruct (soft_cases (B2R t) (B2R (fl_sub x g)) P) as [[H ->]|[[H ->]|[H ->]]]; auto; exfalso;
      revert HS; unfold Rabs; destruct (Rcase_abs _); lra. }
  destruct Hz as [Fy Ez].
  pose proof (Bplus_correct prec emax _ _ mode_NE _ g Fy Fg) as H. cbn [round_mode] in H.
  change (SpecFloat.fexp prec emax) with fexp in H. rewrite Ez, Rplus_0_l in H.
  rewrite (round_generic radix2 fexp ZnearestE (B2R g) (fmt_B2R g)) in H.
  rewrite Rlt_bool_true in H by apply (abs_B2R_lt_emax prec emax g). destruct H as (E & F & _). split; [exact F|exact E].
Qed.

(** C76_l2 *)
Lemma fl_l2 (sigma tau : fl) (xs : list fl) : fin sigma -> 0 <= B2R sigma -> fin tau -> 0 < B2R tau -> Forall fin xs ->
  exists ys, fl_l2_prox sigma xs tau = Ok ys /\
    Forall2 (fun x y => fin y /\ Rabs (B2R y) <= Rabs (B2R x) /\ 0 <= B2R y * B2R x /\
      exists p, is_prox (E:=R_IPS) (etot (E:=R_IPS) (fun a : R => B2R sigma / 2 * a ^ 2)) (B2R tau) (B2R x) p /\
        Rabs (B2R y - p) <= 5 * ulpu prec * Rabs (B2R x) + tiny prec emax) xs ys.
Proof.
  intros Fs Ps Ft Pt Fx. eexists. split; [unfold fl_l2_prox; apply check_pos; auto|].
  apply (Forall2_map fin fin); [|exact Fx]. intros x Hx.
  set (a := B2R tau * B2R sigma). assert (Pa : 0 <= a) by (apply Rmult_le_pos; lra).
  assert (HP : is_prox (E:=R_IPS) (etot (E:=R_IPS) (fun a : R => B2R sigma / 2 * a ^ 2)) (B2R tau) (B2R x) (B2R x / (1 + a))).
  { split; [exact I|]. intros y _. cbn [eval etot]. unfold norm2. cbn. unfold a in *. clear a.
    set (s := B2R sigma) in *. set (t := B2R tau) in *. set (p := B2R x / (1 + t * s)).
    replace (B2R x) with ((1 + t * s) * p) by (unfold p; field; lra). cbn in y. clearbody p s t.
    assert (0 <= / (2 * t) * ((1 + t * s) * (y - p) ^ 2)).
    { apply Rmult_le_pos; [apply Rlt_le, Rinv_0_lt_compat; lra|]. apply Rmult_le_pos; [lra|apply pow2_ge_0]. }
    apply Rminus_le. match goal with |- ?l <= 0 => replace l with (- (/ (2 * t) * ((1 + t * s) * (y - p) ^ 2))) by (field; lra) end. lra. }
  pose proof ulpu_pos as Hu0. pose proof ulpu_half as Hu1. pose proof tiny_pos as Ht0. pose proof tiny_ulpu as Ht1.
  pose proof (Rabs_pos (B2R x)) as Hx0.
  assert (Hbig : 2 <= bpow radix2 emax * ulpu prec).
  { unfold ulpu. rewrite <- bpow_plus. change 2 with (bpow radix2 1). apply bpow_le. unfold Prec_lt_emax in He. lia. }
  set (u := ulpu prec) in *. set (b := bpow radix2 emax) in *.
  assert (Hb0 : 0 < b) by apply bpow_gt_0.
  assert (HI : 2 / 3 * (2 / 3) * b <= 1 + a -> / (1 + a) <= 2 * u).
  { intro H. apply Rmult_le_reg_l with (1 + a); [lra|]. rewrite Rinv_r by lra.
    pose proof (Rmult_le_compat_r u _ _ (Rlt_le _ _ Hu0) H). lra. }
  pose proof (rnd_err a) as Hra. rewrite (Rabs_pos_eq a Pa) in Hra. fold u in Hra.
  assert (Ha' : rnd a <= (1 + u) * (1 + a) - 1 /\ (1 - u) * (1 + a) - 1 <= rnd a).
  { apply Rabs_le_inv in Hra. split; lra. }
  set (D := fl_add Bone (fl_mul tau sigma)).
  assert (HD : (fin D /\ 1 <= B2R D /\ Rabs (B2R D - (1 + a)) <= 4 * u * (1 + a)) \/
               (D = B754_infinity false /\ / (1 + a) <= 2 * u)).
  { destruct (thr_cases tau sigma Ft Fs Pt Ps) as [(F & P & E)|(E & _ & LB)].
    - pose proof (Bplus_correct prec emax _ _ mode_NE Bone (fl_mul tau sigma) (is_finite_Bone prec emax _ _) F) as H. cbn [round_mode] in H.
      change (SpecFloat.fexp prec emax) with fexp in H. rewrite one_gen in H. fold b in H.
      set (m := B2R (fl_mul tau sigma)) in *.
      pose proof (rnd_sum_err 1 m ltac:(rewrite <- one_gen; apply fmt_B2R) ltac:(apply fmt_B2R)) as Hs.
      rewrite (Rabs_pos_eq (1 + m)) in Hs by lra. fold u in Hs.
      assert (H1 : 1 <= rnd (1 + m)).
      { apply round_ge_generic; auto with typeclass_instances; [rewrite <- one_gen; apply fmt_B2R|lra]. }
      fold a in E. rewrite <- E in Ha'. apply Rabs_le_inv in Hs.
      assert (U1 : u * (1 + m) <= u * ((1 + u) * (1 + a))) by (apply Rmult_le_compat_l; lra).
      assert (U2 : u * ((1 + u) * (1 + a)) <= u * (3 / 2 * (1 + a))).
      { apply Rmult_le_compat_l; [lra|]. apply Rmult_le_compat_r; lra. }
      destruct (Rlt_bool_spec (Rabs (rnd (1 + m))) b) as [L|L].
      + left. destruct H as (V & Fd & _). split; [exact Fd|]. unfold D, fl_add. rewrite V. split; [exact H1|].
        apply Rabs_le. pose proof (Rmult_le_pos u (1 + a) ltac:(lra) ltac:(lra)). lra.
      + right. destruct H as [V _]. split.
        * apply B2SF_inj. unfold D, fl_add. rewrite V. rewrite (fin_pos_sign Bone (is_finite_Bone prec emax _ _)) by (rewrite one_gen; lra). reflexivity.
        * apply HI. rewrite Rabs_pos_eq in L by lra.
          assert (U3 : (1 + u) * (1 + a) <= 3 / 2 * (1 + a)) by (apply Rmult_le_compat_r; lra).
          assert (U4 : u * (3 / 2 * (1 + a)) <= / 2 * (3 / 2 * (1 + a))) by (apply Rmult_le_compat_r; lra). lra.
    - right. split.
      + unfold D. rewrite E. pose proof (is_finite_Bone prec emax _ _) as Fo. destruct (Bone : fl) eqn:EB; try discriminate; reflexivity.
      + apply HI. fold b a in LB. assert (U3 : (1 + u) * (1 + a) <= 3 / 2 * (1 + a)) by (apply Rmult_le_compat_r; lra). lra. }
  destruct HD as [(FD & GD & ED)|(ED & HD)].
  - set (d := B2R D) in *. assert (Hi : 0 < / d <= 1).
    { split; [apply Rinv_0_lt_compat; lra|]. rewrite <- Rinv_1. apply Rinv_le_contravar; lra. }
    assert (HQ : Rabs (B2R x / d) <= Rabs (B2R x)).
    { unfold Rdiv. rewrite Rabs_mult, (Rabs_pos_eq (/ d)) by lra. rewrite <- (Rmult_1_r (Rabs (B2R x))) at 2. apply Rmult_le_compat_l; lra. }
    assert (HV : fin (fl_div x D) /\ B2R (fl_div x D) = rnd (B2R x / d)).
    { pose proof (Bdiv_correct prec emax _ _ mode_NE x D) as H. fold d in H. specialize (H ltac:(lra)). cbn [round_mode] in H.
      change (SpecFloat.fexp prec emax) with fexp in H. rewrite Rlt_bool_true in H.
      - destruct H as (E & F & _). split; [unfold fin, fl_div; rewrite F; exact Hx|exact E].
      - apply (rnd_abs_lt _ (Rle_refl _) x). exact HQ. }
    destruct HV as [FV EV]. split; [exact FV|]. rewrite EV.
    split; [apply abs_round_le_generic; auto with typeclass_instances; apply generic_format_abs, fmt_B2R|].
    assert (R0 : rnd 0 = 0) by (apply round_0; auto with typeclass_instances).
    split.
    { destruct (Rle_lt_dec 0 (B2R x)) as [Q|Q].
      - apply Rmult_le_pos; [|exact Q]. rewrite <- R0. apply round_le; auto with typeclass_instances. apply Rmult_le_pos; lra.
      - assert (rnd (B2R x / d) <= 0).
        { rewrite <- R0. apply round_le; auto with typeclass_instances. pose proof (Rmult_le_pos (- B2R x) (/ d) ltac:(lra) ltac:(lra)). unfold Rdiv. lra. }
        replace (rnd (B2R x / d) * B2R x) with (- rnd (B2R x / d) * - B2R x) by ring. apply Rmult_le_pos; lra. }
    eexists; split; [exact HP|].
    pose proof (rnd_err (B2R x / d)) as HR. fold u in HR.
    pose proof (Rmult_le_compat_l u _ _ (Rlt_le _ _ Hu0) HQ) as HR2.
    assert (HE : Rabs (B2R x / d - B2R x / (1 + a)) <= 4 * u * Rabs (B2R x)).
    { replace (B2R x / d - B2R x / (1 + a)) with (B2R x * (/ d * ((1 + a - d) * / (1 + a)))) by (field; lra).
      rewrite !Rabs_mult. rewrite (Rabs_pos_eq (/ d)) by lra.
      assert (Hja : 0 < / (1 + a)) by (apply Rinv_0_lt_compat; lra).
      rewrite (Rabs_pos_eq (/ (1 + a))) by lra. rewrite Rabs_minus_sym in ED.
      assert (Q : Rabs (1 + a - d) * / (1 + a) <= 4 * u).
      { apply Rmult_le_reg_r with (1 + a); [lra|]. rewrite Rmult_assoc, Rinv_l by lra. lra. }
      assert (Q0 : 0 <= Rabs (1 + a - d) * / (1 + a)) by (apply Rmult_le_pos; [apply Rabs_pos|lra]).
      assert (Q1 : / d * (Rabs (1 + a - d) * / (1 + a)) <= 1 * (4 * u)) by (apply Rmult_le_compat; lra).
      pose proof (Rmult_le_compat_l _ _ _ Hx0 Q1). lra. }
    replace (rnd (B2R x / d) - B2R x / (1 + a)) with ((rnd (B2R x / d) - B2R x / d) + (B2R x / d - B2R x / (1 + a))) by ring.
    eapply Rle_trans; [apply Rabs_triang|]. lra.
  - rewrite ED. assert (HV : fin (fl_div x (B754_infinity false)) /\ B2R (fl_div x (B754_infinity false)) = 0) by (destruct x; try discriminate; split; reflexivity).
    destruct HV as [FV EV]. split; [exact FV|]. rewrite EV, Rabs_R0. split; [lra|]. split; [lra|].
    eexists; split; [exact HP|]. rewrite Rminus_0_l, Rabs_Ropp. unfold Rdiv. rewrite Rabs_mult.
    rewrite (Rabs_pos_eq (/ (1 + a))) by (apply Rlt_le, Rinv_0_lt_compat; lra).
    pose proof (Rmult_le_compat_l _ _ _ Hx0 HD). pose proof (Rmult_le_pos _ _ (Rlt_le _ _ Hu0) Hx0). lra.
Qed.
End Facts.
