(** * Convergence of the pairwise projection (M_Inter.v) *)
From Coq Require Import Psatz Classical.
From Verif Require Import Base VSum MatFacts M_Loop LoopFacts LoopFacts2 SeqConv M_Inter P_Inter.
Open Scope result_scope.
Open Scope R_scope.

(** ** two inequalities on the logarithm *)
Lemma ln_ineq1 r : 0 < r <= 1 -> / 2 * ((1 - r) * (1 - r)) <= r - 1 - ln r.
Proof.
  intros [H0 H1]. destruct (Req_dec r 1) as [->|Hne]; [rewrite ln_1; lra|].
  destruct (MVT_cor2 (fun x => (x - ln x) - / 2 * ((1 - x) * (1 - x))) (fun x => (1 - / x) - / 2 * ((0 - 1) * (1 - x) + (1 - x) * (0 - 1))) r 1 ltac:(lra)) as [c [E1 Hc]].
  - intros c Hc. apply derivable_pt_lim_minus; [apply derivable_pt_lim_minus; [apply derivable_pt_lim_id|apply derivable_pt_lim_ln; lra]|].
    apply (derivable_pt_lim_scal (fun x => (1 - x) * (1 - x)) (/ 2)). apply (derivable_pt_lim_mult (fun x => 1 - x) (fun x => 1 - x)); apply (derivable_pt_lim_minus (fun _ => 1) (fun x => x)); try apply derivable_pt_lim_const; apply derivable_pt_lim_id.
  - cbv beta in E1. rewrite ln_1 in E1. assert (H : 1 - / c - / 2 * ((0 - 1) * (1 - c) + (1 - c) * (0 - 1)) <= 0).
    { replace (1 - / c - / 2 * ((0 - 1) * (1 - c) + (1 - c) * (0 - 1))) with (- ((1 - c) * (1 - c) * / c)) by (field; lra). assert (0 < / c) by (apply Rinv_0_lt_compat; lra). pose proof (Rle_0_sqr (1 - c)) as Hs. unfold Rsqr in Hs. nra. }
    nra.
Qed.
Lemma ln_ineq2 w : 0 < w <= 1 -> / 2 * ((1 - w) * (1 - w)) <= / w - 1 + ln w.
Proof.
  intros [H0 H1]. destruct (Req_dec w 1) as [->|Hne]; [rewrite ln_1, Rinv_1; lra|].
  destruct (MVT_cor2 (fun x => (/ x + ln x) - / 2 * ((1 - x) * (1 - x))) (fun x => ((0 * x - 1 * 1) / Rsqr x + / x) - / 2 * ((0 - 1) * (1 - x) + (1 - x) * (0 - 1))) w 1 ltac:(lra)) as [c [E1 Hc]].
  - intros c Hc. apply derivable_pt_lim_minus; [apply derivable_pt_lim_plus; [|apply derivable_pt_lim_ln; lra]|].
    + assert (HD : derivable_pt_lim ((fun _ => 1) / (fun x => x))%F c ((0 * c - 1 * 1) / Rsqr c)) by (apply derivable_pt_lim_div; [apply derivable_pt_lim_const|apply derivable_pt_lim_id|lra]).
      intros e He. destruct (HD e He) as [d Hd]. exists d. intros h Hh Hh2. specialize (Hd h Hh Hh2). unfold div_fct in Hd. unfold Rdiv in Hd at 2 3. rewrite (Rmult_1_l (/ (c + h))), (Rmult_1_l (/ c)) in Hd. exact Hd.
    + apply (derivable_pt_lim_scal (fun x => (1 - x) * (1 - x)) (/ 2)). apply (derivable_pt_lim_mult (fun x => 1 - x) (fun x => 1 - x)); apply (derivable_pt_lim_minus (fun _ => 1) (fun x => x)); try apply derivable_pt_lim_const; apply derivable_pt_lim_id.
  - cbv beta in E1. rewrite ln_1, Rinv_1 in E1. assert (Hic : 1 <= / c) by (rewrite <- Rinv_1; apply Rinv_le_contravar; lra).
    assert (H : (0 * c - 1 * 1) / c² + / c - / 2 * ((0 - 1) * (1 - c) + (1 - c) * (0 - 1)) <= 0).
    { replace ((0 * c - 1 * 1) / c² + / c - / 2 * ((0 - 1) * (1 - c) + (1 - c) * (0 - 1))) with (- ((1 - c) * (/ c * / c - 1))) by (unfold Rsqr; field; lra). assert (1 <= / c * / c) by nra. assert (0 <= (1 - c) * (/ c * / c - 1)) by (apply Rmult_le_pos; lra). lra. }
    nra.
Qed.

(** ** the shrinkage is the gradient of a convex function of which it is also a contraction *)
Section Shrink.
Variable s : R.
Hypothesis Hs : 0 <= s.
Let c := s + eps.
Let k := eps * c.
Definition sgap (r : R) : R := r * (r + s) / (r + c).
Definition sint (r : R) : R := / 2 * (r * r) - eps * r + k * (ln (r + c) - ln c).
Lemma c_pos : 0 < c. Proof. unfold c. pose proof eps_pos. lra. Qed.
Lemma k_le x y : c <= x -> c <= y -> k <= x * y.
Proof. intros Hx Hy. pose proof eps_pos. unfold k. apply Rmult_le_compat; unfold c in *; lra. Qed.
Lemma sgap_le r : 0 <= r -> 0 <= sgap r <= r.
Proof.
  intro Hr. pose proof eps_pos as He. pose proof c_pos as Hc. unfold sgap. split.
  - apply Rmult_le_pos; [nra|]. left. apply Rinv_0_lt_compat. lra.
  - apply Rmult_le_reg_r with (r + c); [lra|]. unfold Rdiv. rewrite Rmult_assoc, Rinv_l by lra. unfold c. nra.
Qed.
Lemma sint_coco a b : 0 <= a -> 0 <= b -> sint a + sgap a * (b - a) + / 2 * ((sgap b - sgap a) * (sgap b - sgap a)) <= sint b.
Proof.
  intros Ha Hb. pose proof eps_pos as He. pose proof c_pos as Hc. set (x := a + c). set (y := b + c). assert (Hx : c <= x) by (unfold x; lra). assert (Hy : c <= y) by (unfold y; lra).
  assert (Hk : 0 < k) by (unfold k; nra).
  assert (EL : ln (y / x) = ln y - ln x). { unfold Rdiv. rewrite ln_mult, ln_Rinv; try lra. apply Rinv_0_lt_compat; lra. }
  assert (KEY : / 2 * k * ((/ x - / y) * (/ x - / y)) <= ln (y / x) + x / y - 1).
  { destruct (Rle_lt_dec x y) as [Hxy|Hxy].
    - assert (Hr : 0 < x / y <= 1). { split; [apply Rdiv_lt_0_compat; lra|]. apply Rmult_le_reg_r with y; [lra|]. unfold Rdiv. rewrite Rmult_assoc, Rinv_l; lra. }
      pose proof (ln_ineq1 (x / y) Hr) as H1. replace (ln (x / y)) with (- ln (y / x)) in H1 by (rewrite <- ln_Rinv by (apply Rdiv_lt_0_compat; lra); f_equal; field; lra).
      assert (H2 : k * ((/ x - / y) * (/ x - / y)) <= (x * x) * ((/ x - / y) * (/ x - / y))) by (apply Rmult_le_compat_r; [apply Rle_0_sqr|apply k_le; auto]).
      replace (x * x * ((/ x - / y) * (/ x - / y))) with ((1 - x / y) * (1 - x / y)) in H2 by (field; lra). lra.
    - assert (Hr : 0 < y / x <= 1). { split; [apply Rdiv_lt_0_compat; lra|]. apply Rmult_le_reg_r with x; [lra|]. unfold Rdiv. rewrite Rmult_assoc, Rinv_l; lra. }
      pose proof (ln_ineq2 (y / x) Hr) as H1. replace (/ (y / x)) with (x / y) in H1 by (field; lra).
      assert (H2 : k * ((/ x - / y) * (/ x - / y)) <= (y * y) * ((/ x - / y) * (/ x - / y))) by (apply Rmult_le_compat_r; [apply Rle_0_sqr|apply k_le; auto]).
      replace (y * y * ((/ x - / y) * (/ x - / y))) with ((1 - y / x) * (1 - y / x)) in H2 by (field; lra). lra. }
  assert (Ea : a = x - c) by (unfold x; ring). assert (Eb : b = y - c) by (unfold y; ring). clearbody x y. subst a b.
  assert (G : forall r, c <= r -> sgap (r - c) = r - c - eps + k / r). { intros r Hr. unfold sgap, k, c. field. fold c. lra. }
  rewrite !G by auto. unfold sint. replace (x - c + c) with x by ring. replace (y - c + c) with y by ring.
  assert (KEY2 : / 2 * (k * k) * ((/ x - / y) * (/ x - / y)) <= k * (ln y - ln x + x / y - 1)). { rewrite <- EL. nra. }
  assert (E1 : / 2 * ((y - c - eps + k / y - (x - c - eps + k / x)) * (y - c - eps + k / y - (x - c - eps + k / x))) = / 2 * ((y - x) * (y - x)) - k * (y / x - 2 + x / y) + / 2 * (k * k) * ((/ x - / y) * (/ x - / y))) by (field; lra).
  rewrite E1. assert (E2 : (x - c - eps + k / x) * (y - c - (x - c)) = (x - c - eps) * (y - x) + k * (y / x - 1)) by (field; lra). rewrite E2. lra.
Qed.
Definition shr (t : R) : R := Rmax 0 (Rabs t - s).
Definition smoo (t : R) : R := sint (shr t).
Lemma shr_pos t : 0 <= shr t. Proof. apply Rmax_l. Qed.
Lemma xd_pos t : 0 <= t -> xdtilde s t = sgap (shr t).
Proof.
  intro Ht. pose proof eps_pos as He. unfold shr. destruct (Rle_lt_dec (Rabs t) s) as [H|H].
  - rewrite xd_zero by auto. rewrite Rmax_left by lra. unfold sgap. unfold Rdiv. ring.
  - rewrite xd_out by auto. rewrite Rmax_right by lra. rewrite Rabs_right in * by lra. unfold sgap, c. field. lra.
Qed.
Lemma xd_odd t : xdtilde s (- t) = - xdtilde s t.
Proof. unfold xdtilde. rewrite Rabs_Ropp. unfold Rdiv. ring. Qed.
Lemma smoo_even t : smoo (- t) = smoo t.
Proof. unfold smoo, shr. rewrite Rabs_Ropp. reflexivity. Qed.
Lemma sgap0 : sgap 0 = 0. Proof. unfold sgap, Rdiv. ring. Qed.
Lemma sint0 : sint 0 = 0. Proof. unfold sint. rewrite Rplus_0_l. ring. Qed.
Lemma smoo_coco_pos t t' : 0 <= t -> smoo t + xdtilde s t * (t' - t) + / 2 * ((xdtilde s t' - xdtilde s t) * (xdtilde s t' - xdtilde s t)) <= smoo t'.
Proof.
  intro Ht. pose proof (shr_pos t) as Hr. pose proof (shr_pos t') as Hr'. destruct (sgap_le _ Hr) as [Hg1 Hg2]. destruct (sgap_le _ Hr') as [Hg1' Hg2']. destruct (Rle_lt_dec 0 t') as [Ht'|Ht'].
  - rewrite !xd_pos by auto. pose proof (sint_coco _ _ Hr Hr') as H. unfold smoo. assert (sgap (shr t) * (t' - t) <= sgap (shr t) * (shr t' - shr t)); [|lra].
    unfold shr in *. rewrite !Rabs_right in * by lra. destruct (Rle_lt_dec t s) as [H1|H1].
    + rewrite (Rmax_left 0 (t - s)) by lra. rewrite sgap0. lra.
    + rewrite (Rmax_right 0 (t - s)) in * by lra. pose proof (Rmax_r 0 (t' - s)). nra.
  - rewrite (xd_pos t Ht). rewrite <- (Ropp_involutive t') at 2 3. rewrite xd_odd, xd_pos by lra. replace (shr (- t')) with (shr t') by (unfold shr; rewrite Rabs_Ropp; reflexivity).
    set (al := sgap (shr t)) in *. set (be := sgap (shr t')) in *. pose proof (sint_coco _ _ Hr (Rle_refl 0)) as H1. pose proof (sint_coco _ _ (Rle_refl 0) Hr') as H2. rewrite sgap0, sint0 in *. fold al in H1. fold be in H2.
    unfold smoo. assert (H3 : al * (shr t) <= al * t). { apply Rmult_le_compat_l; auto. unfold shr. rewrite Rabs_right by lra. apply Rmax_lub; lra. }
    assert (H4 : be <= - t'). { eapply Rle_trans; [exact Hg2'|]. unfold shr. rewrite Rabs_left by lra. apply Rmax_lub; lra. } nra.
Qed.
Lemma smoo_coco t t' : smoo t + xdtilde s t * (t' - t) + / 2 * ((xdtilde s t' - xdtilde s t) * (xdtilde s t' - xdtilde s t)) <= smoo t'.
Proof.
  destruct (Rle_lt_dec 0 t) as [H|H]; [apply smoo_coco_pos; exact H|]. pose proof (smoo_coco_pos (- t) (- t') ltac:(lra)) as H1. rewrite !smoo_even, !xd_odd in H1. nra.
Qed.
(** the memory is a monotone function of the remaining difference *)
Lemma xd_mono t t' : 0 <= (xdtilde s t - xdtilde s t') * ((t - xdtilde s t) - (t' - xdtilde s t')).
Proof. pose proof (smoo_coco t t') as H1. pose proof (smoo_coco t' t) as H2. nra. Qed.
(** potential of the memory *)
Definition Fpot (t : R) : R := let d := xdtilde s t in d * (t - d) + / 2 * (d * d) - smoo t.
Lemma Fpot_step t t' : Fpot t' - Fpot t <= (xdtilde s t' - xdtilde s t) * (t' - xdtilde s t').
Proof. unfold Fpot. cbv zeta. pose proof (smoo_coco t t') as H. nra. Qed.
Lemma Fpot0 : Fpot 0 = 0.
Proof. unfold Fpot. cbv zeta. rewrite xd_pos by lra. unfold smoo, shr. rewrite Rabs_R0, Rmax_left by lra. rewrite sgap0, sint0. ring. Qed.
Lemma xd0 : xdtilde s 0 = 0. Proof. apply xd_zero. rewrite Rabs_R0. exact Hs. Qed.
Lemma Fpot_nonneg t : 0 <= Fpot t.
Proof. pose proof (Fpot_step t 0) as H. rewrite Fpot0, xd0 in H. lra. Qed.
Lemma Fpot_coercive B : exists C, forall t, Fpot t <= B -> Rabs (xdtilde s t) <= C.
Proof.
  set (t1 := s + 1). assert (Ht1 : 0 <= t1) by (unfold t1; lra). set (d1 := xdtilde s t1). set (ka := t1 - d1).
  assert (Hka : 0 < ka). { unfold ka, d1. rewrite xd_pos by auto. destruct (sgap_le (shr t1) (shr_pos _)) as [_ H]. unfold shr in *. rewrite Rabs_right in * by lra. unfold t1 in *. rewrite Rmax_right in * by lra.
    replace (s + 1 - s) with 1 in * by ring. destruct (Req_dec s 0) as [E0|Hn]; [|lra]. unfold sgap, c. pose proof eps_pos. rewrite E0. assert (1 * (1 + 0) / (1 + (0 + eps)) < 1); [|lra]. apply Rmult_lt_reg_r with (1 + (0 + eps)); [lra|]. unfold Rdiv. rewrite Rmult_assoc, Rinv_l by lra. lra. }
  exists ((B + ka * d1) / ka). intros t Ht. pose proof (Fpot_step t t1) as H1. pose proof (Fpot_step t (- t1)) as H2. pose proof (Fpot_nonneg t1). pose proof (Fpot_nonneg (- t1)). rewrite !xd_odd in H2. fold d1 in H1, H2. fold ka in H1. replace (- t1 - - d1) with (- ka) in H2 by (unfold ka; ring).
  apply Rmult_le_reg_r with ka; [auto|]. unfold Rdiv. rewrite (Rmult_assoc _ (/ ka)), Rinv_l by lra. unfold Rabs. destruct (Rcase_abs _); nra.
Qed.
End Shrink.

(** ** energy of a sweep of one column *)
Lemma Rsum_change {A} (g g' : A -> R) l p : NoDup l -> In p l -> (forall q, q <> p -> g' q = g q) -> Rsum (map g' l) = Rsum (map g l) + g' p - g p.
Proof.
  intros HN HI Hg. induction HN as [|q l Hq HN IH]; [contradiction|]. cbn [map Rsum]. destruct HI as [->|HI].
  - replace (Rsum (map g' l)) with (Rsum (map g l)); [ring|]. f_equal. apply map_ext_in. intros a Ha. symmetry. apply Hg. intros ->. contradiction.
  - rewrite IH by auto. rewrite (Hg q) by (intros ->; contradiction). ring.
Qed.
Lemma Rsum_le {A} (g h : A -> R) l : (forall a, In a l -> g a <= h a) -> Rsum (map g l) <= Rsum (map h l).
Proof. induction l as [|a l IH]; cbn [map Rsum]; intro H; [lra|]. pose proof (H a (or_introl eq_refl)). specialize (IH (fun b Hb => H b (or_intror Hb))). lra. Qed.
Lemma Rsum_nn {A} (g : A -> R) l : (forall a, In a l -> 0 <= g a) -> 0 <= Rsum (map g l).
Proof. induction l as [|a l IH]; cbn [map Rsum]; intro H; [lra|]. pose proof (H a (or_introl eq_refl)). specialize (IH (fun b Hb => H b (or_intror Hb))). lra. Qed.
Lemma Rsum_term {A} (g : A -> R) l a : (forall a, In a l -> 0 <= g a) -> In a l -> g a <= Rsum (map g l).
Proof.
  induction l as [|b l IH]; intros H Ha; [contradiction|]; destruct Ha as [->|Ha]; cbn [map Rsum].
  - pose proof (Rsum_nn g l (fun c Hc => H c (or_intror Hc))). lra.
  - pose proof (H b (or_introl eq_refl)). specialize (IH (fun c Hc => H c (or_intror Hc)) Ha). lra.
Qed.
Lemma pair_eq_dec (p q : nat * nat) : {p = q} + {p <> q}.
Proof. repeat decide equality. Qed.

Section Energy.
Variables (k : nat) (S : nat -> nat -> R) (j : nat).
Hypothesis HS : forall i1 i2, (i1 < i2 < k)%nat -> 0 <= S i1 i2.
Definition SP (p : nat * nat) := S (fst p) (snd p).
Definition nrm2 (st : inter_state) : R := RS k (fun i => col st j i * col st j i).
Definition energy (st : inter_state) (T : nat * nat -> R) : R := nrm2 st + Rsum (map (fun p => Fpot (SP p) (T p)) (pairs k)).
Definition dz (st st' : inter_state) (p : nat * nat) : R := zat st' p j - zat st p j.
Definition dif (st : inter_state) (p : nat * nat) : R := col st j (snd p) - col st j (fst p).
Lemma step_nrm2 p st : In p (pairs k) -> let st' := pair_step (SP p) (fst p) (snd p) st in nrm2 st' = nrm2 st - dz st st' p * dif st' p - / 2 * (dz st st' p * dz st st' p).
Proof.
  intros Hp st'. apply in_pairs in Hp. pose proof (pair_step_col (SP p) p st j (proj1 Hp)) as HC. fold st' in HC.
  pose proof (col_step_lin k _ _ _ _ _ _ _ (col st' j) Hp HC) as H1. pose proof (col_step_lin k _ _ _ _ _ _ _ (col st j) Hp HC) as H2. destruct HC as (_ & H3 & H4 & _).
  unfold nrm2, dz, dif. rewrite H1. rewrite (RS_ext k (fun i => col st j i * col st' j i) (fun i => col st' j i * col st j i)) by (intros; ring). rewrite H2.
  replace (col st j (snd p) - col st j (fst p)) with (col st' j (snd p) - col st' j (fst p) + (zat st' p j - zat st p j)) by (rewrite H3, H4; field). field.
Qed.
(** displacement during a sweep *)
Lemma sweep_move ps : NoDup ps -> (forall p, In p ps -> (fst p < snd p)%nat) -> forall st i, Rabs (col (pure_sweep S ps st) j i - col st j i) <= / 2 * Rsum (map (fun p => Rabs (dz st (pure_sweep S ps st) p)) ps).
Proof.
  intro HN. induction HN as [|p ps Hp HN IH]; intros Hlt st i.
  - unfold pure_sweep. cbn [fold_left map Rsum]. replace (col st j i - col st j i) with 0 by ring. rewrite Rabs_R0. lra.
  - change (pure_sweep S (p :: ps) st) with (pure_sweep S ps (pair_step (SP p) (fst p) (snd p) st)). set (st1 := pair_step (SP p) (fst p) (snd p) st). cbn [map Rsum].
    specialize (IH (fun q Hq => Hlt q (or_intror Hq)) st1 i). set (st' := pure_sweep S ps st1) in *.
    assert (E1 : Rsum (map (fun q => Rabs (dz st st' q)) ps) = Rsum (map (fun q => Rabs (dz st1 st' q)) ps)).
    { f_equal. apply map_ext_in. intros q Hq. unfold dz. unfold st1. rewrite pair_step_z, other_pair by (intros ->; contradiction). reflexivity. }
    assert (E2 : dz st st' p = dz st st1 p). { unfold dz. unfold st'. rewrite sweep_z_out by auto. reflexivity. }
    rewrite E1, E2. assert (H1 : Rabs (col st1 j i - col st j i) <= / 2 * Rabs (dz st st1 p)).
    { destruct (pair_step_col (SP p) p st j (Hlt p (or_introl eq_refl))) as (_ & H3 & H4 & H5). fold st1 in H3, H4, H5. unfold dz. pose proof (Rabs_pos (zat st1 p j - zat st p j)) as HA.
      destruct (Nat.eq_dec i (fst p)) as [->|N1]; [rewrite H3|destruct (Nat.eq_dec i (snd p)) as [->|N2]; [rewrite H4|rewrite H5 by auto]].
      - replace (col st j (fst p) + / 2 * (zat st1 p j - zat st p j) - col st j (fst p)) with (/ 2 * (zat st1 p j - zat st p j)) by ring. rewrite Rabs_mult, (Rabs_right (/ 2)) by lra. lra.
      - replace (col st j (snd p) - / 2 * (zat st1 p j - zat st p j) - col st j (snd p)) with (- (/ 2 * (zat st1 p j - zat st p j))) by ring. rewrite Rabs_Ropp, Rabs_mult, (Rabs_right (/ 2)) by lra. lra.
      - replace (col st j i - col st j i) with 0 by ring. rewrite Rabs_R0. lra. }
    replace (col st' j i - col st j i) with ((col st' j i - col st1 j i) + (col st1 j i - col st j i)) by ring. eapply Rle_trans; [apply Rabs_triang|]. lra.
Qed.
Lemma sweep_energy ps : NoDup ps -> (forall p, In p ps -> In p (pairs k)) -> forall st T, (forall p, In p (pairs k) -> zat st p j = xdtilde (SP p) (T p)) ->
  let st' := pure_sweep S ps st in exists T', (forall p, In p (pairs k) -> zat st' p j = xdtilde (SP p) (T' p)) /\ (forall p, ~ In p ps -> T' p = T p) /\
    energy st' T' + / 2 * Rsum (map (fun p => dz st st' p * dz st st' p) ps) <= energy st T /\
    forall p, In p ps -> Rabs (dif st' p - (T' p - zat st' p j)) <= Rsum (map (fun p => Rabs (dz st st' p)) ps).
Proof.
  intro HN. induction HN as [|p ps Hp HN IH]; intros Hin st T HT st'.
  - exists T. unfold st', pure_sweep. cbn [fold_left map Rsum]. split; [exact HT|]. split; [reflexivity|]. split; [lra|intros ? []].
  - unfold st'. clear st'. change (pure_sweep S (p :: ps) st) with (pure_sweep S ps (pair_step (SP p) (fst p) (snd p) st)). set (st1 := pair_step (SP p) (fst p) (snd p) st).
    assert (Hpp : In p (pairs k)) by (apply Hin; left; reflexivity). pose proof (proj1 (in_pairs k p) Hpp) as Hlt.
    set (T1 := fun q => if pair_eq_dec q p then dif st p + zat st p j else T q).
    assert (HT1 : forall q, In q (pairs k) -> zat st1 q j = xdtilde (SP q) (T1 q)).
    { intros q Hq. unfold T1, st1. rewrite pair_step_z. destruct (pair_eq_dec q p) as [->|Hne]; [rewrite !Nat.eqb_refl; reflexivity|rewrite other_pair by auto; apply HT; auto]. }
    assert (HE1 : energy st1 T1 + / 2 * (dz st st1 p * dz st st1 p) <= energy st T).
    { unfold energy. rewrite (Rsum_change (fun q => Fpot (SP q) (T q)) (fun q => Fpot (SP q) (T1 q)) (pairs k) p (pairs_nodup k) Hpp) by (intros q Hq; unfold T1; destruct (pair_eq_dec q p); [contradiction|reflexivity]).
      pose proof (step_nrm2 p st Hpp) as HN2. cbv zeta in HN2. fold st1 in HN2. pose proof (Fpot_step (SP p) (HS _ _ Hlt) (T p) (T1 p)) as HF.
      rewrite <- (HT p Hpp), <- (HT1 p Hpp) in HF. assert (ED : dif st1 p = T1 p - zat st1 p j).
      { destruct (pair_step_col (SP p) p st j (proj1 Hlt)) as (_ & H3 & H4 & _). fold st1 in H3, H4. unfold T1. destruct (pair_eq_dec p p); [|contradiction]. unfold dif. rewrite H3, H4. field. }
      rewrite <- ED in HF. fold (dz st st1 p) in HF. lra. }
    destruct (IH (fun q Hq => Hin q (or_intror Hq)) st1 T1 HT1) as (T' & Ha & Hb & Hc & Hd). set (st' := pure_sweep S ps st1) in *. exists T'. split; [exact Ha|].
    assert (E1 : forall q, In q ps -> dz st st' q = dz st1 st' q). { intros q Hq. unfold dz. unfold st1. rewrite pair_step_z, other_pair by (intros ->; contradiction). reflexivity. }
    assert (E2 : dz st st' p = dz st st1 p). { unfold dz. unfold st'. rewrite sweep_z_out by auto. reflexivity. }
    split; [|split].
    + intros q Hq. rewrite Hb by (intro; apply Hq; right; auto). unfold T1. destruct (pair_eq_dec q p) as [->|]; [exfalso; apply Hq; left; reflexivity|reflexivity].
    + cbn [map Rsum]. rewrite E2. rewrite (map_ext_in (fun q => dz st st' q * dz st st' q) (fun q => dz st1 st' q * dz st1 st' q)) by (intros q Hq; rewrite E1 by auto; reflexivity). lra.
    + cbn [map Rsum]. rewrite (map_ext_in (fun q => Rabs (dz st st' q)) (fun q => Rabs (dz st1 st' q))) by (intros q Hq; rewrite E1 by auto; reflexivity). pose proof (Rabs_pos (dz st st' p)) as HA. intros q [<-|Hq].
      * rewrite Hb by auto. assert (EZ : zat st' p j = zat st1 p j) by (apply sweep_z_out; auto). rewrite EZ.
        assert (ED : T1 p - zat st1 p j = dif st1 p).
        { destruct (pair_step_col (SP p) p st j (proj1 Hlt)) as (_ & H3 & H4 & _). fold st1 in H3, H4. unfold T1. destruct (pair_eq_dec p p); [|contradiction]. unfold dif. rewrite H3, H4. field. }
        rewrite ED. unfold dif. assert (HM : forall i, Rabs (col st' j i - col st1 j i) <= / 2 * Rsum (map (fun p => Rabs (dz st1 st' p)) ps)) by (intro i; apply sweep_move; auto; intros q Hq; apply (in_pairs k), Hin; right; exact Hq).
        replace (col st' j (snd p) - col st' j (fst p) - (col st1 j (snd p) - col st1 j (fst p))) with ((col st' j (snd p) - col st1 j (snd p)) - (col st' j (fst p) - col st1 j (fst p))) by ring.
        pose proof (HM (snd p)) as M1. pose proof (HM (fst p)) as M2. eapply Rle_trans; [apply Rabs_triang|]. rewrite Rabs_Ropp. lra.
      * specialize (Hd q Hq). lra.
Qed.

(** ** the sequence of sweeps *)
Variables (n : nat) (x : list R).
Definition sq := sweeps k S (start n x).
Definition mv m := Rsum (map (fun p => dz (sq m) (sq (Datatypes.S m)) p * dz (sq m) (sq (Datatypes.S m)) p) (pairs k)).
Definition mu m := Rsum (map (fun p => Rabs (dz (sq m) (sq (Datatypes.S m)) p)) (pairs k)).
Definition good m T := (forall p, In p (pairs k) -> zat (sq m) p j = xdtilde (SP p) (T p)) /\ energy (sq m) T + / 2 * RS m mv <= nrm2 (sq 0%nat) /\
  match m with O => True | Datatypes.S m' => forall p, In p (pairs k) -> Rabs (dif (sq m) p - (T p - zat (sq m) p j)) <= mu m' end.
Lemma good_all m : exists T, good m T.
Proof.
  induction m as [|m [T [Ha [Hb _]]]].
  - exists (fun _ => 0). split; [|split; [|exact I]].
    + intros p Hp. rewrite xd0; [reflexivity|]. apply HS, in_pairs, Hp.
    + unfold energy. cbn [RS]. assert (E0 : Rsum (map (fun p => Fpot (SP p) 0) (pairs k)) = 0); [|lra].
      assert (G : forall l, (forall p, In p l -> In p (pairs k)) -> Rsum (map (fun p => Fpot (SP p) 0) l) = 0); [|apply G; auto].
      induction l as [|p l IH]; intro H; cbn [map Rsum]; [reflexivity|]. rewrite IH by (intros q Hq; apply H; right; auto). rewrite Fpot0; [ring|]. apply HS. apply (in_pairs k p). apply H. left; reflexivity.
  - destruct (sweep_energy (pairs k) (pairs_nodup k) (fun p Hp => Hp) (sq m) T Ha) as (T' & H1 & _ & H3 & H4). exists T'.
    assert (ES : pure_sweep S (pairs k) (sq m) = sq (Datatypes.S m)) by (unfold sq; rewrite sweeps_S; reflexivity). rewrite ES in H1, H3, H4. split; [exact H1|]. split; [|exact H4].
    cbn [RS]. fold (mv m) in H3. lra.
Qed.
Lemma mv_nonneg m : 0 <= mv m.
Proof. apply Rsum_nn. intros. apply Rle_0_sqr. Qed.
Lemma SumF_nonneg T : 0 <= Rsum (map (fun p => Fpot (SP p) (T p)) (pairs k)).
Proof. apply Rsum_nn. intros p Hp. apply Fpot_nonneg, HS, in_pairs, Hp. Qed.
Lemma nrm2_nonneg st : 0 <= nrm2 st.
Proof. apply RS_nonneg. intros. apply Rle_0_sqr. Qed.
Lemma mv_sum m : RS m mv <= 2 * nrm2 (sq 0%nat).
Proof. destruct (good_all m) as [T [_ [H _]]]. unfold energy in H. pose proof (SumF_nonneg T). pose proof (nrm2_nonneg (sq m)). lra. Qed.
Lemma mu_vanish e : 0 < e -> exists N, forall m, (N <= m)%nat -> mu m < e.
Proof.
  intro He. set (L := INR (length (pairs k)) + 1). assert (HL : 0 < L) by (unfold L; pose proof (pos_INR (length (pairs k))); lra).
  set (d := e / L). assert (Hd : 0 < d) by (apply Rdiv_lt_0_compat; lra).
  destruct (summable_vanish mv _ mv_nonneg mv_sum (d * d) ltac:(nra)) as [N HN]. exists N. intros m Hm. specialize (HN m Hm).
  assert (HB : forall p, In p (pairs k) -> Rabs (dz (sq m) (sq (Datatypes.S m)) p) <= d).
  { intros p Hp. assert (H1 : dz (sq m) (sq (Datatypes.S m)) p * dz (sq m) (sq (Datatypes.S m)) p <= mv m) by (apply (Rsum_term (fun p => dz (sq m) (sq (Datatypes.S m)) p * dz (sq m) (sq (Datatypes.S m)) p)); auto; intros; apply Rle_0_sqr).
    apply Rabs_le. set (v := dz (sq m) (sq (Datatypes.S m)) p) in *. split; nra. }
  assert (H2 : mu m <= INR (length (pairs k)) * d). { unfold mu. assert (G : forall l, (forall p, In p l -> In p (pairs k)) -> Rsum (map (fun p => Rabs (dz (sq m) (sq (Datatypes.S m)) p)) l) <= INR (length l) * d).
    { induction l as [|p l IH]; intro H; [simpl; lra|]. cbn [map Rsum length]. rewrite S_INR. specialize (IH (fun q Hq => H q (or_intror Hq))). pose proof (HB p (H p (or_introl eq_refl))). lra. } apply G; auto. }
  assert (L * d = e) by (unfold d; field; lra). unfold L in *. lra.
Qed.
Lemma z_bounded : exists C, 0 <= C /\ forall m p, In p (pairs k) -> Rabs (zat (sq m) p j) <= C.
Proof.
  assert (G : forall l, (forall p, In p l -> In p (pairs k)) -> exists C, 0 <= C /\ forall p t, In p l -> Fpot (SP p) t <= nrm2 (sq 0%nat) -> Rabs (xdtilde (SP p) t) <= C).
  { induction l as [|p l IH]; intro H; [exists 0; split; [lra|intros ? ? []]|]. destruct (IH (fun q Hq => H q (or_intror Hq))) as [C [H0 HC]].
    destruct (Fpot_coercive (SP p) (HS _ _ (proj1 (in_pairs k p) (H p (or_introl eq_refl)))) (nrm2 (sq 0%nat))) as [C1 HC1]. exists (Rmax C C1). split; [eapply Rle_trans; [exact H0|apply Rmax_l]|].
    intros q t [<-|Hq] Ht; [eapply Rle_trans; [apply HC1; exact Ht|apply Rmax_r]|eapply Rle_trans; [apply (HC q t Hq Ht)|apply Rmax_l]]. }
  destruct (G (pairs k) (fun p Hp => Hp)) as [C [H0 HC]]. exists C. split; [exact H0|]. intros m p Hp. destruct (good_all m) as [T [Ha [Hb _]]]. rewrite (Ha p Hp). apply HC; auto.
  unfold energy in Hb. pose proof (nrm2_nonneg (sq m)). assert (0 <= RS m mv) by (apply RS_nonneg; intros; apply mv_nonneg).
  assert (Fpot (SP p) (T p) <= Rsum (map (fun p => Fpot (SP p) (T p)) (pairs k))) by (apply (Rsum_term (fun p => Fpot (SP p) (T p))); auto; intros q Hq; apply Fpot_nonneg, HS, in_pairs, Hq). lra.
Qed.
Lemma dual_lin st y st' : dual st (pairs k) j y - dual st' (pairs k) j y = Rsum (map (fun p => (zat st p j - zat st' p j) * (y (snd p) - y (fst p))) (pairs k)).
Proof. unfold dual. induction (pairs k) as [|p l IH]; cbn [map Rsum]; [ring|]. rewrite <- IH. ring. Qed.
Lemma sq_dist C a b : (forall m p, In p (pairs k) -> Rabs (zat (sq m) p j) <= C) -> 0 <= C ->
  RS k (fun i => (col (sq (Datatypes.S a)) j i - col (sq (Datatypes.S b)) j i) * (col (sq (Datatypes.S a)) j i - col (sq (Datatypes.S b)) j i)) <= INR (length (pairs k)) * (C * (mu a + mu b)).
Proof.
  intros HC HC0. set (A := sq (Datatypes.S a)). set (B := sq (Datatypes.S b)). set (y := fun i => col A j i - col B j i).
  pose proof (sweeps_lin k S n x (Datatypes.S a) j y) as H1. pose proof (sweeps_lin k S n x (Datatypes.S b) j y) as H2. fold sq in H1, H2. fold A in H1. fold B in H2.
  rewrite (RS_ext k _ (fun i => col A j i * y i - col B j i * y i)) by (intros; unfold y; ring). rewrite RS_sub.
  assert (H3 : - (dual A (pairs k) j y - dual B (pairs k) j y) <= INR (length (pairs k)) * (2 * C * (mu a + mu b))); [|lra]. rewrite dual_lin. clear H1 H2.
  destruct (good_all (Datatypes.S a)) as [T [Ha [_ Ga]]]. destruct (good_all (Datatypes.S b)) as [T' [Hb [_ Gb]]]. fold A in Ha, Ga. fold B in Hb, Gb.
  assert (G : forall l, (forall p, In p l -> In p (pairs k)) -> - Rsum (map (fun p => (zat A p j - zat B p j) * (y (snd p) - y (fst p))) l) <= INR (length l) * (2 * C * (mu a + mu b))); [|apply G; auto].
  induction l as [|p l IH]; intro H; [simpl; lra|]. cbn [map Rsum length]. rewrite S_INR. specialize (IH (fun q Hq => H q (or_intror Hq))). pose proof (H p (or_introl eq_refl)) as Hp.
  pose proof (xd_mono (SP p) (HS _ _ (proj1 (in_pairs k p) Hp)) (T p) (T' p)) as HM. rewrite <- (Ha p Hp), <- (Hb p Hp) in HM. specialize (Ga p Hp). specialize (Gb p Hp).
  assert (HZ : Rabs (zat A p j - zat B p j) <= 2 * C). { eapply Rle_trans; [apply Rabs_triang|]. rewrite Rabs_Ropp. pose proof (HC (Datatypes.S a) p Hp) as C1. pose proof (HC (Datatypes.S b) p Hp) as C2. fold A in C1. fold B in C2. lra. }
  set (zz := zat A p j - zat B p j) in *. set (ua := T p - zat A p j) in *. set (ub := T' p - zat B p j) in *.
  replace (y (snd p) - y (fst p)) with ((ua - ub) + ((dif A p - ua) - (dif B p - ub))) by (unfold y, dif; ring).
  assert (HE : Rabs (dif A p - ua - (dif B p - ub)) <= mu a + mu b). { eapply Rle_trans; [apply Rabs_triang|]. rewrite Rabs_Ropp. lra. }
  set (e := dif A p - ua - (dif B p - ub)) in *. assert (HP : Rabs (zz * e) <= 2 * C * (mu a + mu b)). { rewrite Rabs_mult. apply Rmult_le_compat; auto; apply Rabs_pos. }
  pose proof (Rle_abs (- (zz * e))) as HA. rewrite Rabs_Ropp in HA. nra.
Qed.
Lemma col_cauchy i : (i < k)%nat -> Cauchy_crit (fun m => col (sq m) j i).
Proof.
  intros Hi e He. destruct z_bounded as [C [HC0 HC]]. set (L := INR (length (pairs k)) * C + 1). assert (HL0 : 0 <= INR (length (pairs k)) * C) by (apply Rmult_le_pos; [apply pos_INR|auto]).
  destruct (mu_vanish (e * e / (2 * L))) as [N HN]; [apply Rdiv_lt_0_compat; unfold L; nra|]. exists (Datatypes.S N). intros a b Ha Hb. destruct a as [|a]; [lia|]. destruct b as [|b]; [lia|].
  pose proof (sq_dist C a b HC HC0) as H1. pose proof (HN a ltac:(lia)) as Ma. pose proof (HN b ltac:(lia)) as Mb. unfold R_dist. set (v := col (sq (Datatypes.S a)) j i - col (sq (Datatypes.S b)) j i).
  assert (H2 : v * v <= INR (length (pairs k)) * (C * (mu a + mu b))). { eapply Rle_trans; [|exact H1]. assert (G : forall h m, (forall l, 0 <= h l) -> (i < m)%nat -> h i <= RS m h).
    { intros h m Hh. induction m as [|m IH]; intro Him; [lia|]. cbn [RS]. pose proof (Hh m). destruct (Nat.eq_dec i m) as [->|]; [pose proof (RS_nonneg m h (fun l _ => Hh l)); lra|]. specialize (IH ltac:(lia)). lra. }
    apply (G (fun i => (col (sq (Datatypes.S a)) j i - col (sq (Datatypes.S b)) j i) * (col (sq (Datatypes.S a)) j i - col (sq (Datatypes.S b)) j i)) k); auto. intro; apply Rle_0_sqr. }
  assert (HM : mu a + mu b < e * e / L). { replace (e * e / L) with (e * e / (2 * L) + e * e / (2 * L)) by (field; unfold L; lra). lra. }
  assert (0 <= mu a + mu b). { assert (forall m, 0 <= mu m) by (intro; apply Rsum_nn; intros; apply Rabs_pos). pose proof (H a). pose proof (H b). lra. }
  assert (HV : v * v < e * e). { assert (INR (length (pairs k)) * (C * (mu a + mu b)) <= (INR (length (pairs k)) * C) * (e * e / L)) by (rewrite <- Rmult_assoc; apply Rmult_le_compat_l; lra).
    assert ((INR (length (pairs k)) * C) * (e * e / L) < e * e); [|lra]. replace (e * e) with (L * (e * e / L)) at 2 by (field; unfold L; lra). apply Rmult_lt_compat_r; [apply Rdiv_lt_0_compat; unfold L; nra|unfold L; lra]. }
  apply Rabs_def1; nra.
Qed.
Lemma lim_exists : exists P : nat -> R, forall i, (i < k)%nat -> Un_cv (fun m => col (sq m) j i) (P i).
Proof.
  exists (fun i => match lt_dec i k with left H => proj1_sig (R_complete _ (col_cauchy i H)) | right _ => 0 end). intros i Hi. destruct (lt_dec i k) as [H|H]; [|contradiction]. exact (proj2_sig (R_complete _ (col_cauchy i H))).
Qed.
Lemma lim_proj P : (forall i, (i < k)%nat -> Un_cv (fun m => col (sq m) j i) (P i)) ->
  exists S', (forall i1 i2, (i1 < i2 < k)%nat -> S i1 i2 <= S' i1 i2 <= S i1 i2 + / 10 ^ 10) /\ is_colproj k (Kset k S') (rcol n x j) P.
Proof.
  intro HP. pose proof eps_pos as He. change (/ 10 ^ 10) with eps.
  (* eventually the remaining differences are close to those of P *)
  assert (HU : forall e, 0 < e -> exists N, forall m, (N <= m)%nat -> exists T, (forall p, In p (pairs k) -> zat (sq m) p j = xdtilde (SP p) (T p)) /\ forall p, In p (pairs k) -> Rabs (T p - zat (sq m) p j - (P (snd p) - P (fst p))) < e).
  { intros e He0. destruct (mu_vanish (e / 3) ltac:(lra)) as [N1 HN1].
    assert (HX : exists N2, forall m i, (N2 <= m)%nat -> (i < k)%nat -> Rabs (col (sq m) j i - P i) < e / 3).
    { assert (G : forall q, (q <= k)%nat -> exists N2, forall m i, (N2 <= m)%nat -> (i < q)%nat -> Rabs (col (sq m) j i - P i) < e / 3).
      { induction q as [|q IH]; intro Hq; [exists 0%nat; intros; lia|]. destruct (IH ltac:(lia)) as [Na Ha]. destruct (HP q ltac:(lia) (e / 3) ltac:(lra)) as [Nb Hb]. exists (Nat.max Na Nb). intros m i Hm Hi.
        destruct (Nat.eq_dec i q) as [->|]; [apply Hb; lia|apply Ha; lia]. }
      apply (G k); lia. }
    destruct HX as [N2 HN2]. exists (Datatypes.S (Nat.max N1 N2)). intros m Hm. destruct m as [|m]; [lia|]. destruct (good_all (Datatypes.S m)) as [T [Ha [_ Hg]]]. exists T. split; [exact Ha|]. intros p Hp.
    specialize (Hg p Hp). pose proof (HN1 m ltac:(lia)) as Hmu. pose proof (proj1 (in_pairs k p) Hp) as Hlt. pose proof (HN2 (Datatypes.S m) (snd p) ltac:(lia) ltac:(lia)) as H1. pose proof (HN2 (Datatypes.S m) (fst p) ltac:(lia) ltac:(lia)) as H2.
    unfold dif in Hg. apply Rabs_def2 in H1. apply Rabs_def2 in H2. apply abs_le in Hg. apply Rabs_def1; lra. }
  assert (HB : forall i1 i2, (i1 < i2 < k)%nat -> Rabs (P i2 - P i1) <= S i1 i2 + eps).
  { intros i1 i2 Hi. apply le_epsilon. intros e He0. destruct (HU e He0) as [N HN]. destruct (HN N (le_n N)) as [T [Ha Hb]]. pose proof (proj2 (in_pairs k (i1, i2)) Hi) as Hp. specialize (Hb _ Hp). specialize (Ha _ Hp). cbn [fst snd] in Hb.
    assert (Hg : Rabs (T (i1, i2) - zat (sq N) (i1, i2) j) <= S i1 i2 + eps). { rewrite Ha. destruct (xd_gap (SP (i1, i2)) (T (i1, i2)) (HS _ _ Hi)) as [[_ H]|[[_ H] _]]; unfold SP in *; cbn [fst snd] in *; lra. }
    apply Rabs_def2 in Hb. apply abs_le in Hg. apply Rabs_le. lra. }
  exists (fun i1 i2 => Rmax (S i1 i2) (Rabs (P i2 - P i1))). split.
  - intros i1 i2 Hi. split; [apply Rmax_l|]. apply Rmax_lub; [lra|apply HB; auto].
  - apply colproj_vi; [intros i1 i2 Hi; apply Rmax_r|]. intros q Hq. set (y := fun i => q i - P i).
    assert (HD : exists N, forall m, (N <= m)%nat -> dual (sq m) (pairs k) j y <= 0).
    { assert (G : forall p, In p (pairs k) -> exists N, forall m, (N <= m)%nat -> zat (sq m) p j * (y (snd p) - y (fst p)) <= 0).
      { intros p Hp. pose proof (proj1 (in_pairs k p) Hp) as Hi. specialize (Hq _ _ Hi). cbv beta in Hq. set (d := P (snd p) - P (fst p)) in *. set (e := q (snd p) - q (fst p)) in *.
        replace (y (snd p) - y (fst p)) with (e - d) by (unfold y, e, d; ring). fold (SP p) in Hq. pose proof (HS _ _ Hi) as HSp. fold (SP p) in HSp.
        destruct (Rlt_le_dec (Rabs d) (SP p)) as [H|H].
        - destruct (HU (SP p - Rabs d) ltac:(lra)) as [N HN]. exists N. intros m Hm. destruct (HN m Hm) as [T [Ha Hb]]. specialize (Hb p Hp). fold d in Hb. specialize (Ha p Hp).
          assert (HA : Rabs (T p - zat (sq m) p j) < SP p). { replace (T p - zat (sq m) p j) with ((T p - zat (sq m) p j - d) + d) by ring. eapply Rle_lt_trans; [apply Rabs_triang|]. lra. }
          rewrite Ha in HA. destruct (xd_gap (SP p) (T p) HSp) as [[H1 _]|[[H1 _] _]]; [rewrite Ha, H1; lra|lra].
        - rewrite Rmax_right in Hq by lra. apply abs_le in Hq. destruct (Rtotal_order d 0) as [Hd|[Hd|Hd]].
          + destruct (HU (- d) ltac:(lra)) as [N HN]. exists N. intros m Hm. destruct (HN m Hm) as [T [Ha Hb]]. specialize (Hb p Hp). fold d in Hb. specialize (Ha p Hp). apply Rabs_def2 in Hb. rewrite Rabs_left in Hq by lra.
            destruct (xd_gap (SP p) (T p) HSp) as [[H1 _]|[_ [H1 _]]]; rewrite <- Ha in H1; [rewrite H1; lra|]. assert (zat (sq m) p j <= 0) by nra. nra.
          + exists 0%nat. intros m _. rewrite Hd, Rabs_R0 in Hq. replace e with 0 by lra. rewrite Hd. lra.
          + destruct (HU d ltac:(lra)) as [N HN]. exists N. intros m Hm. destruct (HN m Hm) as [T [Ha Hb]]. specialize (Hb p Hp). fold d in Hb. specialize (Ha p Hp). apply Rabs_def2 in Hb. rewrite Rabs_right in Hq by lra.
            destruct (xd_gap (SP p) (T p) HSp) as [[H1 _]|[_ [H1 _]]]; rewrite <- Ha in H1; [rewrite H1; lra|]. assert (0 <= zat (sq m) p j) by nra. nra. }
      assert (GL : forall l, (forall p, In p l -> In p (pairs k)) -> exists N, forall m, (N <= m)%nat -> forall p, In p l -> zat (sq m) p j * (y (snd p) - y (fst p)) <= 0).
      { induction l as [|p l IH]; intro H; [exists 0%nat; intros ? _ ? []|]. destruct (IH (fun r Hr => H r (or_intror Hr))) as [Na Ha]. destruct (G p (H p (or_introl eq_refl))) as [Nb Hb]. exists (Nat.max Na Nb). intros m Hm r [<-|Hr]; [apply Hb; lia|apply Ha; auto; lia]. }
      destruct (GL (pairs k) (fun p Hp => Hp)) as [N HN]. exists N. intros m Hm. apply dual_le0. intros p Hp. apply HN; auto. }
    destruct HD as [N HN]. change (RS k (fun i => (rcol n x j i - P i) * y i) <= 0).
    assert (HL : Un_cv (fun m => RS k (fun i => (rcol n x j i - col (sq m) j i) * y i)) (RS k (fun i => (rcol n x j i - P i) * y i))).
    { clear - HP. assert (G : forall b, (b <= k)%nat -> Un_cv (fun m => RS b (fun i => (rcol n x j i - col (sq m) j i) * y i)) (RS b (fun i => (rcol n x j i - P i) * y i))); [|apply G; lia].
      induction b as [|b IH]; intro Hq; cbn [RS]; [intros e He; exists 0%nat; intros; unfold R_dist; rewrite Rminus_0_r, Rabs_R0; auto|].
      apply (CV_plus _ (fun m => (rcol n x j b - col (sq m) j b) * y b)); [apply IH; lia|]. apply (CV_mult _ (fun _ => y b)); [apply (CV_minus (fun _ => rcol n x j b)); [|apply HP; lia]|]; intros e He; exists 0%nat; intros; unfold R_dist; rewrite Rminus_eq_0, Rabs_R0; auto. }
    apply Rnot_lt_le. intro Hpos. destruct (HL _ Hpos) as [N2 HN2]. specialize (HN2 (Nat.max N N2) ltac:(lia)). specialize (HN (Nat.max N N2) ltac:(lia)). unfold R_dist in HN2. apply Rabs_def2 in HN2.
    pose proof (sweeps_lin k S n x (Nat.max N N2) j y) as HS2. fold sq in HS2.
    rewrite (RS_ext k (fun i => (rcol n x j i - col (sq (Nat.max N N2)) j i) * y i) (fun i => tab n x i j * y i - col (sq (Nat.max N N2)) j i * y i)) in HN2 by (intros; unfold rcol; ring). rewrite RS_sub in HN2. lra.
Qed.
End Energy.

(*! C37_converges : with the stopping test disabled (tol <= 0) the result converges, as the number of sweeps grows, to the exact projection of each input column on constraints
   |x_i2 - x_i1| <= S'(i1,i2) with S' between S and S + 1e-10; the regulariser 1e-10 in the code is the only source of the difference *)
Lemma C37_converges_l : forall k n sg S x, (0 < n)%nat -> length x = (k * n)%nat -> sig_is k sg S ->
  forall j, (j < n)%nat -> exists S' P, (forall i1 i2, (i1 < i2 < k)%nat -> S i1 i2 <= S' i1 i2 <= S i1 i2 + / 10 ^ 10) /\ is_colproj k (Kset k S') (rcol n x j) P /\
    forall e, 0 < e -> exists N, forall niter tol, (N <= niter)%nat -> tol <= 0 -> exists r, inter_proj k n sg niter tol x = Ok (r, r) /\ forall i, (i < k)%nat -> Rabs (rcol n r j i - P i) < e.
Proof.
  intros k n sg S x Hn HL HS j Hj. assert (HS0 : forall i1 i2, (i1 < i2 < k)%nat -> 0 <= S i1 i2) by (intros; apply HS; auto).
  destruct (lim_exists k S j HS0 n x) as [P HP]. destruct (lim_proj k S j HS0 n x P HP) as [S' [H1 H2]]. exists S', P. split; [exact H1|]. split; [exact H2|]. intros e He.
  assert (HX : exists N2, forall m i, (N2 <= m)%nat -> (i < k)%nat -> Rabs (col (sq k S n x m) j i - P i) < e).
  { assert (G : forall q, (q <= k)%nat -> exists N2, forall m i, (N2 <= m)%nat -> (i < q)%nat -> Rabs (col (sq k S n x m) j i - P i) < e).
    { induction q as [|q IH]; intro Hq; [exists 0%nat; intros; lia|]. destruct (IH ltac:(lia)) as [Na Ha]. destruct (HP q ltac:(lia) e He) as [Nb Hb]. exists (Nat.max Na Nb). intros m i Hm Hi.
      destruct (Nat.eq_dec i q) as [->|]; [apply Hb; lia|apply Ha; lia]. }
    apply (G k); lia. }
  destruct HX as [N HN]. exists N. intros niter tol Hni Ht. destruct (inter_run k n sg S x niter tol Hn HL HS) as [m [E1 [_ [_ Hm]]]].
  assert (Em : m = niter). { destruct Hm as [->|[_ HC]]; [reflexivity|]. exfalso. specialize (HC 0%nat ltac:(lia)). assert (0 <= RS k (fun i => Rabs (col (sweeps k S (start n x) m) 0 i - col (sweeps k S (start n x) (m - 1)) 0 i))) by (apply RS_nonneg; intros; apply Rabs_pos). lra. }
  subst m. eexists. split; [exact E1|]. intros i Hi. unfold rcol. rewrite flat_get by auto. apply HN; auto.
Qed.
