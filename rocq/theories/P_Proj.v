(** * Proofs about the hyperplane-box, simplex and L1-ball projections (M_Proj.v) *)
From Verif Require Import Base Space Spec SpecOps ConvexFacts M_ProxOp M_L1 P_L1 MatFacts VSum M_Proj SeqFacts.
From Coq Require Import Psatz.
From Verif Require Export S_Proj.
Open Scope result_scope.

(** ** Specification *)

Lemma Ok_inj {A} (a b : A) : Ok a = Ok b -> a = b.
Proof. congruence. Qed.

(** ** clip *)
Ltac clip_tac lo hi := unfold within, bounds_ok, clip in *; destruct lo as [?l|], hi as [?u|]; cbn [fst snd] in *;
  repeat match goal with H : forall l, Some ?a = Some l -> _ |- _ => specialize (H a eq_refl) | H : forall l u, (Some ?a, Some ?b) = (Some l, Some u) -> _ |- _ => specialize (H a b eq_refl) end;
  unfold Rmax, Rmin; repeat destruct (Rle_dec _ _); try split; intros; try congruence;
  repeat match goal with H : Some _ = Some _ |- _ => injection H as <- end.
Lemma clip_within lu a : bounds_ok lu -> within lu (clip lu a).
Proof. intro H. destruct lu as [lo hi]. clip_tac lo hi; lra. Qed.
Lemma clip_vi lu a y : bounds_ok lu -> within lu y -> (a - clip lu a) * (y - clip lu a) <= 0.
Proof. intros H [H1 H2]. destruct lu as [lo hi]. clip_tac lo hi; nra. Qed.
Lemma clip_mono lu a b : a <= b -> 0 <= clip lu b - clip lu a <= b - a.
Proof. intros H. destruct lu as [lo hi]. unfold clip. destruct lo as [l|], hi as [u|]; cbn [fst snd]; unfold Rmax, Rmin; repeat destruct (Rle_dec _ _); lra. Qed.
Lemma clip_id lu a : within lu a -> clip lu a = a.
Proof. intros [H1 H2]. destruct lu as [lo hi]. unfold clip. destruct lo as [l|], hi as [u|]; cbn [fst snd] in *; try specialize (H1 _ eq_refl); try specialize (H2 _ eq_refl); unfold Rmax, Rmin; repeat destruct (Rle_dec _ _); lra. Qed.

Section HP.
Context {n : nat} (c : Vec n) (s : R) (lu : nat -> bounds) (Hok : lu_ok n lu) (x : Vec n).
Let f := hp_fun c s lu x.
Let yv (mu : R) : Vec n := boxv lu (x [-] mu [*] c).

Lemma get_yv mu i : (i < n)%nat -> get (yv mu) i = clip (lu i) (get x i - mu * get c i).
Proof. intro H. unfold yv, boxv. rewrite get_vtab, get_sub, get_scal by auto. reflexivity. Qed.
Lemma hp_fun_RS mu : f mu = RS n (fun i => get c i * clip (lu i) (get x i - mu * get c i)) - s.
Proof. unfold f, hp_fun. fold (yv mu). rewrite vec_inner. f_equal. apply RS_ext. intros i Hi. rewrite get_yv by auto. reflexivity. Qed.
Lemma entry_mono i mu mu' : mu <= mu' ->
  0 <= get c i * clip (lu i) (get x i - mu * get c i) - get c i * clip (lu i) (get x i - mu' * get c i) <= get c i * get c i * (mu' - mu).
Proof.
  intro H. set (ci := get c i). destruct (Rle_dec 0 ci) as [Hc|Hc].
  - destruct (clip_mono (lu i) (get x i - mu' * ci) (get x i - mu * ci)) as [A B]; [nra|]. split; nra.
  - destruct (clip_mono (lu i) (get x i - mu * ci) (get x i - mu' * ci)) as [A B]; [nra|]. split; nra.
Qed.
Lemma hp_fun_mono mu mu' : mu <= mu' -> 0 <= f mu - f mu' <= norm2 c * (mu' - mu).
Proof.
  intro H. rewrite !hp_fun_RS, vec_norm2, <- RS_scal_r.
  match goal with |- 0 <= ?a - s - (?b - s) <= _ => replace (a - s - (b - s)) with (a - b) by ring end. rewrite <- RS_sub. split.
  - apply RS_nonneg. intros. apply entry_mono; auto.
  - apply RS_le. intros. apply entry_mono; auto.
Qed.
Lemma hp_fun_cont : continuity f.
Proof.
  intros m eps He. assert (0 <= norm2 c) by apply inner_pos. exists (eps / (norm2 c + 1)). split; [apply Rdiv_lt_0_compat; lra|].
  intros m' [_ Hd]. change (R_dist m' m < eps / (norm2 c + 1)) in Hd. change (R_dist (f m') (f m) < eps). unfold R_dist in *.
  assert (Hb : Rabs (m' - m) * (norm2 c + 1) < eps).
  { replace eps with (eps / (norm2 c + 1) * (norm2 c + 1)) by (field; lra). apply Rmult_lt_compat_r; lra. }
  destruct (Rle_dec m m') as [Hm|Hm].
  - pose proof (hp_fun_mono m m' Hm). rewrite Rabs_right in Hb by lra. rewrite Rabs_left1 by lra. nra.
  - pose proof (hp_fun_mono m' m ltac:(lra)). rewrite Rabs_left in Hb by lra. rewrite Rabs_right by lra. nra.
Qed.
Lemma hp_ivt lo hi : lo <= hi -> 0 <= f lo -> f hi <= 0 -> exists m, lo <= m <= hi /\ f m = 0.
Proof. intros H H1 H2. destruct (IVT_cor f lo hi hp_fun_cont H) as [z [Hz1 Hz2]]; [nra|]. exists z. auto. Qed.

(** a root gives the projection *)
Lemma hp_root_proj mu : f mu = 0 -> is_proj (hp_set c s lu) x (yv mu).
Proof.
  intro H. unfold f, hp_fun in H. fold (yv mu) in H. apply vi_proj.
  - split; [lra|]. intros i Hi. rewrite get_yv by auto. apply clip_within, Hok; auto.
  - intros y [Hy1 Hy2].
    replace << x [-] yv mu, y [-] yv mu >> with (<< (x [-] mu [*] c) [-] yv mu, y [-] yv mu >> + mu * (<< c, y >> - << c, yv mu >>)) by (iexp; ring).
    replace << c, yv mu >> with s by lra. rewrite Hy1. replace (s - s) with 0 by ring. rewrite Rmult_0_r, Rplus_0_r.
    rewrite vec_inner. rewrite <- (RS_zero n). apply RS_le. intros i Hi. rewrite !get_sub, get_scal, get_yv by auto. apply clip_vi; auto.
Qed.
Lemma yv_lip mu mu' : norm (yv mu [-] yv mu') <= Rabs (mu - mu') * norm c.
Proof.
  apply norm_le_of_sq; [apply Rmult_le_pos; [apply Rabs_pos|apply norm_nonneg]|].
  replace (Rabs (mu - mu') * norm c * (Rabs (mu - mu') * norm c)) with (Rabs (mu - mu') * Rabs (mu - mu') * (norm c * norm c)) by ring.
  rewrite norm_sq, <- Rabs_mult, Rabs_right by (apply Rle_ge, Rle_0_sqr). rewrite !vec_norm2, <- RS_scal. apply RS_le. intros i Hi.
  rewrite get_sub, !get_yv by auto. set (a := get x i - mu * get c i). set (b := get x i - mu' * get c i).
  replace ((mu - mu') * (mu - mu') * (get c i * get c i)) with ((a - b) * (a - b)) by (unfold a, b; ring).
  destruct (Rle_dec a b) as [H|H]; [pose proof (clip_mono (lu i) a b H)|pose proof (clip_mono (lu i) b a ltac:(lra))]; nra.
Qed.

(** a feasible point bounds the bracket *)
Definition reach (z : Vec n) : R := RS n (fun i => if Req_EM_T (get c i) 0 then 0 else Rabs (get z i - get x i) / Rabs (get c i)).
Lemma reach_nonneg z : 0 <= reach z.
Proof. apply RS_nonneg. intros. destruct (Req_EM_T _ _); [lra|]. apply Rmult_le_pos; [apply Rabs_pos|]. apply Rlt_le, Rinv_0_lt_compat, Rabs_pos_lt; auto. Qed.
Lemma RS_ge_one m h i : (forall j, (j < m)%nat -> 0 <= h j) -> (i < m)%nat -> h i <= RS m h.
Proof.
  induction m as [|m IH]; intros Hp Hi; [lia|]. cbn [RS]. destruct (Nat.eq_dec i m) as [->|]; [pose proof (RS_nonneg m h (fun j Hj => Hp j ltac:(lia))); lra|].
  pose proof (IH (fun j Hj => Hp j ltac:(lia)) ltac:(lia)). pose proof (Hp m ltac:(lia)). lra.
Qed.
Lemma reach_entry z i : (i < n)%nat -> Rabs (get z i - get x i) <= reach z * Rabs (get c i) \/ get c i = 0.
Proof.
  intro Hi. destruct (Req_EM_T (get c i) 0) as [H|H]; [right; auto|left].
  assert (E : Rabs (get z i - get x i) / Rabs (get c i) <= reach z).
  { unfold reach. set (h := fun i => if Req_EM_T (get c i) 0 then 0 else Rabs (get z i - get x i) / Rabs (get c i)).
    replace (Rabs (get z i - get x i) / Rabs (get c i)) with (h i) by (unfold h; destruct (Req_EM_T _ _); [contradiction|reflexivity]).
    apply (RS_ge_one n h i); auto. intros j _. unfold h. destruct (Req_EM_T _ _); [lra|]. apply Rmult_le_pos; [apply Rabs_pos|]. apply Rlt_le, Rinv_0_lt_compat, Rabs_pos_lt; auto. }
  assert (0 < Rabs (get c i)) by (apply Rabs_pos_lt; auto).
  replace (Rabs (get z i - get x i)) with (Rabs (get z i - get x i) / Rabs (get c i) * Rabs (get c i)) by (field; lra). apply Rmult_le_compat_r; lra.
Qed.
Lemma clip_ge lu' a z : within lu' z -> z <= a -> z <= clip lu' a.
Proof. intros H1 H2. pose proof (clip_id lu' z H1). pose proof (clip_mono lu' z a H2). lra. Qed.
Lemma clip_le lu' a z : within lu' z -> a <= z -> clip lu' a <= z.
Proof. intros H1 H2. pose proof (clip_id lu' z H1). pose proof (clip_mono lu' a z H2). lra. Qed.
Lemma hp_low z mu : hp_set c s lu z -> mu <= - reach z -> 0 <= f mu.
Proof.
  intros [Hz1 Hz2] Hm. rewrite hp_fun_RS. rewrite vec_inner in Hz1. rewrite <- Hz1. rewrite <- RS_sub. apply RS_nonneg. intros i Hi.
  destruct (reach_entry z i Hi) as [H| ->]; [|lra]. pose proof (reach_nonneg z). set (ci := get c i) in *.
  assert (HA : z = z) by auto. destruct (Rle_dec 0 ci) as [Hc|Hc].
  - rewrite (Rabs_right ci) in H by lra. pose proof (Rle_abs (get z i - get x i)).
    pose proof (clip_ge (lu i) (get x i - mu * ci) (get z i) (Hz2 i Hi) ltac:(nra)). nra.
  - rewrite (Rabs_left ci) in H by lra. pose proof (Rle_abs (- (get z i - get x i))). rewrite Rabs_Ropp in *.
    pose proof (clip_le (lu i) (get x i - mu * ci) (get z i) (Hz2 i Hi) ltac:(nra)). nra.
Qed.
Lemma hp_high z mu : hp_set c s lu z -> reach z <= mu -> f mu <= 0.
Proof.
  intros [Hz1 Hz2] Hm. rewrite hp_fun_RS. rewrite vec_inner in Hz1. rewrite <- Hz1.
  assert (0 <= RS n (fun i => get c i * get z i) - RS n (fun i => get c i * clip (lu i) (get x i - mu * get c i))); [|lra].
  rewrite <- RS_sub. apply RS_nonneg. intros i Hi.
  destruct (reach_entry z i Hi) as [H| ->]; [|lra]. pose proof (reach_nonneg z). set (ci := get c i) in *.
  destruct (Rle_dec 0 ci) as [Hc|Hc].
  - rewrite (Rabs_right ci) in H by lra. pose proof (Rle_abs (- (get z i - get x i))). rewrite Rabs_Ropp in *.
    pose proof (clip_le (lu i) (get x i - mu * ci) (get z i) (Hz2 i Hi) ltac:(nra)). nra.
  - rewrite (Rabs_left ci) in H by lra. pose proof (Rle_abs (get z i - get x i)).
    pose proof (clip_ge (lu i) (get x i - mu * ci) (get z i) (Hz2 i Hi) ltac:(nra)). nra.
Qed.
End HP.

(** ** the loops *)
Lemma double_while_spec bad fuel : forall b v, double_while bad fuel b = Ok v -> bad v = false /\ exists k, v = b * 2 ^ k.
Proof.
  induction fuel as [|fuel IH]; intros b v H; [discriminate|]. cbn [double_while] in H. destruct (bad b) eqn:E.
  - destruct (IH _ _ H) as [A [k ->]]. split; auto. exists (S k). simpl. ring.
  - injection H as <-. split; auto. exists 0%nat. simpl. ring.
Qed.
Lemma double_while_diverges bad : (forall k b, bad (b * 2 ^ k) = true) -> forall fuel b, double_while bad fuel b = Err Diverges.
Proof.
  intros H fuel. induction fuel as [|fuel IH]; intro b; auto. cbn [double_while]. rewrite <- (Rmult_1_r b) at 1. change 1 with (2 ^ 0) at 1. rewrite H. apply IH.
Qed.
Lemma double_while_total bad k : forall b, bad (b * 2 ^ k) = false -> forall fuel, (k < fuel)%nat -> exists v, double_while bad fuel b = Ok v.
Proof.
  induction k as [|k IH]; intros b H fuel Hf; (destruct fuel as [|fuel]; [lia|]); cbn [double_while].
  - simpl in H. rewrite Rmult_1_r in H. rewrite H. eauto.
  - destruct (bad b); [|eauto]. apply IH; [|lia]. replace (b * 2 * 2 ^ k) with (b * 2 ^ S k) by (simpl; ring). auto.
Qed.
Lemma pow2_above M : exists k, M <= 2 ^ k.
Proof. destruct (Pow_x_infinity 2 ltac:(rewrite Rabs_right; lra) M) as [N HN]. exists N. specialize (HN N (le_n N)). rewrite Rabs_right in HN; [lra|]. apply Rle_ge, pow_le. lra. Qed.

Lemma bracket_spec f fuel lo hi : hp_bracket f fuel = Ok (lo, hi) -> lo <= -1 /\ 1 <= hi /\ 0 <= f lo /\ f hi <= 0.
Proof.
  unfold hp_bracket. destruct (double_while _ fuel (-1)) as [l|] eqn:E1; cbn [bind]; [|discriminate].
  destruct (double_while _ fuel 1) as [h|] eqn:E2; cbn [bind]; [|discriminate]. intros [= <- <-].
  apply double_while_spec in E1 as [A [k ->]]. apply double_while_spec in E2 as [B [j ->]]. apply Rltb_false in A. apply Rltb_false in B.
  assert (1 <= 2 ^ k) by (apply pow_R1_Rle; lra). assert (1 <= 2 ^ j) by (apply pow_R1_Rle; lra). repeat split; auto; lra.
Qed.

Lemma double_while_last bad fuel : forall b v, double_while bad fuel b = Ok v -> v = b \/ bad (v / 2) = true.
Proof.
  induction fuel as [|fuel IH]; intros b v H; [discriminate|]. cbn [double_while] in H. destruct (bad b) eqn:E; [|injection H as <-; auto].
  right. destruct (IH _ _ H) as [->|]; auto. replace (b * 2 / 2) with b by field. auto.
Qed.
Lemma bracket_last f fuel lo hi : hp_bracket f fuel = Ok (lo, hi) -> (lo = -1 \/ f (lo / 2) < 0) /\ (hi = 1 \/ 0 < f (hi / 2)).
Proof.
  unfold hp_bracket. destruct (double_while _ fuel (-1)) as [l|] eqn:E1; cbn [bind]; [|discriminate].
  destruct (double_while _ fuel 1) as [h|] eqn:E2; cbn [bind]; [|discriminate]. intros [= <- <-].
  apply double_while_last in E1. apply double_while_last in E2. rewrite Rltb_true in E1, E2. auto.
Qed.

(** scipy bisect on a decreasing function with a bracket *)
Section Bisect.
Context (f : R -> R) (Hivt : forall lo hi, lo <= hi -> 0 <= f lo -> f hi <= 0 -> exists m, lo <= m <= hi /\ f m = 0).
Lemma same_sign_pos a b : 0 < b -> a <> 0 -> same_sign a b = true -> 0 < a.
Proof. unfold same_sign. intros Hb Ha. destruct (Rltb_spec b 0) as [[? ->]|[? ->]]; [lra|]. destruct (Rltb_spec a 0) as [[? ->]|[? ->]]; simpl; [discriminate|lra]. Qed.
Lemma same_sign_neg a b : 0 < b -> same_sign a b = false -> a < 0.
Proof. unfold same_sign. intros Hb. destruct (Rltb_spec b 0) as [[? ->]|[? ->]]; [lra|]. destruct (Rltb_spec a 0) as [[? ->]|[? ->]]; simpl; auto; discriminate. Qed.
Lemma bisect_loop_spec xtol fa m : 0 < fa -> forall xa dm mu, 0 <= dm -> 0 < f xa -> f (xa + dm) <= 0 ->
  bisect_loop f xtol fa m xa dm = Ok mu -> exists mo, f mo = 0 /\ (mo = mu \/ Rabs (mu - mo) < xtol + bisect_rtol * Rabs mu).
Proof.
  intro Hfa. induction m as [|m IH]; intros xa dm mu Hd H1 H2; [discriminate|]. cbn [bisect_loop].
  set (xm := xa + dm / 2). destruct (Reqb_spec (f xm) 0) as [[Hz ->]|[Hz ->]]; cbn [orb].
  - intros [= <-]. exists xm. auto.
  - destruct (Rltb_spec (Rabs (dm / 2)) (xtol + bisect_rtol * Rabs xm)) as [[Ht ->]|[Ht ->]].
    + intros [= <-]. destruct (Hivt xa (xa + dm)) as [mo [Hm1 Hm2]]; [lra|lra|auto|]. exists mo. split; auto. right.
      eapply Rle_lt_trans; [|exact Ht]. rewrite (Rabs_right (dm / 2)) by lra. unfold xm. apply Rabs_le. lra.
    + destruct (same_sign (f xm) fa) eqn:Es.
      * apply IH; [lra|apply (same_sign_pos _ fa); auto|]. replace (xm + dm / 2) with (xa + dm) by (unfold xm; field). auto.
      * apply IH; [lra|auto|]. apply same_sign_neg in Es; auto. fold xm. lra.
Qed.
Lemma bisect_loop_total xtol fa m : 0 < xtol -> forall xa dm, 0 <= dm -> dm < xtol * 2 ^ m -> (0 < m)%nat -> exists mu, bisect_loop f xtol fa m xa dm = Ok mu.
Proof.
  intro Hx. assert (0 <= bisect_rtol) by (unfold bisect_rtol; apply Rlt_le, Rdiv_lt_0_compat; [lra|apply pow_lt; lra]).
  induction m as [|m IH]; intros xa dm Hd H1 H2; [lia|]. cbn [bisect_loop]. set (xm := xa + dm / 2).
  destruct (Reqb (f xm) 0); cbn [orb]; [eauto|]. destruct (Rltb_spec (Rabs (dm / 2)) (xtol + bisect_rtol * Rabs xm)) as [[Ht ->]|[Ht ->]]; [eauto|].
  rewrite (Rabs_right (dm / 2)) in Ht by lra. pose proof (Rabs_pos xm). destruct m as [|m]; [simpl in H1; nra|]. apply IH; [lra| |lia]. simpl in *. nra.
Qed.
Lemma bisect_spec lo hi m xtol mu : lo <= hi -> 0 <= f lo -> f hi <= 0 -> bisect f lo hi m xtol = Ok mu ->
  exists mo, f mo = 0 /\ Rabs (mu - mo) <= xtol + bisect_rtol * Rabs mu.
Proof.
  intros H H1 H2. unfold bisect. destruct (Rleb_spec xtol 0) as [[? ->]|[Hx ->]]; [discriminate|].
  assert (Hr : 0 <= bisect_rtol) by (unfold bisect_rtol; apply Rlt_le, Rdiv_lt_0_compat; [lra|apply pow_lt; lra]).
  assert (Hs : forall v, Rabs (v - v) <= xtol + bisect_rtol * Rabs v) by (intro v; replace (v - v) with 0 by ring; rewrite Rabs_R0; pose proof (Rabs_pos v); nra).
  destruct (Reqb_spec (f lo) 0) as [[Ha ->]|[Ha ->]]; [intros [= <-]; exists lo; auto|].
  destruct (Reqb_spec (f hi) 0) as [[Hb ->]|[Hb ->]]; [intros [= <-]; exists hi; auto|].
  destruct (same_sign (f lo) (f hi)); [discriminate|]. intro E. apply bisect_loop_spec in E; try lra.
  - destruct E as [mo [E1 [E2|E2]]]; exists mo; (split; [auto|]); [rewrite E2; apply Hs|lra].
  - replace (lo + (hi - lo)) with hi by ring. auto.
Qed.
Lemma bisect_loop_in xtol fa m : forall xa dm mu, 0 <= dm -> bisect_loop f xtol fa m xa dm = Ok mu -> xa <= mu <= xa + dm.
Proof.
  induction m as [|m IH]; intros xa dm mu Hd; [discriminate|]. cbn [bisect_loop]. destruct (_ || _)%bool; [intros [= <-]; lra|].
  destruct (same_sign _ fa); intro E; apply IH in E; lra.
Qed.
Lemma bisect_in lo hi m xtol mu : lo <= hi -> bisect f lo hi m xtol = Ok mu -> lo <= mu <= hi.
Proof.
  intro H. unfold bisect. destruct (Rleb xtol 0); [discriminate|]. destruct (Reqb (f lo) 0); [intros [= <-]; lra|]. destruct (Reqb (f hi) 0); [intros [= <-]; lra|].
  destruct (same_sign (f lo) (f hi)); [discriminate|]. intro E. apply bisect_loop_in in E; lra.
Qed.
Lemma bisect_total lo hi m xtol : lo <= hi -> 0 <= f lo -> f hi <= 0 -> 0 < xtol -> hi - lo < xtol * 2 ^ m -> (0 < m)%nat -> exists mu, bisect f lo hi m xtol = Ok mu.
Proof.
  intros H H1 H2 Hx Hw Hm. unfold bisect. destruct (Rleb_spec xtol 0) as [[? ->]|[_ ->]]; [lra|].
  destruct (Reqb_spec (f lo) 0) as [[Ha ->]|[Ha ->]]; [eauto|]. destruct (Reqb_spec (f hi) 0) as [[Hb ->]|[Hb ->]]; [eauto|].
  assert (Es : same_sign (f lo) (f hi) = false). { unfold same_sign. destruct (Rltb_spec (f lo) 0) as [[? ->]|[? ->]]; [lra|]. destruct (Rltb_spec (f hi) 0) as [[? ->]|[? ->]]; [reflexivity|lra]. }
  rewrite Es. apply bisect_loop_total; auto. lra.
Qed.
End Bisect.

(** the multiplier found is no larger than max(1, 2 reach z) for any feasible z *)
Lemma mu_bound n (c : Vec n) s lu x fuel lo hi mu z : hp_bracket (hp_fun c s lu x) fuel = Ok (lo, hi) -> lo <= mu <= hi -> hp_set c s lu z ->
  Rabs mu <= Rmax 1 (2 * reach c x z).
Proof.
  intros Hb Hm Hz. destruct (bracket_last _ _ _ _ Hb) as [Hl Hh]. pose proof (Rmax_l 1 (2 * reach c x z)). pose proof (Rmax_r 1 (2 * reach c x z)).
  apply Rabs_le. split.
  - destruct Hl as [->|Hl]; [lra|]. destruct (Rle_dec (lo / 2) (- reach c x z)) as [H1|H1]; [pose proof (hp_low c s lu x z (lo / 2) Hz H1); lra|lra].
  - destruct Hh as [->|Hh]; [lra|]. destruct (Rle_dec (reach c x z) (hi / 2)) as [H1|H1]; [pose proof (hp_high c s lu x z (hi / 2) Hz H1); lra|lra].
Qed.
Lemma rtol_nonneg : 0 <= bisect_rtol.
Proof. unfold bisect_rtol. apply Rlt_le, Rdiv_lt_0_compat; [lra|apply pow_lt; lra]. Qed.

(*! C23_result : bounds with lower <= upper, any x, coefficients, scalar: whenever HyperPlaneBoxProj returns y, the set {c.y = s, l <= y <= u} is
   not empty, y = box(x - mu c) for some mu, y respects the bounds and is within (xtol + rtol max(1, 2 sum_i |p_i - x_i|/|c_i|)) |c| of the Euclidean
   projection p of x (sum over c_i <> 0), where rtol = 4 eps is that of the root search *)
Lemma C23_result_l : forall n (c : Vec n) s lu (x y : Vec n) maxiter xtol fuel, lu_ok n lu -> hp_proj c s lu maxiter xtol fuel x = Ok y ->
  exists p, is_proj (hp_set c s lu) x p /\ (exists mu, y = boxv lu (x [-] mu [*] c)) /\ (forall i, (i < n)%nat -> within (lu i) (get y i)) /\
    norm (y [-] p) <= (xtol + bisect_rtol * Rmax 1 (2 * RS n (fun i => if Req_EM_T (get c i) 0 then 0 else Rabs (get p i - get x i) / Rabs (get c i)))) * norm c.
Proof.
  intros n c s lu x y maxiter xtol fuel Hok. unfold hp_proj. destruct (hp_bracket _ fuel) as [[lo hi]|] eqn:Eb; cbn [bind fst snd]; [|discriminate].
  assert (Eb' := Eb). apply bracket_spec in Eb as [B1 [B2 [B3 B4]]]. destruct (bisect _ lo hi maxiter xtol) as [mu|] eqn:Em; cbn [bind]; [|discriminate]. intro Ey. apply Ok_inj in Ey. subst y.
  assert (Hin : lo <= mu <= hi) by (eapply bisect_in; [|exact Em]; lra). apply bisect_spec in Em as [mo [M1 M2]]; auto; [|apply hp_ivt|lra].
  assert (HP : is_proj (hp_set c s lu) x (boxv lu (x [-] mo [*] c))) by (apply hp_root_proj; auto).
  exists (boxv lu (x [-] mo [*] c)). split; auto. split; eauto. split.
  - intros i Hi. rewrite (get_yv c lu x mu i Hi). apply clip_within, Hok; auto.
  - pose proof (mu_bound _ _ _ _ _ _ _ _ _ _ Eb' Hin (proj1 HP)) as Hmu. pose proof rtol_nonneg as Hr.
    eapply Rle_trans; [apply yv_lip|]. apply Rmult_le_compat_r; [apply norm_nonneg|]. eapply Rle_trans; [exact M2|]. apply Rplus_le_compat_l, Rmult_le_compat_l; auto.
Qed.

(*! C23_terminates : when the set is not empty the bracketing loops end for every x (all large enough fuels give the same kind of outcome), and with
   xtol > 0 and enough bisection steps for the bracket HyperPlaneBoxProj returns *)
Lemma C23_terminates_l : forall n (c : Vec n) s lu (x : Vec n), lu_ok n lu -> (exists z, hp_set c s lu z) ->
  exists N, forall fuel, (N <= fuel)%nat -> exists lo hi, hp_bracket (hp_fun c s lu x) fuel = Ok (lo, hi) /\
    forall xtol maxiter, 0 < xtol -> (0 < maxiter)%nat -> hi - lo < xtol * 2 ^ maxiter -> exists y, hp_proj c s lu maxiter xtol fuel x = Ok y.
Proof.
  intros n c s lu x Hok [z Hz]. destruct (pow2_above (reach c x z)) as [k Hk]. exists (S k). intros fuel Hf.
  destruct (double_while_total (fun b => Rltb (hp_fun c s lu x b) 0) k (-1)) with (fuel := fuel) as [lo Hlo]; [|lia|].
  { apply Rltb_false. apply (hp_low c s lu x z); auto. lra. }
  destruct (double_while_total (fun b => Rltb 0 (hp_fun c s lu x b)) k 1) with (fuel := fuel) as [hi Hhi]; [|lia|].
  { apply Rltb_false. apply (hp_high c s lu x z); auto. lra. }
  assert (Hb : hp_bracket (hp_fun c s lu x) fuel = Ok (lo, hi)) by (unfold hp_bracket; rewrite Hlo, Hhi; reflexivity).
  exists lo, hi. split; auto. intros xtol maxiter Hx Hm Hw. unfold hp_proj. rewrite Hb. cbn [bind fst snd].
  destruct (bracket_spec _ _ _ _ Hb) as [B1 [B2 [B3 B4]]].
  destruct (bisect_total (hp_fun c s lu x) lo hi maxiter xtol) as [mu ->]; auto; [lra|]. cbn [bind]. eauto.
Qed.

(*! C23_infeasible_refuted : when the set is empty the call never returns nor raises: for every fuel the bracketing loops are still running *)
Lemma C23_infeasible_refuted_l : forall n (c : Vec n) s lu (x : Vec n), lu_ok n lu -> (forall z, ~ hp_set c s lu z) ->
  forall maxiter xtol fuel, hp_proj c s lu maxiter xtol fuel x = Err Diverges.
Proof.
  intros n c s lu x Hok He maxiter xtol fuel. unfold hp_proj. destruct (hp_bracket _ fuel) as [[lo hi]|e] eqn:Eb.
  - exfalso. destruct (bracket_spec _ _ _ _ Eb) as [B1 [B2 [B3 B4]]]. destruct (hp_ivt c s lu x lo hi) as [m [_ Hm]]; auto; [lra|].
    apply (hp_root_proj c s lu Hok x) in Hm. apply (He _ (proj1 Hm)).
  - cbn [bind]. unfold hp_bracket in Eb. assert (D : forall bad k b v, double_while bad k b = Err v -> v = Diverges).
    { intros bad k. induction k as [|k IH]; intros b v; cbn [double_while]; [congruence|]. destruct (bad b); [apply IH|discriminate]. }
    destruct (double_while _ fuel (-1)) as [l|e1] eqn:E1; cbn [bind] in Eb.
    + destruct (double_while _ fuel 1) as [h|e2] eqn:E2; cbn [bind] in Eb; [discriminate|]. apply D in E2. congruence.
    + apply D in E1. congruence.
Qed.
