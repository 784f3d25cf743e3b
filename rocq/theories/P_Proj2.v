(** * Simplex (numpy and numba engines, vectors and matrices) and L1 ball *)
From Verif Require Import Base Space Spec SpecOps ConvexFacts M_ProxOp M_L1 P_L1 MatFacts VSum M_Proj P_Proj SeqFacts.
From Coq Require Import Psatz.
From Verif Require Export S_Proj2.
Open Scope result_scope.

Lemma get_ones n i : (i < n)%nat -> get (ones n) i = 1.
Proof. intro H. unfold ones. apply get_vtab; auto. Qed.
Lemma inner_ones n (y : Vec n) : << ones n, y >> = RS n (get y).
Proof. rewrite vec_inner. apply RS_ext. intros i Hi. rewrite get_ones by auto. ring. Qed.
Lemma norm_ones n : norm (ones n) = sqrt (INR n).
Proof. unfold norm, norm2. rewrite inner_ones. f_equal. rewrite (RS_ext n _ (fun _ => 1)); [rewrite RS_const; ring|]. intros; apply get_ones; auto. Qed.
Lemma nonneg_lu n : lu_ok n nonneg_bounds.
Proof. intros i _ l u H. discriminate. Qed.
Lemma jit_lu n : lu_ok n jit_bounds.
Proof. intros i _ l u [= <- <-]. lra. Qed.
Lemma simplex_hp n r (y : Vec n) : hp_set (ones n) r nonneg_bounds y <-> simplex_set r y.
Proof.
  unfold hp_set, simplex_set. rewrite inner_ones. split; intros [H1 H2]; (split; [auto|]); intros i Hi; specialize (H2 i Hi).
  - destruct H2 as [H2 _]. apply (H2 0 eq_refl).
  - split; intros l; simpl; [intros [= <-]; auto|discriminate].
Qed.
Lemma simplex_jit_hp n r (y : Vec n) : r <= 10 ^ 10 -> hp_set (ones n) r jit_bounds y <-> simplex_set r y.
Proof.
  intro Hr. unfold hp_set, simplex_set. rewrite inner_ones. split; intros [H1 H2]; (split; [auto|]); intros i Hi.
  - destruct (H2 i Hi) as [H3 _]. apply (H3 0 eq_refl).
  - split; intros l; cbn [jit_bounds fst snd]; intro El; assert (El' := f_equal (fun o => match o with Some v => v | None => 0 end) El); cbv beta iota in El'; subst l; auto. eapply Rle_trans; [|exact Hr]. rewrite <- H1. apply (RS_ge_one n (get y)); auto.
Qed.
Lemma is_proj_iff {E : IPS} (C D : E -> Prop) x p : (forall y, C y <-> D y) -> is_proj C x p -> is_proj D x p.
Proof. intros H [H1 H2]. split; [apply H; auto|]. intros y Hy. apply H2, H; auto. Qed.
Lemma simplex_nonempty n r : 0 <= r -> (0 < n)%nat -> exists y : Vec n, simplex_set r y.
Proof.
  intros Hr Hn. exists (vtab n (fun i => if Nat.eqb i 0 then r else 0)). split.
  - destruct n as [|n]; [lia|]. rewrite RS_shift, get_vtab by lia. simpl. rewrite (RS_ext n _ (fun _ => 0)); [rewrite RS_zero; ring|].
    intros i Hi. rewrite get_vtab by lia. reflexivity.
  - intros i Hi. rewrite get_vtab by auto. destruct (Nat.eqb i 0); lra.
Qed.

Lemma reach_ones n (x z : Vec n) : reach (ones n) x z = RS n (fun i => Rabs (get z i - get x i)).
Proof. unfold reach. apply RS_ext. intros i Hi. rewrite get_ones by auto. destruct (Req_EM_T 1 0); [lra|]. rewrite Rabs_R1. field. Qed.
(*! C23_simplex : Simplex projection, all lengths, inputs and radius: whenever it returns y, y_i = max(x_i - mu, 0) for one mu, so all entries are >= 0, and with p the Euclidean
   projection of x on {sum = radius, entries >= 0} and e = xtol + rtol max(1, 2 sum_i |p_i - x_i|), the sum is within n e of the radius and y is within sqrt n e of p *)
Lemma C23_simplex_l : forall n radius maxiter xtol fuel (x y : Vec n), simplex_proj radius maxiter xtol fuel x = Ok y ->
  exists p, is_proj (simplex_set radius) x p /\ (exists mu, forall i, (i < n)%nat -> get y i = Rmax (get x i - mu) 0) /\
    let e := xtol + bisect_rtol * Rmax 1 (2 * RS n (fun i => Rabs (get p i - get x i))) in
    Rabs (RS n (get y) - radius) <= INR n * e /\ norm (y [-] p) <= e * sqrt (INR n).
Proof.
  intros n radius maxiter xtol fuel x y H. destruct (C23_result_l _ _ _ _ _ _ _ _ _ (nonneg_lu n) H) as [p [H1 [[mu H2] [_ H3]]]].
  exists p. assert (HP := H1). apply (is_proj_iff _ (simplex_set radius)) in HP; [|intro; apply simplex_hp]. split; auto. fold (reach (ones n) x p) in H3. rewrite norm_ones, reach_ones in H3. split.
  { exists mu. intros i Hi. rewrite H2, (get_yv (ones n) nonneg_bounds x mu i Hi), get_ones by auto. unfold clip, nonneg_bounds; simpl. f_equal. ring. }
  cbv zeta. set (e := xtol + _) in *. clearbody e.
  split; auto. destruct HP as [[Hp _] _]. rewrite <- Hp, <- !inner_ones.
  replace (<< ones n, y >> - << ones n, p >>) with << ones n, y [-] p >> by (iexp; ring).
  eapply Rle_trans; [apply CS_abs|]. rewrite norm_ones. pose proof (sqrt_pos (INR n)). pose proof (sqrt_sqrt (INR n) (pos_INR n)) as Hs.
  assert (norm (y [-] p) >= 0) by (apply Rle_ge, norm_nonneg).
  eapply Rle_trans; [apply Rmult_le_compat_l; [lra|exact H3]|]. nra.
Qed.

(*! C23_simplex_runs : for n >= 1 and radius >= 0 the Simplex projection returns for every x once maxiter covers the bracket; for radius < 0 it never returns *)
Lemma C23_simplex_runs_l : forall n radius (x : Vec n), (0 < n)%nat ->
  (0 <= radius -> exists N, forall fuel, (N <= fuel)%nat -> exists w, forall xtol maxiter, 0 < xtol -> (0 < maxiter)%nat -> w < xtol * 2 ^ maxiter ->
     exists y, simplex_proj radius maxiter xtol fuel x = Ok y) /\
  (radius < 0 -> forall maxiter xtol fuel, simplex_proj radius maxiter xtol fuel x = Err Diverges).
Proof.
  intros n radius x Hn. split.
  - intro Hr. destruct (simplex_nonempty n radius Hr Hn) as [z Hz]. destruct (C23_terminates_l n (ones n) radius nonneg_bounds x (nonneg_lu n)) as [N HN].
    { exists z. apply simplex_hp; auto. }
    exists N. intros fuel Hf. destruct (HN fuel Hf) as [lo [hi [_ H]]]. exists (hi - lo). exact H.
  - intros Hr maxiter xtol fuel. apply C23_infeasible_refuted_l; [apply nonneg_lu|]. intros z Hz. apply simplex_hp in Hz as [H1 H2].
    pose proof (RS_nonneg n (get z) H2). lra.
Qed.

(** ** numba engine *)
Section Jit.
Context (f : R -> R) (Hivt : forall lo hi, lo <= hi -> 0 <= f lo -> f hi <= 0 -> exists m, lo <= m <= hi /\ f m = 0)
  (Hmono : forall a b, a <= b -> f b <= f a).
Lemma jit_loop_spec ftol xtol m : 0 < ftol -> forall a b c mu, a <= b -> 0 <= f a -> f b <= 0 ->
  (forall v, c = Some v -> v = a \/ v = b) ->
  bisect_jit_loop f ftol xtol m a b (f a) c = Ok mu ->
  Rabs (f mu) < ftol \/ exists mo, f mo = 0 /\ (Rabs (mu - mo) <= xtol \/ Rabs (mu - mo) <= (b - a) / 2 ^ m).
Proof.
  intro Hft. induction m as [|m IH]; intros a b c mu Hab H1 H2 Hc; cbn [bisect_jit_loop].
  - destruct c as [v|]; [|discriminate]. intros [= <-]. right. destruct (Hivt a b Hab H1 H2) as [mo [M1 M2]]. exists mo. split; auto. right. simpl.
    destruct (Hc v eq_refl) as [->| ->]; apply Rabs_le; lra.
  - set (cc := (a + b) / 2). destruct (Rltb_spec ((b - a) / 2) xtol) as [[Ht ->]|[Ht ->]].
    + intros [= <-]. right. destruct (Hivt a b Hab H1 H2) as [mo [M1 M2]]. exists mo. split; auto. left. unfold cc. apply Rabs_le. lra.
    + destruct (Rltb_spec (Rabs (f cc)) ftol) as [[Hf ->]|[Hf ->]]; [intros [= <-]; auto|].
      assert (Hcc : a <= cc <= b) by (unfold cc; lra).
      assert (Hnz : f cc <> 0) by (intro E0; rewrite E0, Rabs_R0 in Hf; lra).
      assert (Hp : 0 < 2 ^ m) by (apply pow_lt; lra).
      destruct (Reqb_spec (sgn (f cc)) (sgn (f a))) as [[Hs ->]|[Hs ->]].
      * assert (0 < f cc).
        { destruct (Rlt_dec (f cc) 0) as [Hn|Hn]; [|lra]. rewrite (sgn_neg _ Hn) in Hs. destruct (Req_dec (f a) 0) as [E0|E0]; [rewrite E0, sgn_0 in Hs; lra|]. rewrite sgn_pos in Hs by lra. lra. }
        intro E. apply IH in E; auto; try lra.
        -- destruct E as [E|[mo [E1 E2]]]; auto. right. exists mo. split; auto. destruct E2 as [E2|E2]; auto. right.
           replace ((b - cc) / 2 ^ m) with ((b - a) / 2 ^ S m) in E2 by (unfold cc; simpl; field; lra). auto.
        -- intros v [= <-]. auto.
      * assert (f cc < 0).
        { destruct (Rlt_dec 0 (f cc)) as [Hn|Hn]; [|lra]. exfalso. apply Hs. rewrite (sgn_pos _ Hn). pose proof (Hmono a cc ltac:(lra)). rewrite sgn_pos by lra. reflexivity. }
        intro E. apply IH in E; auto; try lra.
        -- destruct E as [E|[mo [E1 E2]]]; auto. right. exists mo. split; auto. destruct E2 as [E2|E2]; auto. right.
           replace ((cc - a) / 2 ^ m) with ((b - a) / 2 ^ S m) in E2 by (unfold cc; simpl; field; lra). auto.
        -- intros v [= <-]. auto.
Qed.
End Jit.

Lemma RS_abs n (h : nat -> R) : Rabs (RS n h) <= RS n (fun i => Rabs (h i)).
Proof. induction n as [|n IH]; cbn [RS]; [rewrite Rabs_R0; lra|]. eapply Rle_trans; [apply Rabs_triang|]. lra. Qed.
Lemma norm_le_l1 n (v : Vec n) : norm v <= RS n (fun i => Rabs (get v i)).
Proof.
  apply norm_le_of_sq; [apply RS_nonneg; intros; apply Rabs_pos|]. rewrite vec_norm2.
  assert (H : forall m, RS m (fun i => get v i * get v i) <= RS m (fun i => Rabs (get v i)) * RS m (fun i => Rabs (get v i))); [|apply H].
  induction m as [|m IH]; cbn [RS]; [lra|]. pose proof (Rabs_pos (get v m)). assert (get v m * get v m = Rabs (get v m) * Rabs (get v m)) as ->.
  { rewrite <- Rabs_mult, Rabs_right; auto. apply Rle_ge, Rle_0_sqr. }
  pose proof (RS_nonneg m (fun i => Rabs (get v i)) (fun i _ => Rabs_pos (get v i))). nra.
Qed.

(*! C23_simplex_numba : the numba engine, any length, input, 0 < ftol and radius <= 1e10, within the bracket [lo, hi]: whenever it returns y, y is within
   max(ftol, sqrt n max(xtol, (hi - lo)/2^maxiter)) of the Euclidean projection on the simplex *)
Lemma C23_simplex_numba_l : forall n radius maxiter ftol xtol fuel (x y : Vec n) lo hi, radius <= 10 ^ 10 -> 0 < ftol ->
  hp_bracket (hp_fun (ones n) radius jit_bounds x) fuel = Ok (lo, hi) -> simplex_jit radius maxiter ftol xtol fuel x = Ok y ->
  exists p, is_proj (simplex_set radius) x p /\ norm (y [-] p) <= Rmax ftol (Rmax xtol ((hi - lo) / 2 ^ maxiter) * sqrt (INR n)).
Proof.
  intros n radius maxiter ftol xtol fuel x y lo hi Hr Hft Hb. unfold simplex_jit. rewrite Hb. cbn [bind fst snd]. set (f := hp_fun (ones n) radius jit_bounds x) in *.
  destruct (bracket_spec _ _ _ _ Hb) as [B1 [B2 [B3 B4]]].
  destruct (bisect_jit f lo hi maxiter ftol xtol) as [mu|] eqn:Em; cbn [bind]; [|discriminate]. intro Ey. apply Ok_inj in Ey. subst y.
  assert (Hm : forall a b, a <= b -> f b <= f a) by (intros a b H; pose proof (hp_fun_mono (ones n) radius jit_bounds x a b H); fold f in H0; lra).
  apply jit_loop_spec in Em; auto; [|apply hp_ivt|lra|discriminate].
  assert (Hroot : forall mo, f mo = 0 -> is_proj (simplex_set radius) x (boxv jit_bounds (x [-] mo [*] ones n))).
  { intros mo E. apply (is_proj_iff (hp_set (ones n) radius jit_bounds)); [intro; apply simplex_jit_hp; auto|]. apply hp_root_proj; auto. apply jit_lu. }
  destruct Em as [Ef|[mo [E1 E2]]].
  - destruct (hp_ivt (ones n) radius jit_bounds x lo hi ltac:(lra) B3 B4) as [mo [_ Hmo]]. fold f in Hmo.
    exists (boxv jit_bounds (x [-] mo [*] ones n)). split; [auto|]. eapply Rle_trans; [|apply Rmax_l]. eapply Rle_trans; [apply norm_le_l1|].
    apply Rlt_le. eapply Rle_lt_trans; [|exact Ef]. replace (f mu) with (f mu - f mo) by lra. unfold f. rewrite !hp_fun_RS.
    match goal with |- _ <= Rabs (?a - radius - (?b - radius)) => replace (a - radius - (b - radius)) with (a - b) by ring end. rewrite <- RS_sub.
    assert (Hget : forall i m, (i < n)%nat -> get (boxv jit_bounds (x [-] m [*] ones n)) i = clip (jit_bounds i) (get x i - m * get (ones n) i)) by (intros; apply (get_yv (ones n) jit_bounds x); auto).
    destruct (Rle_dec mu mo) as [Hle|Hle].
    + rewrite Rabs_right.
      2:{ apply Rle_ge, RS_nonneg. intros i Hi. apply (entry_mono (ones n) jit_bounds x i mu mo); auto. }
      apply RS_le. intros i Hi. rewrite get_sub, !Hget by auto. pose proof (entry_mono (ones n) jit_bounds x i mu mo Hle) as [A _]. rewrite get_ones in * by auto.
      rewrite Rabs_right; lra.
    + rewrite Rabs_left1.
      2:{ match goal with |- ?a <= 0 => enough (0 <= - a) by lra end. rewrite <- RS_opp. apply RS_nonneg. intros i Hi. pose proof (entry_mono (ones n) jit_bounds x i mo mu ltac:(lra)). lra. }
      rewrite <- RS_opp. apply RS_le. intros i Hi. rewrite get_sub, !Hget by auto. pose proof (entry_mono (ones n) jit_bounds x i mo mu ltac:(lra)) as [A _]. rewrite get_ones in * by auto.
      rewrite Rabs_left1; lra.
  - exists (boxv jit_bounds (x [-] mo [*] ones n)). split; auto. eapply Rle_trans; [|apply Rmax_r]. eapply Rle_trans; [apply yv_lip|]. rewrite norm_ones.
    apply Rmult_le_compat_r; [apply sqrt_pos|]. destruct E2 as [E2|E2]; eapply Rle_trans; [exact E2|apply Rmax_l|exact E2|apply Rmax_r].
Qed.

(*! C23_numba_large_radius_refuted : the numba engine bounds the entries by 1e10, so for radius > n 1e10 it never returns although the simplex is not empty *)
Lemma C23_numba_large_radius_refuted_l : forall n radius (x : Vec n), (0 < n)%nat -> INR n * 10 ^ 10 < radius ->
  (exists z : Vec n, simplex_set radius z) /\ forall maxiter ftol xtol fuel, simplex_jit radius maxiter ftol xtol fuel x = Err Diverges.
Proof.
  intros n radius x Hn Hr. assert (0 < INR n) by (apply lt_0_INR; auto). split; [apply simplex_nonempty; auto; assert (0 < 10 ^ 10) by (apply pow_lt; lra); nra|]. intros maxiter ftol xtol fuel.
  pose proof (C23_infeasible_refuted_l n (ones n) radius jit_bounds x (jit_lu n)) as D. unfold hp_proj in D. unfold simplex_jit.
  destruct (hp_bracket _ fuel) as [[lo hi]|e] eqn:Eb; cbn [bind fst snd].
  - exfalso. destruct (bracket_spec _ _ _ _ Eb) as [B1 [B2 [B3 B4]]]. revert B3. rewrite hp_fun_RS. apply Rlt_not_le.
    assert (RS n (fun i => get (ones n) i * clip (jit_bounds i) (get x i - lo * get (ones n) i)) <= INR n * 10 ^ 10); [|lra].
    rewrite <- RS_const. apply RS_le. intros i Hi. rewrite get_ones, Rmult_1_l by auto. apply (proj2 (clip_within (jit_bounds i) _ (jit_lu n i Hi))). reflexivity.
  - assert (Hz : forall z, ~ hp_set (ones n) radius jit_bounds z).
    { intros z [Z1 Z2]. rewrite inner_ones in Z1. assert (RS n (get z) <= INR n * 10 ^ 10); [|lra]. rewrite <- RS_const. apply RS_le. intros i Hi. apply (proj2 (Z2 i Hi)). reflexivity. }
    specialize (D Hz maxiter xtol fuel). rewrite Eb in D. exact D.
Qed.

(** ** matrices *)
Lemma get_rowv r c (x : Vec (r * c)) i j : (j < c)%nat -> get (rowv x i) j = get x (i * c + j).
Proof. intro H. unfold rowv. rewrite get_vtab by auto. reflexivity. Qed.
Lemma mapM_ok {A B} (f : A -> result B) l : forall ys, mapM f l = Ok ys -> length ys = length l /\ forall i d d', (i < length l)%nat -> f (nth i l d) = Ok (nth i ys d').
Proof.
  induction l as [|a l IH]; intros ys; cbn [mapM].
  - intros [= <-]. split; auto. simpl. lia.
  - destruct (f a) as [b|] eqn:Ea; cbn [bind]; [|discriminate]. destruct (mapM f l) as [bs|]; cbn [bind]; [|discriminate]. intros [= <-].
    destruct (IH bs eq_refl) as [H1 H2]. split; [simpl; lia|]. intros [|i] d d' Hi; simpl in *; auto. apply H2. lia.
Qed.
Lemma mapM_total {A B} (f : A -> result B) l : (forall a, In a l -> exists b, f a = Ok b) -> exists ys, mapM f l = Ok ys.
Proof.
  induction l as [|a l IH]; intro H; cbn [mapM]; [eauto|]. destruct (H a) as [b ->]; [left; auto|]. cbn [bind]. destruct IH as [bs ->]; [intros; apply H; right; auto|]. cbn [bind]. eauto.
Qed.
Lemma rowv_stack r c (ys : list (Vec c)) i : (i < r)%nat -> rowv (stack (r:=r) ys) i = nth i ys vzero.
Proof.
  intro Hi. apply vec_ext. intros j Hj. rewrite get_rowv by auto. unfold stack. rewrite get_vtab by (apply flat_lt; auto).
  destruct (divmod_flat c i j Hj) as [-> ->]. reflexivity.
Qed.
Lemma rows_ext r c (x y : Vec (r * c)) : (forall i, (i < r)%nat -> rowv x i = rowv y i) -> x = y.
Proof.
  intro H. apply vec_ext. intros p Hp. destruct c as [|c]; [lia|].
  assert (E : p = ((p / S c) * S c + p mod S c)%nat) by (rewrite Nat.mul_comm; apply Nat.div_mod; lia).
  assert (p mod S c < S c)%nat by (apply Nat.mod_upper_bound; lia). assert (p / S c < r)%nat by (apply Nat.div_lt_upper_bound; lia).
  rewrite E. rewrite <- !get_rowv by auto. rewrite H; auto.
Qed.
Lemma by_rows_iff r c (P : Vec c -> result (Vec c)) (x y : Vec (r * c)) :
  by_rows P x = Ok y <-> forall i, (i < r)%nat -> P (rowv x i) = Ok (rowv y i).
Proof.
  unfold by_rows. split.
  - destruct (mapM _ (seq 0 r)) as [ys|] eqn:E; cbn [bind]; [|discriminate]. intros Ey i Hi. apply Ok_inj in Ey. subst y.
    destruct (mapM_ok _ _ _ E) as [H1 H2]. rewrite seq_length in *. specialize (H2 i 0%nat vzero Hi). rewrite seq_nth in H2 by auto. rewrite rowv_stack by auto. exact H2.
  - intro H. destruct (mapM_total (fun i => P (rowv x i)) (seq 0 r)) as [ys E].
    { intros i Hi. apply in_seq in Hi. exists (rowv y i). apply H. lia. }
    rewrite E. cbn [bind]. f_equal. apply rows_ext. intros i Hi. rewrite rowv_stack by auto. destruct (mapM_ok _ _ _ E) as [H1 H2]. rewrite seq_length in *.
    specialize (H2 i 0%nat vzero Hi). rewrite seq_nth in H2 by auto. simpl in H2. rewrite H in H2 by auto. apply Ok_inj in H2. auto.
Qed.
Lemma get_transp r c (x : Vec (r * c)) i j : (i < r)%nat -> (j < c)%nat -> get (transp x) (j * r + i) = get x (i * c + j).
Proof. intros Hi Hj. unfold transp. rewrite get_vtab by (apply flat_lt; auto). destruct (divmod_flat r j i Hi) as [-> ->]. reflexivity. Qed.
Lemma rowv_transp r c (x : Vec (r * c)) j : (j < c)%nat -> rowv (transp x) j = colv x j.
Proof. intro Hj. apply vec_ext. intros i Hi. rewrite get_rowv by auto. rewrite get_transp by auto. unfold colv. rewrite get_vtab by auto. reflexivity. Qed.
Lemma transp_transp r c (x : Vec (r * c)) : transp (transp x) = x.
Proof.
  apply vec_ext. intros p Hp. destruct c as [|c]; [lia|].
  assert (E : p = ((p / S c) * S c + p mod S c)%nat) by (rewrite Nat.mul_comm; apply Nat.div_mod; lia).
  assert (p mod S c < S c)%nat by (apply Nat.mod_upper_bound; lia). assert (p / S c < r)%nat by (apply Nat.div_lt_upper_bound; lia).
  rewrite E. rewrite get_transp, get_transp by auto. reflexivity.
Qed.

(*! C23_dims : with dims = (r, c) and tau > 0, Simplex.prox returns y exactly when the one-vector projection returns each row of y (axis = 1 or -1) or each
   column of y (axis = 0) on the corresponding row or column of x: every vector is projected, independently, and lands in its own place *)
Lemma C23_dims_l : forall r c (x y : Vec (r * c)) tau, 0 < tau ->
  (forall P, simplex_prox_rows P x tau = Ok y <-> forall i, (i < r)%nat -> P (rowv x i) = Ok (rowv y i)) /\
  (forall P, simplex_prox_cols P x tau = Ok y <-> forall j, (j < c)%nat -> P (colv x j) = Ok (colv y j)).
Proof.
  intros r c x y tau Ht. unfold simplex_prox_rows, simplex_prox_cols. destruct (Rleb_spec tau 0) as [[? ->]|[_ ->]]; [lra|]. split; intro P.
  - apply by_rows_iff.
  - transitivity (by_rows P (transp x) = Ok (transp y)).
    + destruct (by_rows P (transp x)) as [z|e]; cbn [bind]; split; intro H; try discriminate; apply Ok_inj in H.
      * rewrite <- H. f_equal. symmetry. apply transp_transp.
      * rewrite H. f_equal. apply transp_transp.
    + rewrite by_rows_iff. split; intros H j Hj; specialize (H j Hj); rewrite !rowv_transp in * by auto; auto.
Qed.

(** ** the membership tests *)
Lemma any_neg_spec n (x : Vec n) : any_neg x = false <-> forall i, (i < n)%nat -> 0 <= get x i.
Proof.
  unfold any_neg. split.
  - intros H i Hi. destruct (Rlt_dec (get x i) 0) as [Hn|Hn]; [|lra]. exfalso. assert (existsb (fun a => Rltb a 0) (lst x) = true); [|congruence].
    apply existsb_exists. exists (get x i). split; [apply nth_In; rewrite lst_length; auto|apply Rltb_true; auto].
  - intro H. destruct (existsb _ (lst x)) eqn:E; auto. apply existsb_exists in E as [a [Ha Hb]]. apply Rltb_true in Hb.
    destruct (In_nth _ _ 0 Ha) as [i [Hi Hx]]. rewrite lst_length in Hi. specialize (H i Hi). unfold get in H. rewrite Hx in H. lra.
Qed.
(*! C23_call : without dims the call of Simplex is membership up to tol *)
Lemma C23_call_l : forall n radius tol (x : Vec n), simplex_call1 radius tol x = true <-> Rabs (RS n (get x) - radius) <= tol /\ forall i, (i < n)%nat -> 0 <= get x i.
Proof.
  intros n radius tol x. unfold simplex_call1, vsumv. rewrite <- any_neg_spec. destruct (any_neg x); rewrite ?orb_true_r, ?orb_false_r; simpl.
  - split; [discriminate|]. intros [_ H]. discriminate.
  - destruct (Rltb_spec tol (RS n (get x) - radius)) as [[H ->]|[H ->]]; simpl.
    + split; [discriminate|]. intros [A _]. pose proof (Rle_abs (RS n (get x) - radius)). lra.
    + destruct (Rltb_spec (RS n (get x) - radius) (- tol)) as [[H2 ->]|[H2 ->]]; simpl.
      * split; [discriminate|]. intros [A _]. pose proof (Rle_abs (- (RS n (get x) - radius))). rewrite Rabs_Ropp in *. lra.
      * split; auto. intros _. split; auto. apply Rabs_le. lra.
Qed.
(*! C23_call_dims_refuted : with dims the call only tests the sum from above: the zero matrix is accepted for every radius >= 0, although its rows are not
   on the simplex of a positive radius *)
Lemma C23_call_dims_refuted_l : forall r c radius tol, (0 < r)%nat -> 0 <= tol -> 0 < radius ->
  simplex_call_rows (r:=r) (c:=c) radius tol vzero = true /\ simplex_call_cols (r:=r) (c:=c) radius tol vzero = true /\ ~ simplex_set radius (rowv (vzero : Vec (r * c)) 0).
Proof.
  intros r c radius tol Hr Ht Hrad. assert (Z : forall r c i, rowv (vzero : Vec (r * c)) i = (vzero : Vec c)).
  { intros. apply vec_ext. intros j Hj. rewrite get_rowv by auto. rewrite !get_zero. reflexivity. }
  assert (S0 : forall n, RS n (get (vzero : Vec n)) = 0) by (intro n; rewrite (RS_ext n _ (fun _ => 0)); [apply RS_zero|intros; apply get_zero]).
  assert (C : forall n, simplex_call_row radius tol (vzero : Vec n) = true).
  { intro n. unfold simplex_call_row, vsumv. rewrite S0, Rabs_R0. destruct (Rltb_spec tol (0 - radius)) as [[? ->]|[_ ->]]; [lra|]. cbn [orb].
    rewrite (proj2 (any_neg_spec n vzero)); auto. intros. rewrite get_zero. lra. }
  assert (R0 : forall r c, simplex_call_rows (r:=r) (c:=c) radius tol vzero = true).
  { intros r' c'. unfold simplex_call_rows. apply forallb_forall. intros i _. rewrite Z. apply C. }
  split; auto. split.
  - unfold simplex_call_cols. replace (transp (vzero : Vec (r * c))) with (vzero : Vec (c * r)); auto.
    apply vec_ext. intros p Hp. unfold transp. rewrite get_vtab by auto. rewrite !get_zero. reflexivity.
  - rewrite Z. intros [H _]. rewrite S0 in H. lra.
Qed.
