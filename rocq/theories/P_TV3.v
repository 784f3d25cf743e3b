(** * TV: value, convergence and refuted claims (M_TV.v, P_TV.v, P_TV2.v) *)
From Coq Require Import Psatz ZArith.
From Verif Require Import Base Space Spec SpecOps ConvexFacts VSum MatFacts M_ProxOp M_Loop M_Bilin M_TV DualTV Compact P_TV P_TV2 P_ProxOp.
From Verif Require Export S_TV3.
Open Scope result_scope.
Open Scope R_scope.

(** ** Specification: the isotropic total variation of an array of shape dims (C order, forward differences) *)

Lemma tv_fun_var dims (v : Vec (nprod dims)) : tv_fun dims v = variation dims (get v).
Proof. apply RS_ext. intros i Hi. unfold pixnorm. f_equal. apply RS_ext. intros a Ha. unfold gapp. rewrite dent_dtab by auto. reflexivity. Qed.

(*! C66_value : calling TV on an array of 1 or more axes of length at least 2 gives sigma times its isotropic total variation; in 1-D this is sigma * sum |x_(i+1) - x_i|,
   in 2-D sigma * sum sqrt(dx^2 + dy^2) with zero differences at the far border *)
Lemma C66_value_l : forall sigma,
  (forall dims x, dims_ok dims -> (1 <= length dims <= 4)%nat -> length x = nprod dims -> tv_call sigma dims x = Ok (sigma * variation dims (fun i => nth i x 0))) /\
  (forall n x, (2 <= n)%nat -> length x = n -> tv_call sigma [n] x = Ok (sigma * RS (n - 1) (fun i => Rabs (nth (S i) x 0 - nth i x 0)))) /\
  (forall n m x, (2 <= n)%nat -> (2 <= m)%nat -> length x = (n * m)%nat -> let X i j := nth (i * m + j) x 0 in
    tv_call sigma [n; m] x = Ok (sigma * RS n (fun i => RS m (fun j => let dx := if Nat.ltb (S i) n then X (S i) j - X i j else 0 in let dy := if Nat.ltb (S j) m then X i (S j) - X i j else 0 in sqrt (dx * dx + dy * dy))))).
Proof.
  intro sigma.
  assert (G : forall dims x, dims_ok dims -> (1 <= length dims <= 4)%nat -> length x = nprod dims -> tv_call sigma dims x = Ok (sigma * variation dims (fun i => nth i x 0))).
  { intros dims x H1 H2 H3. rewrite <- (lst_ofl (nprod dims) x H3) at 1. rewrite (tv_call_vec dims H1 H2), tv_fun_var. unfold variation. do 2 f_equal. apply RS_ext. intros i Hi. f_equal. apply RS_ext. intros a Ha.
    assert (E : forward_diff dims (get (ofl (nprod dims) x)) a i = forward_diff dims (fun i => nth i x 0) a i); [|rewrite E; reflexivity].
    unfold forward_diff. destruct (Nat.ltb_spec (S ((i / nprod (skipn (S a) dims)) mod nth a dims 0%nat)) (nth a dims 0%nat)) as [Hl|]; [|reflexivity]. rewrite !get_ofl; auto. apply (coord_range dims H1 a); auto. }
  split; [exact G|split].
  - intros n x Hn Hx. rewrite G; [|intros k [<-|[]]; auto|simpl; lia|simpl; lia]. do 2 f_equal. unfold variation. replace (nprod [n]) with (S (n - 1)) by (simpl; lia). cbn [RS length].
    assert (F : forall i, (i < n)%nat -> forward_diff [n] (fun i => nth i x 0) 0 i = if Nat.ltb (S i) n then nth (S i) x 0 - nth i x 0 else 0).
    { intros i Hi. unfold forward_diff. cbn [skipn nprod fold_right nth]. rewrite Nat.div_1_r, Nat.mod_small by auto. rewrite Nat.add_1_r. reflexivity. }
    rewrite F by lia. destruct (Nat.ltb_spec (S (n - 1)) n); [lia|]. replace (0 + 0 * 0) with 0 by ring. rewrite sqrt_0, Rplus_0_r. apply RS_ext. intros i Hi. rewrite F by lia. destruct (Nat.ltb_spec (S i) n); [|lia]. rewrite Rplus_0_l. apply sqrt_Rsqr_abs.
  - intros n m x Hn Hm Hx X. rewrite G; [|intros k [<-|[<-|[]]]; auto|simpl; lia|simpl; lia]. do 2 f_equal. unfold variation. replace (nprod [n; m]) with (n * m)%nat by (simpl; lia). rewrite RS_flat. apply RS_ext. intros i Hi. apply RS_ext. intros j Hj. cbn [RS length]. f_equal. rewrite Rplus_0_l.
    unfold forward_diff. cbn [skipn nprod fold_right nth]. rewrite Nat.mul_1_r, Nat.div_1_r. destruct (divmod_flat m i j Hj) as [-> ->]. rewrite (Nat.mod_small i n) by auto. unfold X.
    replace (i * m + j + m)%nat with (S i * m + j)%nat by lia. replace (i * m + j + 1)%nat with (i * m + S j)%nat by lia. reflexivity.
Qed.

Lemma tv_run_eq sigma rtol ws dims n (x : Vec (nprod dims)) tau : (1 <= length dims <= 4)%nat ->
  tv_run sigma rtol ws dims (Z.of_nat n) (lst x) tau = (st <- for_loop (fun _ => tv_body sigma (sigma * tau) rtol (tv_mt ws) dims (lst x)) (S n) 0 (st0 dims x) ;; Ok (tsol (fst st))).
Proof.
  intro Hd. unfold tv_run. rewrite lst_length, Nat.eqb_refl. cbn [negb]. destruct (Nat.ltb_spec 4 (length dims)); [lia|]. destruct (Nat.eqb_spec (length dims) 0); [lia|]. cbn [andb]. replace (Z.to_nat (Z.of_nat n + 1)) with (S n) by lia. reflexivity.
Qed.

Section Main.
Variable dims : list nat.
Hypothesis Hdims : dims_ok dims.
Hypothesis Hd : (1 <= length dims <= 4)%nat.
Variables (sigma tau rtol : R) (ws : list R).
Hypotheses (Hs : 0 < sigma) (Ht : 0 < tau) (Hm : 0 < tv_mt ws).
Variable x : Vec (nprod dims).
Let gamma := sigma * tau.
Let ys := ysv dims sigma gamma (tv_mt ws) x.
Let ps := psv dims sigma gamma (tv_mt ws) x.
Let sol (k : nat) : Vec (nprod dims) := dsol (gradop dims Hdims) gamma x (ys k).
Let Hg : 0 < gamma. Proof. unfold gamma. nra. Qed.

Local Notation tested_obj := (S_TV3.tested_obj dims sigma tau x).

Lemma sumsq_norm n (a b : Vec n) : sumsq (map2 Rminus (lst a) (lst b)) = norm2 (a [-] b).
Proof.
  rewrite vec_norm2. unfold sumsq.
  assert (G : forall (l : list R) k, RS (length l) (fun i => nth (k + i) (repeat 0 k ++ l) 0 * nth (k + i) (repeat 0 k ++ l) 0) = Rsum (map (fun v => v * v) l)).
  { assert (G0 : forall l : list R, RS (length l) (fun i => nth i l 0 * nth i l 0) = Rsum (map (fun v => v * v) l)).
    { induction l as [|c l IH]; [reflexivity|]. cbn [length map Rsum]. rewrite RS_shift, <- IH. reflexivity. }
    intros l k. rewrite <- G0. apply RS_ext. intros i Hi. rewrite app_nth2 by (rewrite repeat_length; lia). rewrite repeat_length. replace (k + i - k)%nat with i by lia. reflexivity. }
  rewrite <- (G _ 0%nat). cbn [repeat app Nat.add]. assert (EL : length (map2 Rminus (lst a) (lst b)) = n) by (rewrite map2_length; rewrite !lst_length; reflexivity). rewrite EL. apply RS_ext. intros i Hi. rewrite map2_nth by (rewrite ?lst_length; auto). rewrite get_sub by auto. reflexivity.
Qed.
Lemma objL_eq k : objL dims sigma gamma x (tr (stk dims sigma gamma (tv_mt ws) x k)) = tested_obj (sol k).
Proof.
  destruct (stk_len dims sigma gamma (tv_mt ws) x k) as [Hr _]. unfold objL, S_TV3.tested_obj. rewrite (solL_vec dims Hdims gamma x _ Hr). rewrite ofl_lst, sumsq_norm, tv_fun_var. reflexivity.
Qed.
Lemma tprev_eq k : tprev (stk dims sigma gamma (tv_mt ws) x k) = match k with O => 0 | S j => tested_obj (sol j) end.
Proof. destruct k as [|k]; [reflexivity|]. rewrite stk_S. unfold pass. cbn [tprev]. apply objL_eq. Qed.
Lemma stop_eq k : stop dims sigma gamma rtol x (stk dims sigma gamma (tv_mt ws) x k) = true <-> below rtol (tested_obj (sol k)) (match k with O => 0 | S j => tested_obj (sol j) end).
Proof. unfold stop, relL, below. rewrite objL_eq, tprev_eq, Rltb_true. reflexivity. Qed.

Lemma tv_main n : exists k, (k <= n)%nat /\ tv_run sigma rtol ws dims (Z.of_nat n) (lst x) tau = Ok (lst (sol k)) /\
  (forall j, (j < k)%nat -> ~ below rtol (tested_obj (sol j)) (match j with O => 0 | S i => tested_obj (sol i) end)) /\
  (k = n \/ below rtol (tested_obj (sol k)) (match k with O => 0 | S i => tested_obj (sol i) end)).
Proof.
  rewrite tv_run_eq by auto. fold gamma. destruct (run_states dims Hdims Hd sigma gamma rtol (tv_mt ws) x Hg Hm n) as (k & s' & E1 & E2 & H1 & H2 & H3). exists k. split; [exact H1|]. split; [|split].
  - rewrite E1. cbn [bind]. rewrite E2. f_equal. apply solL_vec. apply stk_len.
  - intros j Hj Hb. apply stop_eq in Hb. rewrite (H2 j Hj) in Hb. discriminate.
  - destruct H3 as [->|H3]; [left; reflexivity|right]. apply stop_eq. exact H3.
Qed.
Lemma tv_conv z k : 1 <= tv_mt ws -> dmin (gradop dims Hdims) (pixball dims) gamma x z -> norm (sol (S k) [-] dsol (gradop dims Hdims) gamma x z) <= 12 * gamma * tv_mt ws * sqrt (INR (length dims * nprod dims)) / INR (S k).
Proof.
  intros Hm1 Hz. assert (Hd0 : 0 < INR (4 * length dims)) by (apply lt_0_INR; lia).
  set (mt := tv_mt ws) in *. set (s := sstep dims gamma mt).
  assert (Hsp : 0 < s <= / (gamma * gamma * INR (4 * length dims))).
  { unfold s, sstep. assert (0 < gamma * gamma * INR (4 * length dims)) by (apply Rmult_lt_0_compat; nra). split.
    - apply Rinv_0_lt_compat. apply Rmult_lt_0_compat; [nra|apply Rmult_lt_0_compat; [lra|nra]].
    - apply Rinv_le_contravar; [auto|]. rewrite <- !Rmult_assoc. assert (1 <= mt * mt) by nra. replace (gamma * gamma * INR (4 * length dims) * mt * mt) with (gamma * gamma * INR (4 * length dims) * (mt * mt)) by ring. nra. }
  pose proof (dual_y_dist (gradop dims Hdims) (pixball dims) gamma (INR (4 * length dims)) x (pixball_convex dims) Hg Hd0 (gradop_bound dims Hdims) s ps ys Hsp) as H.
  specialize (H (ps_0 dims sigma gamma mt x) (ys_0 dims sigma gamma mt x) (ps_step dims Hdims Hd sigma gamma mt x Hg Hm) (ys_step dims sigma gamma mt x) z k Hz).
  change (dsol (gradop dims Hdims) gamma x (ys (S k))) with (sol (S k)) in H. eapply Rle_trans; [exact H|].
  assert (HS : sqrt s = / (2 * gamma * mt * sqrt (INR (length dims)))).
  { unfold s, sstep. rewrite mult_INR. simpl (INR 4). replace (gamma * gamma * ((1 + 1 + 1 + 1) * INR (length dims) * (mt * mt))) with ((2 * gamma * mt) * (2 * gamma * mt) * INR (length dims)) by ring.
    assert (Hdp : 0 < INR (length dims)) by (apply lt_0_INR; lia). assert (Hgm : 0 < 2 * gamma * mt) by nra. rewrite sqrt_inv. rewrite sqrt_mult_alt by nra. rewrite sqrt_square by lra. reflexivity. }
  rewrite HS. assert (HN : norm z <= sqrt (INR (nprod dims))) by (unfold norm; apply sqrt_le_1_alt; apply pixball_size; apply Hz).
  assert (Hdp : 0 < INR (length dims)) by (apply lt_0_INR; lia). pose proof (sqrt_lt_R0 _ Hdp) as Hq. assert (Hk : 0 < INR (S k)) by (apply lt_0_INR; lia).
  rewrite mult_INR, sqrt_mult_alt by lra.
  replace (6 * norm z / (/ (2 * gamma * mt * sqrt (INR (length dims))) * INR (S k))) with (12 * gamma * mt * sqrt (INR (length dims)) / INR (S k) * norm z) by (field; repeat split; lra).
  replace (12 * gamma * mt * (sqrt (INR (length dims)) * sqrt (INR (nprod dims))) / INR (S k)) with (12 * gamma * mt * sqrt (INR (length dims)) / INR (S k) * sqrt (INR (nprod dims))) by (field; lra).
  apply Rmult_le_compat_l; [|exact HN]. apply Rmult_le_pos; [|apply Rlt_le, Rinv_0_lt_compat; auto]. apply Rmult_le_pos; [nra|lra].
Qed.
Lemma tv_prox_exact z : dmin (gradop dims Hdims) (pixball dims) gamma x z -> tv_exact sigma dims tau x (dsol (gradop dims Hdims) gamma x z).
Proof.
  intro Hz. destruct (dmin_prox (gradop dims Hdims) (pixball dims) gamma x (pixball_convex dims) Hg (tv_fun dims) (tv_ub dims Hdims) (tv_att dims Hdims) (pixball_sym dims) z Hz) as [_ H]. split; [exact I|]. intros y _. specialize (H y I). cbn [eval escal etot] in H |- *. rewrite !tv_fun_var in H.
  set (p := dsol (gradop dims Hdims) gamma x z) in *. replace (/ (2 * 1)) with (/ 2) in H by lra. unfold gamma in H. apply Rmult_le_reg_l with tau; [auto|]. 
  replace (tau * (sigma * variation dims (get p) + / (2 * tau) * norm2 (p [-] x))) with (sigma * tau * variation dims (get p) + / 2 * norm2 (p [-] x)) by (field; lra).
  replace (tau * (sigma * variation dims (get y) + / (2 * tau) * norm2 (y [-] x))) with (sigma * tau * variation dims (get y) + / 2 * norm2 (y [-] x)) by (field; lra). exact H.
Qed.
End Main.

(*! C66_iterates : for every shape of 1 to 4 axes of length at least 2, sigma > 0, tau > 0: one sequence of dual pairs, not depending on niter or rtol, such that every p_k lies in the dual ball (each pixel of
   Euclidean norm <= 1), p_(k+1) is the exact projection onto it of a gradient step on the dual objective from y_k, y is extrapolated with the weights (t_k - 1) / t_(k+1), t_k = (k + 2) / 2, and
   prox returns x + gamma grad^T y_k for the first k where the tested quantity changes by less than rtol, or k = niter *)
Lemma C66_iterates_l : forall dims sigma tau ws (x : Vec (nprod dims)), dims_ok dims -> (1 <= length dims <= 4)%nat -> 0 < sigma -> 0 < tau -> 0 < tv_mt ws ->
  exists ps ys : nat -> Vec (length dims * nprod dims),
    let sol k := x [+] (sigma * tau) [*] gadj dims (ys k) in
    ps 0%nat = vzero /\ ys 0%nat = vzero /\ (forall k, pixball dims (ps k)) /\
    (forall k, is_proj (pixball dims) (ys k [-] / (INR (4 * length dims) * (sigma * tau) * (tv_mt ws * tv_mt ws)) [*] gapp dims (sol k)) (ps (S k))) /\
    (forall k, ys (S k) = ps (S k) [+] ((INR k + 2) / 2 - 1) / ((INR (S k) + 2) / 2) [*] (ps (S k) [-] ps k)) /\
    (forall rtol n, exists k, (k <= n)%nat /\ tv_run sigma rtol ws dims (Z.of_nat n) (lst x) tau = Ok (lst (sol k)) /\
      (forall j, (j < k)%nat -> ~ below rtol (tested_obj dims sigma tau x (sol j)) (match j with O => 0 | S i => tested_obj dims sigma tau x (sol i) end)) /\
      (k = n \/ below rtol (tested_obj dims sigma tau x (sol k)) (match k with O => 0 | S i => tested_obj dims sigma tau x (sol i) end))).
Proof.
  intros dims sigma tau ws x H1 H2 H3 H4 H5. assert (Hg : 0 < sigma * tau) by nra.
  exists (psv dims sigma (sigma * tau) (tv_mt ws) x), (ysv dims sigma (sigma * tau) (tv_mt ws) x). cbv zeta. split; [apply ps_0|]. split; [apply ys_0|]. split; [|split; [|split]].
  - intros [|k]; [rewrite ps_0|apply (ps_step dims H1 H2 sigma (sigma * tau) (tv_mt ws) x Hg H5 k)]. intros i Hi. rewrite (RS_ext _ _ (fun _ => 0)); [rewrite RS_zero; lra|]. intros a Ha. unfold dent. rewrite get_zero. ring.
  - intro k. pose proof (ps_step dims H1 H2 sigma (sigma * tau) (tv_mt ws) x Hg H5 k) as H. unfold dgrad in H. rewrite vscal_vscal in H.
    assert (E : sstep dims (sigma * tau) (tv_mt ws) * (sigma * tau) = / (INR (4 * length dims) * (sigma * tau) * (tv_mt ws * tv_mt ws))) by (unfold sstep; assert (0 < INR (4 * length dims)) by (apply lt_0_INR; lia); field; repeat split; lra). rewrite E in H. exact H.
  - intro k. apply ys_step.
  - intros rtol n. apply (tv_main dims H1 H2 sigma tau rtol ws H3 H4 H5 x n).
Qed.

(*! C66_converges : with rtol = 0 (no early stop; a negative rtol would stop as soon as the tested quantity is at most 1e-10) and weights of maximum mt >= 1, the exact proximal point exists and niter iterations come within 12 sigma tau mt sqrt(axes * size) / niter of it *)
Lemma C66_converges_l : forall dims sigma tau ws (x : Vec (nprod dims)), dims_ok dims -> (1 <= length dims <= 4)%nat -> 0 < sigma -> 0 < tau -> 1 <= tv_mt ws ->
  exists p, tv_exact sigma dims tau x p /\
    forall niter, (1 <= niter)%nat -> exists v : Vec (nprod dims), tv_run sigma 0 ws dims (Z.of_nat niter) (lst x) tau = Ok (lst v) /\
      norm (v [-] p) <= 12 * (sigma * tau) * tv_mt ws * sqrt (INR (length dims * nprod dims)) / INR niter.
Proof.
  intros dims sigma tau ws x H1 H2 H3 H4 H5. assert (Hg : 0 < sigma * tau) by nra. destruct (dmin_exists dims H1 ltac:(lia) (sigma * tau) x Hg) as [z Hz].
  exists (dsol (gradop dims H1) (sigma * tau) x z). split; [apply tv_prox_exact; auto|]. intros niter Hn. set (rtol := 0).
  destruct (tv_main dims H1 H2 sigma tau rtol ws H3 H4 ltac:(lra) x niter) as (k & Hk & E & _ & Hstop). exists (dsol (gradop dims H1) (sigma * tau) x (ysv dims sigma (sigma * tau) (tv_mt ws) x k)). split; [exact E|].
  assert (Hkn : k = niter).
  { destruct Hstop as [->|Hb]; [reflexivity|]. exfalso. unfold below in Hb. match type of Hb with (if Rltb _ ?o then _ else _) < _ => destruct (Rltb_spec (/ 10 ^ 10) o) as [[Ho Eo]|[_ Eo]]; rewrite Eo in Hb end; [|unfold rtol in Hb; lra].
    assert (0 < / 10 ^ 10) by (apply Rinv_0_lt_compat, pow_lt; lra). match type of Hb with Rabs ?a / ?o < _ => assert (0 <= Rabs a / o) by (apply Rmult_le_pos; [apply Rabs_pos|apply Rlt_le, Rinv_0_lt_compat; eapply Rlt_trans; [|exact Ho]; assumption]) end. unfold rtol in *. lra. }
  subst k. destruct niter as [|m]; [lia|]. apply (tv_conv dims H1 H2 sigma tau ws H3 H4 ltac:(lra) x z m); auto.
Qed.

(*! C66_sum_preserved : whatever niter and rtol, prox keeps the sum (so the mean) of the entries of x *)
Lemma C66_sum_preserved_l : forall dims sigma tau ws rtol niter (x : Vec (nprod dims)), dims_ok dims -> (1 <= length dims <= 4)%nat -> 0 < sigma -> 0 < tau -> 0 < tv_mt ws ->
  exists v : Vec (nprod dims), tv_run sigma rtol ws dims (Z.of_nat niter) (lst x) tau = Ok (lst v) /\ RS (nprod dims) (get v) = RS (nprod dims) (get x).
Proof.
  intros dims sigma tau ws rtol niter x H1 H2 H3 H4 H5. destruct (tv_main dims H1 H2 sigma tau rtol ws H3 H4 H5 x niter) as (k & _ & E & _). eexists. split; [exact E|].
  set (y := ysv dims sigma (sigma * tau) (tv_mt ws) x k). set (one := vtab (nprod dims) (fun _ => 1)).
  assert (HO : forall v : Vec (nprod dims), RS (nprod dims) (get v) = << one, v >>). { intro v. rewrite vec_inner. apply RS_ext. intros i Hi. unfold one. rewrite get_vtab by auto. ring. }
  rewrite !HO. unfold dsol. rewrite inner_add_r, inner_scal_r, <- ladj_spec. replace (gradop dims H1 one) with (vzero : Vec (length dims * nprod dims)); [rewrite inner_zero_l; ring|].
  symmetry. apply dual_ext. intros a i Ha Hi. change (dent dims (gapp dims one) a i = dent dims vzero a i). unfold gapp. rewrite dent_dtab by auto. unfold dent. rewrite get_zero. unfold fdiff. destruct (Nat.ltb_spec (S (coord dims a i)) (alen dims a)) as [Hl|]; [|reflexivity].
  pose proof (coord_range dims H1 a i Ha Hi Hl). fold (get one (i + astride dims a)) (get one i). unfold one. rewrite !get_vtab by auto. ring.
Qed.

(*! C66_momentum_refuted : the momentum numbers do not follow the FISTA recursion t' = (1 + sqrt(1 + 4 t^2)) / 2 of the cited paper: every pass that does not stop gives t' = t + 1/2, strictly smaller *)
Lemma C66_momentum_refuted_l : forall sigma gamma rtol mt dims x s s', 0 <= ttold s -> tv_body sigma gamma rtol mt dims x s = Ok (s', false) ->
  ttold s' = ttold s + / 2 /\ ttold s' < (1 + sqrt (1 + 4 * (ttold s * ttold s))) / 2.
Proof.
  intros sigma gamma rtol mt dims x s s' Ht H. assert (E : ttold s' = (1 + sqrt (4 * (ttold s * ttold s))) / 2).
  { unfold tv_body in H. destruct (negb (forallb (Nat.leb 2) dims)); [discriminate|]. destruct (tv_call sigma dims _) as [tv|e]; [|discriminate]. cbn [bind] in H.
    match type of H with (if ?b then _ else _) = _ => destruct b end; [congruence|]. match type of H with (if ?b then _ else _) = _ => destruct b end; [discriminate|]. injection H as <-. reflexivity. }
  rewrite E. split; [replace (4 * (ttold s * ttold s)) with ((2 * ttold s) * (2 * ttold s)) by ring; rewrite sqrt_square by lra; field|].
  assert (sqrt (4 * (ttold s * ttold s)) < sqrt (1 + 4 * (ttold s * ttold s))) by (apply sqrt_lt_1_alt; nra). lra.
Qed.

(*! C66_count : every call to prox adds one to the counter, also a call that raises; the number of iterations of a call is niter, or niter(counter) with the counter already incremented *)
Lemma C66_count_l : forall dims sigma niter rtol ws c x tau, exists r, tv_prox (mkTV dims sigma niter rtol ws c) x tau = (r, mkTV dims sigma niter rtol ws (S c)) /\
  (tau <= 0 -> r = Err ValueError) /\ (0 < tau -> r = tv_run sigma rtol ws dims (match niter with inl n => n | inr f => f (S c) end) x tau).
Proof.
  intros dims sigma niter rtol ws c x tau. eexists. split; [reflexivity|]. unfold check_tau. cbn [tv_sigma tv_rtol tv_ws tv_dims tv_niter tv_count]. destruct (Rleb_spec tau 0) as [[H ->]|[H ->]]; split; intro; try lra; reflexivity.
Qed.
(*! C66_errors : an array whose size is not the product of dims, an axis of length below 2 (with dims=None there is one axis of length 0), more than 4 axes, and sigma = 0 (with rtol >= 0) all raise; a negative niter returns x *)
Lemma C66_errors_l : forall sigma rtol ws dims niter x tau, (1 <= length dims)%nat ->
  (length x <> nprod dims -> tv_run sigma rtol ws dims niter x tau = Err ValueError) /\
  (length x = nprod dims -> (4 < length dims)%nat -> tv_run sigma rtol ws dims niter x tau = Err UnboundLocalError) /\
  (length x = nprod dims -> (length dims <= 4)%nat -> (0 <= niter)%Z -> ~ dims_ok dims -> tv_run sigma rtol ws dims niter x tau = Err IndexError) /\
  (length x = nprod dims -> (length dims <= 4)%nat -> (0 <= niter)%Z -> dims_ok dims -> sigma = 0 -> 0 <= rtol -> tv_run sigma rtol ws dims niter x tau = Err ZeroDivisionError) /\
  (length x = nprod dims -> (length dims <= 4)%nat -> (niter < 0)%Z -> tv_run sigma rtol ws dims niter x tau = Ok x).
Proof.
  intros sigma rtol ws dims niter x tau Hd1. unfold tv_run. split; [|split; [|split; [|split]]].
  - intro H. apply Nat.eqb_neq in H. rewrite H. reflexivity.
  - intros -> H. rewrite Nat.eqb_refl. cbn [negb]. apply Nat.ltb_lt in H. rewrite H. reflexivity.
  - intros Hx H Hn Hbad. rewrite Hx, Nat.eqb_refl. cbn [negb]. destruct (Nat.ltb_spec 4 (length dims)); [lia|]. destruct (Nat.eqb_spec (length dims) 0); [lia|]. cbn [andb].
    replace (Z.to_nat (niter + 1)) with (S (Z.to_nat niter)) by lia. cbn [for_loop]. unfold tv_body at 1. assert (EF : forallb (Nat.leb 2) dims = false). { apply not_true_iff_false. intro Ht. apply Hbad. intros k Hk. apply Nat.leb_le. apply (proj1 (forallb_forall _ _) Ht k Hk). }
    rewrite EF. reflexivity.
  - intros Hx H Hn Hok -> Hr. rewrite Hx, Nat.eqb_refl. cbn [negb]. destruct (Nat.ltb_spec 4 (length dims)); [lia|]. destruct (Nat.eqb_spec (length dims) 0); [lia|]. cbn [andb].
    replace (Z.to_nat (niter + 1)) with (S (Z.to_nat niter)) by lia. cbn [for_loop]. unfold tv_body at 1. assert (EF : forallb (Nat.leb 2) dims = true) by (apply forallb_forall; intros k Hk; apply Nat.leb_le, Hok; auto). rewrite EF. cbn [negb].
    set (z := repeat 0 _). cbn [tr tprev]. set (sl := map2 _ x (tv_div dims z)). assert (ES : sl = x).
    { apply (nth_ext _ _ 0 0); [unfold sl; rewrite map2_length; [auto|rewrite tv_div_length; auto]|]. unfold sl. rewrite map2_length by (rewrite tv_div_length; auto). intros i Hi. rewrite map2_nth by (rewrite ?tv_div_length; auto). ring. }
    rewrite ES. rewrite <- (lst_ofl _ x Hx) at 1. rewrite (tv_call_vec dims Hok) by lia. cbn [bind].
    match goal with |- context [Rltb (/ 10 ^ 10) ?o] => set (ob := o) end. assert (EO : ob = 0). { unfold ob. replace (map2 Rminus x x) with (repeat 0 (length x)). - unfold sumsq. assert (HZ : forall n, Rsum (map (fun v => v * v) (repeat 0 n)) = 0) by (intro m; induction m as [|m IH]; [reflexivity|cbn [repeat map Rsum]; rewrite IH; ring]). rewrite HZ. ring. - clear. induction x as [|c x IH]; [reflexivity|]. cbn [length repeat map2]. rewrite <- IH. f_equal. ring. }
    rewrite EO. destruct (Rltb_spec (/ 10 ^ 10) 0) as [[H1 _]|[_ ->]]; [assert (0 < / 10 ^ 10) by (apply Rinv_0_lt_compat, pow_lt; lra); lra|]. destruct (Rltb_spec (2 * rtol) rtol) as [[H1 _]|[_ ->]]; [lra|].
    destruct (Reqb_spec (INR (4 * length dims) * (0 * tau) * (tv_mt ws * tv_mt ws)) 0) as [[_ ->]|[H1 _]]; [reflexivity|]. exfalso. apply H1. ring.
  - intros Hx H Hn. rewrite Hx, Nat.eqb_refl. cbn [negb]. destruct (Nat.ltb_spec 4 (length dims)); [lia|]. destruct (Nat.eqb_spec (length dims) 0); [lia|]. cbn [andb]. replace (Z.to_nat (niter + 1)) with 0%nat by lia. reflexivity.
Qed.

Lemma list2 (a b c e : R) : a = c -> b = e -> [a; b] = [c; e]. Proof. intros; subst; reflexivity. Qed.
Lemma stop_lst : lst stop_x = [0; 1 / 2]. Proof. apply (lst_ofl 2). reflexivity. Qed.
Lemma div2 a b : tv_div [2%nat] [a; b] = [a; - a].
Proof. unfold tv_div. cbn [nprod fold_right Nat.mul Nat.add seq map length RS]. apply list2; cbn; ring. Qed.
Lemma grad2 a b : tv_grad [2%nat] [a; b] = [b - a; 0].
Proof. reflexivity. Qed.
Lemma var2f (f : nat -> R) : variation [2%nat] f = Rabs (f 1%nat - f 0%nat).
Proof.
  unfold variation. cbn [nprod fold_right Nat.mul Nat.add RS length]. assert (E0 : forward_diff [2%nat] f 0 0 = f 1%nat - f 0%nat) by reflexivity. assert (E1 : forward_diff [2%nat] f 0 1 = 0) by reflexivity. rewrite E0, E1.
  replace (0 + 0 * 0) with 0 by ring. rewrite sqrt_0, !Rplus_0_l, Rplus_0_r. apply sqrt_Rsqr_abs.
Qed.
Lemma var2 a b : variation [2%nat] (get (ofl (nprod [2%nat]) [a; b])) = Rabs (b - a).
Proof. rewrite var2f. reflexivity. Qed.
Lemma sol2 g a b : solL [2%nat] g stop_x [a; b] = [- g * a; 1 / 2 + g * a].
Proof. unfold solL. rewrite stop_lst, div2. cbn [map2]. apply list2; ring. Qed.
Lemma obj2 s g a b : objL [2%nat] s g stop_x [a; b] = g * a * (g * a) + g * (s * Rabs (1 / 2 + 2 * (g * a))).
Proof.
  unfold objL. rewrite sol2, stop_lst, tv_fun_var, var2. unfold sumsq. cbn [map2 map Rsum]. replace (1 / 2 + g * a - - g * a) with (1 / 2 + 2 * (g * a)) by ring. field.
Qed.

(*! C66_stop_refuted : the stopping test can end the iteration far from the proximal point, for every niter >= 1 and every rtol in (0, 1]: the tested quantity weighs the variation with sigma^2 tau instead of
   sigma tau, and for dims (2,), sigma = 1/4, tau = 1, x = (0, 1/2) it does not change in the first iteration; prox returns (1/8, 3/8) while the proximal point is (1/4, 1/4) *)
Lemma C66_stop_refuted_l : forall niter rtol, (1 <= niter)%nat -> 0 < rtol <= 1 ->
  tv_run (1 / 4) rtol [] [2%nat] (Z.of_nat niter) [0; 1 / 2] 1 = Ok [1 / 8; 3 / 8] /\ tv_exact (1 / 4) [2%nat] 1 stop_x (ofl (nprod [2%nat]) [1 / 4; 1 / 4]) /\ [1 / 8; 3 / 8] <> [1 / 4; 1 / 4].
Proof.
  intros niter rtol Hn Hr. split; [|split].
  - rewrite <- stop_lst, tv_run_eq by (simpl; lia). cbn [tv_mt].
    assert (Hok : dims_ok [2%nat]) by (intros k [<-|[]]; lia).
    destruct (run_states [2%nat] Hok ltac:(simpl; lia) (1 / 4) (1 / 4 * 1) rtol 1 stop_x ltac:(lra) ltac:(lra) niter) as (k & s' & E1 & E2 & H1 & H2 & H3).
    rewrite E1. cbn [bind]. rewrite E2.
    set (st := stk [2%nat] (1 / 4) (1 / 4 * 1) 1 stop_x) in *.
    assert (ER : r1L [2%nat] (1 / 4 * 1) 1 stop_x [0; 0] = [- / 2; 0]).
    { unfold r1L. rewrite sol2, grad2. cbn [map2]. unfold cst. cbn [length]. replace (INR (4 * 1)) with 4 by (simpl; lra). apply list2; field. }
    assert (EP : pL [2%nat] (1 / 4 * 1) 1 stop_x [0; 0] = [- / 2; 0]).
    { unfold pL. rewrite ER. unfold tab. cbn [length nprod fold_right Nat.mul Nat.add seq map]. unfold magn. cbn [length nprod fold_right Nat.mul Nat.add].
      change (ent 2 [- / 2; 0] (0 / 2) (0 mod 2)) with (- / 2). change (ent 2 [- / 2; 0] (1 / 2) (1 mod 2)) with 0. change (ent 2 [- / 2; 0] 0 (0 mod 2)) with (- / 2). change (ent 2 [- / 2; 0] 0 (1 mod 2)) with 0.
      rewrite Rabs_R0, (Rabs_left (- / 2)) by lra. rewrite !Rmax_left by lra. apply list2; field. }
    assert (ET : tr (st 1%nat) = [- / 2; 0]).
    { unfold st. rewrite stk_S. unfold pass. change (stk [2%nat] (1 / 4) (1 / 4 * 1) 1 stop_x 0) with (st0 [2%nat] stop_x). cbn [tr tpold ttold st0]. change (repeat 0 (length [2%nat] * nprod [2%nat])) with [0; 0]. rewrite EP. cbn [map2]. replace ((1 - 1) / ((1 + sqrt (4 * (1 * 1))) / 2)) with 0 by (unfold Rdiv; ring). apply list2; ring. }
    assert (EV : tprev (st 1%nat) = 1 / 32).
    { unfold st. rewrite stk_S. unfold pass. cbn [tprev]. change (tr (stk [2%nat] (1 / 4) (1 / 4 * 1) 1 stop_x 0)) with [0; 0]. rewrite obj2. rewrite Rabs_right by lra. field. }
    assert (HP : / 10 ^ 10 < 1 / 32) by lra.
    assert (S0 : stop [2%nat] (1 / 4) (1 / 4 * 1) rtol stop_x (st 0%nat) = false).
    { apply not_true_iff_false. intro Hs. unfold stop in Hs. apply Rltb_true in Hs. unfold relL in Hs. change (tr (st 0%nat)) with [0; 0] in Hs. change (tprev (st 0%nat)) with 0 in Hs. rewrite obj2 in Hs. rewrite (Rabs_right (1 / 2 + 2 * (1 / 4 * 1 * 0))) in Hs by lra.
      replace (1 / 4 * 1 * 0 * (1 / 4 * 1 * 0) + 1 / 4 * 1 * (1 / 4 * (1 / 2 + 2 * (1 / 4 * 1 * 0)))) with (1 / 32) in Hs by field. rewrite (proj2 (Rltb_true _ _) HP) in Hs. rewrite Rabs_right in Hs by lra. replace ((1 / 32 - 0) / (1 / 32)) with 1 in Hs by field. lra. }
    assert (S1 : stop [2%nat] (1 / 4) (1 / 4 * 1) rtol stop_x (st 1%nat) = true).
    { unfold stop. apply Rltb_true. unfold relL. rewrite ET, EV, obj2. replace (1 / 2 + 2 * (1 / 4 * 1 * - / 2)) with (1 / 4) by field. rewrite (Rabs_right (1 / 4)) by lra.
      replace (1 / 4 * 1 * - / 2 * (1 / 4 * 1 * - / 2) + 1 / 4 * 1 * (1 / 4 * (1 / 4))) with (1 / 32) by field. rewrite (proj2 (Rltb_true _ _) HP). replace (1 / 32 - 1 / 32) with 0 by ring. rewrite Rabs_R0. replace (0 / (1 / 32)) with 0 by field. lra. }
    assert (EK : k = 1%nat).
    { destruct k as [|[|k]]; [|reflexivity|].
      - destruct H3 as [H3|H3]; [lia|]. rewrite S0 in H3. discriminate.
      - specialize (H2 1%nat ltac:(lia)). rewrite S1 in H2. discriminate. }
    subst k. rewrite ET, sol2. f_equal. apply list2; field.
  - split; [exact I|]. intros y _. cbn [eval etot]. rewrite var2. rewrite !vec_norm2. cbn [nprod fold_right Nat.mul Nat.add RS]. rewrite !get_sub by (cbn; lia). unfold stop_x. rewrite !(get_ofl (nprod [2%nat])) by (cbn; lia). cbn [nth].
    rewrite var2f. replace (1 / 4 - 1 / 4) with 0 by ring. rewrite Rabs_R0.
    match goal with |- context [Rabs (?u - ?v)] => generalize u v; intros b a end. pose proof (Rle_abs (b - a)) as H1.
    pose proof (Rle_0_sqr (a - 1 / 4)). pose proof (Rle_0_sqr (b - 1 / 4)). unfold Rsqr in *. lra.
  - intro H. injection H as H _. lra.
Qed.

(*!ex C66_example : the convergence bound applies to a 2 x 2 image with sigma = tau = 1, and 100 iterations without early stop are within 0.34 of the exact proximal point *)
Lemma C66_example_l : forall x : Vec (nprod [2%nat; 2%nat]), exists p, tv_exact 1 [2%nat; 2%nat] 1 x p /\ exists v : Vec (nprod [2%nat; 2%nat]), tv_run 1 0 [] [2%nat; 2%nat] (Z.of_nat 100) (lst x) 1 = Ok (lst v) /\ norm (v [-] p) <= 34 / 100.
Proof.
  intro x. assert (Hok : dims_ok [2%nat; 2%nat]) by (intros k [<-|[<-|[]]]; lia). destruct (C66_converges_l [2%nat; 2%nat] 1 1 [] x Hok ltac:(simpl; lia) ltac:(lra) ltac:(lra) ltac:(simpl; lra)) as (p & Hp & H). exists p. split; [exact Hp|].
  destruct (H 100%nat ltac:(lia)) as (v & E & Hv). exists v. split; [exact E|]. eapply Rle_trans; [exact Hv|]. cbn [tv_mt]. change (length [2%nat; 2%nat] * nprod [2%nat; 2%nat])%nat with 8%nat. replace (INR 8) with 8 by (simpl; lra). replace (INR 100) with 100 by (rewrite INR_IZR_INZ; reflexivity).
  assert (HS : sqrt 8 <= 283 / 100). { rewrite <- (sqrt_square (283 / 100)) by lra. apply sqrt_le_1_alt. lra. } lra.
Qed.
