(** * The GPU engine of Simplex: every schedule of the threads gives the row-wise result *)
From Coq Require Import ZArith Psatz FunctionalExtensionality.
From Verif Require Import Base Space Spec SpecOps ConvexFacts M_ProxOp M_L1 P_L1 MatFacts VSum M_Proj P_Proj P_Proj2 M_Opts M_Cuda.
Open Scope result_scope.

(** ** the bisection of one row *)
Lemma dev_eq_sgn fc fa : fc <> 0 -> dev_eq (dev_sign fc) (dev_sign fa) = Reqb (sgn fc) (sgn fa).
Proof.
  intro Hc. unfold dev_sign. destruct (Reqb_spec fc 0) as [[? _]|[_ ->]]; [lra|].
  assert (Q : forall v, v <> 0 -> v / Rabs v = sgn v).
  { intros v Hv. rewrite <- (sgn_abs v) at 1. field. apply Rabs_no_R0; auto. }
  destruct (Reqb_spec fa 0) as [[-> ->]|[Ha ->]]; cbn [dev_eq]; [|rewrite !Q; auto].
  rewrite sgn_0. destruct (Reqb_spec (sgn fc) 0) as [[E _]|[_ ->]]; [|reflexivity]. exfalso.
  destruct (Rlt_dec fc 0); [rewrite sgn_neg in E by lra; lra|rewrite sgn_pos in E by lra; lra].
Qed.
Lemma bisect_cuda_jit f ftol xtol : 0 < ftol -> forall n a b fa c,
  bisect_cuda_loop f ftol xtol n a b fa c = bisect_jit_loop f ftol xtol n a b fa c.
Proof.
  intro Hf. induction n as [|n IH]; intros a b fa c; cbn [bisect_cuda_loop bisect_jit_loop]; [reflexivity|].
  destruct (Rltb ((b - a) / 2) xtol); [reflexivity|]. destruct (Rltb_spec (Rabs (f ((a + b) / 2))) ftol) as [[_ ->]|[H ->]]; [reflexivity|].
  rewrite dev_eq_sgn; [rewrite !IH; reflexivity|]. intro E. rewrite E, Rabs_R0 in H. lra.
Qed.
Lemma fun_cuda_hp q (z : Vec q) (x : nat -> R) radius : (forall j, (j < q)%nat -> x j = get z j) ->
  fun_jit_cuda q (fun _ => 1) x radius 0 (10 ^ 10) = hp_fun (ones q) radius jit_bounds z.
Proof.
  intro H. apply functional_extensionality. intro mu. unfold fun_jit_cuda. rewrite hp_fun_RS. f_equal. apply RS_ext. intros i Hi.
  rewrite get_ones, H by auto. reflexivity.
Qed.

(** ** stores *)
Lemma set_nth_in {A} (ps : list (list A)) : forall t w ws, nth_error ps t = Some (w :: ws) ->
  forall p, In p (set_nth ps t ws) -> forall v, In v p -> exists p', In p' ps /\ In v p'.
Proof.
  induction ps as [|a ps IH]; intros [|t] w ws E p Hp v Hv; cbn [nth_error set_nth] in *; try discriminate.
  - injection E as ->. destruct Hp as [<-|Hp]; [exists (w :: ws); split; [left|right]; auto|exists p; split; [right|]; auto].
  - destruct Hp as [<-|Hp]; [exists a; split; [left|]; auto|]. destruct (IH t w ws E p Hp v Hv) as [p' [H1 H2]]. exists p'. split; [right|]; auto.
Qed.
Lemma set_nth_in_rev {A} (ps : list (list A)) : forall t w ws, nth_error ps t = Some (w :: ws) ->
  forall p v, In p ps -> In v p -> v = w \/ exists p', In p' (set_nth ps t ws) /\ In v p'.
Proof.
  induction ps as [|a ps IH]; intros [|t] w ws E p v Hp Hv; cbn [nth_error set_nth] in *; try discriminate.
  - injection E as ->. destruct Hp as [<-|Hp]; [destruct Hv as [<-|Hv]; auto|]; right; [exists ws|exists p]; (split; [|auto]); [left|right]; auto.
  - destruct Hp as [<-|Hp]; [right; exists a; split; [left|]; auto|]. destruct (IH t w ws E p v Hp Hv) as [?|[p' [H1 H2]]]; auto.
    right. exists p'. split; [right|]; auto.
Qed.
Definition pending (ps : list (list store)) i j := exists p w, In p ps /\ In w p /\ st_row w = i /\ st_col w = j.
Lemma run_spec (V : nat -> nat -> R) ps m m' : cuda_run ps m m' -> (forall p w, In p ps -> In w p -> st_val w = V (st_row w) (st_col w)) ->
  forall i j, (pending ps i j -> m' i j = V i j) /\ (~ pending ps i j -> m' i j = m i j) /\ (m i j = V i j -> m' i j = V i j).
Proof.
  induction 1 as [ps m H|ps m m' t w ws E R IH]; intros HV i j.
  - split; [|split; auto]. intros (p & w & Hp & Hw & _). apply H in Hp. subst. destruct Hw.
  - assert (HV' : forall p v, In p (set_nth ps t ws) -> In v p -> st_val v = V (st_row v) (st_col v)).
    { intros p v Hp Hv. destruct (set_nth_in ps t w ws E p Hp v Hv) as [p' [H1 H2]]. eauto. }
    destruct (IH HV' i j) as (A & B & C). assert (Hin : In (w :: ws) ps) by (eapply nth_error_In; eauto).
    assert (Hw : st_val w = V (st_row w) (st_col w)) by (apply (HV (w :: ws)); [auto|left; auto]). unfold dwrite in *.
    split; [|split].
    + intros (p & v & Hp & Hv & <- & <-). destruct (set_nth_in_rev ps t w ws E p v Hp Hv) as [->|[p' [H1 H2]]].
      * apply C. rewrite !Nat.eqb_refl. exact Hw.
      * apply A. exists p', v. auto.
    + intro Hn. rewrite B.
      * destruct (Nat.eqb_spec i (st_row w)) as [->|]; [|reflexivity]. destruct (Nat.eqb_spec j (st_col w)) as [->|]; [|reflexivity]. exfalso.
        apply Hn. exists (w :: ws), w. split; [auto|]. split; [left|]; auto.
      * intros (p & v & Hp & Hv & E1 & E2). apply Hn. destruct (set_nth_in ps t w ws E p Hp v Hv) as [p' [H1 H2]]. exists p', v. auto.
    + intro Hm. apply C. destruct (Nat.eqb_spec i (st_row w)) as [->|]; [|exact Hm]. destruct (Nat.eqb_spec j (st_col w)) as [->|]; [exact Hw|exact Hm].
Qed.
(** no schedule can block: from any state the launched kernel can be run to its end *)
Lemma set_nth_len {A} (l : list A) : forall i a, length (set_nth l i a) = length l.
Proof. induction l as [|b l IH]; intros [|i] a; cbn [set_nth length]; auto. Qed.
Fixpoint left_over (ps : list (list store)) : nat := match ps with [] => 0 | p :: ps => length p + left_over ps end.
Lemma left_over_step ps : forall t w ws, nth_error ps t = Some (w :: ws) -> left_over ps = S (left_over (set_nth ps t ws)).
Proof.
  induction ps as [|a ps IH]; intros [|t] w ws E; cbn [nth_error set_nth left_over] in *; try discriminate.
  - injection E as ->. reflexivity.
  - rewrite (IH _ _ _ E). lia.
Qed.
Lemma left_over_pos ps : forall n, left_over ps = S n -> exists t w ws, nth_error ps t = Some (w :: ws).
Proof.
  induction ps as [|[|w p] ps IH]; intros n E; cbn [left_over length] in E; [discriminate| |exists 0%nat, w, p; reflexivity].
  destruct (IH n E) as (t & w & ws & H). exists (S t), w, ws. exact H.
Qed.
Lemma left_over_0 ps : left_over ps = 0%nat -> forall p, In p ps -> p = [].
Proof. induction ps as [|a ps IH]; intros E p; cbn [left_over] in E; [intros []|]. intros [<-|H]; [destruct a; [auto|cbn in E; lia]|apply IH; [lia|auto]]. Qed.
Lemma run_exists : forall n ps m, left_over ps = n -> exists m', cuda_run ps m m'.
Proof.
  induction n as [|n IH]; intros ps m E.
  - exists m. apply cuda_end. apply left_over_0; auto.
  - destruct (left_over_pos ps n E) as (t & w & ws & H). pose proof (left_over_step ps t w ws H) as Q. destruct (IH (set_nth ps t ws) (dwrite m w)) as [m' R]; [lia|].
    exists m'. eapply cuda_next; eauto.
Qed.

(** ** the thread grid *)
Lemma grid_covers rows t i : (0 < t)%nat -> (i < rows)%nat -> In i (cuda_thread_ids rows t).
Proof.
  intros Ht Hi. unfold cuda_thread_ids. apply in_flat_map. exists (i / t)%nat. split.
  - apply in_seq. split; [lia|]. cbn [plus]. unfold cuda_blocks. apply Nat.lt_le_trans with (S (i / t))%nat; [lia|].
    apply Nat.div_le_lower_bound; [lia|]. pose proof (Nat.mul_div_le i t ltac:(lia)). lia.
  - apply in_map_iff. exists (i mod t)%nat. split; [|apply in_seq; split; [lia|apply Nat.mod_upper_bound; lia]].
    rewrite (Nat.mul_comm (i / t) t), Nat.add_comm. symmetry. apply Nat.div_mod. lia.
Qed.
Lemma mapM_in {A B} (f : A -> result B) l : forall ys, mapM f l = Ok ys -> (forall a, In a l -> exists b, f a = Ok b /\ In b ys) /\ (forall b, In b ys -> exists a, In a l /\ f a = Ok b).
Proof.
  induction l as [|a l IH]; intros ys; cbn [mapM].
  - intros [= <-]. split; [intros ? []|intros ? []].
  - destruct (f a) as [b|] eqn:Ea; cbn [bind]; [|discriminate]. destruct (mapM f l) as [bs|]; cbn [bind]; [|discriminate]. intros [= <-].
    destruct (IH bs eq_refl) as [H1 H2]. split.
    + intros a' [<-|H]; [exists b; split; [auto|left; auto]|]. destruct (H1 a' H) as [b' [? ?]]. exists b'. split; [auto|right; auto].
    + intros b' [<-|H]; [exists a; split; [left; auto|auto]|]. destruct (H2 b' H) as [a' [? ?]]. exists a'. split; [right; auto|auto].
Qed.

(** ** the launch *)
Lemma thread_row p q radius maxiter ftol xtol fuel (x : Vec (p * q)) i : 0 < ftol -> (i < p)%nat ->
  cuda_thread p q (fun _ => 1) (fun i j => get x (i * q + j)) radius 0 (10 ^ 10) maxiter ftol xtol fuel i =
  (z <- simplex_jit radius maxiter ftol xtol fuel (rowv x i) ;; Ok (map (fun j => mkStore i j (get z j)) (seq 0 q))).
Proof.
  intros Hf Hi. unfold cuda_thread, simplex_jit. destruct (Nat.ltb_spec i p) as [_|]; [|lia].
  rewrite (fun_cuda_hp q (rowv x i)) by (intros j Hj; symmetry; apply get_rowv; auto). set (f := hp_fun _ _ _ _).
  destruct (hp_bracket f fuel) as [[lo hi]|e]; cbn [bind fst snd]; [|reflexivity]. unfold bisect_jit_cuda, bisect_jit. rewrite bisect_cuda_jit by auto.
  destruct (bisect_jit_loop f ftol xtol maxiter lo hi (f lo) None) as [mu|]; cbn [bind]; [|reflexivity]. f_equal. apply map_ext_in. intros j Hj. apply in_seq in Hj.
  f_equal. unfold boxv. rewrite get_vtab, get_sub, get_scal, get_ones, get_rowv by lia. reflexivity.
Qed.
Lemma launch_iff p q t radius maxiter ftol xtol fuel (x y : Vec (p * q)) y0 : (0 < t)%nat -> 0 < ftol ->
  cuda_launch t q radius maxiter ftol xtol fuel x y0 y <-> by_rows (simplex_jit radius maxiter ftol xtol fuel) x = Ok y.
Proof.
  intros Ht Hf. set (th := cuda_thread p q (fun _ => 1) (fun i j => get x (i * q + j)) radius 0 (10 ^ 10) maxiter ftol xtol fuel).
  assert (Hrow : forall i, (i < p)%nat -> th i = (z <- simplex_jit radius maxiter ftol xtol fuel (rowv x i) ;; Ok (map (fun j => mkStore i j (get z j)) (seq 0 q)))).
  { intros i Hi. apply thread_row; auto. }
  assert (Hout : forall i, ~ (i < p)%nat -> th i = Ok []).
  { intros i Hi. unfold th, cuda_thread. destruct (Nat.ltb_spec i p); [lia|reflexivity]. }
  assert (Hdiv : forall i j, (j < q)%nat -> ((i * q + j) / q)%nat = i /\ ((i * q + j) mod q)%nat = j) by (intros; apply divmod_flat; auto).
  assert (Main : forall ps m (z : Vec (p * q)), mapM th (cuda_thread_ids p t) = Ok ps -> cuda_run ps y0 m -> (forall i, (i < p)%nat -> simplex_jit radius maxiter ftol xtol fuel (rowv x i) = Ok (rowv z i)) ->
    forall i j, (i < p)%nat -> (j < q)%nat -> m i j = get z (i * q + j)).
  { intros ps m z Eps Hrun Hz i j Hi Hj. destruct (mapM_in _ _ _ Eps) as [I1 I2].
    refine (proj1 (run_spec (fun i j => get z (i * q + j)) ps y0 m Hrun _ i j) _).
    - intros l w Hl Hw. destruct (I2 l Hl) as [a [_ Ha]]. destruct (lt_dec a p) as [Hp|Hp]; [|rewrite Hout in Ha by auto; injection Ha as <-; destruct Hw].
      rewrite Hrow, Hz in Ha by auto. cbn [bind] in Ha. injection Ha as <-. apply in_map_iff in Hw as [j' [<- Hj']]. apply in_seq in Hj'. cbn [st_val st_row st_col]. apply get_rowv. lia.
    - destruct (I1 i (grid_covers p t i Ht Hi)) as [l [Hl Hin]]. rewrite Hrow, Hz in Hl by auto. cbn [bind] in Hl. injection Hl as <-.
      eexists _, (mkStore i j (get (rowv z i) j)). split; [exact Hin|]. split; [|split; reflexivity]. apply in_map_iff. exists j. split; [reflexivity|]. apply in_seq. lia. }
  rewrite by_rows_iff. split.
  - intros [_ (ps & m & Eps & Hrun & ->)]. fold th in Eps. destruct (mapM_in _ _ _ Eps) as [I1 I2].
    assert (Hz : exists z, by_rows (simplex_jit radius maxiter ftol xtol fuel) x = Ok z).
    { unfold by_rows. destruct (mapM_total (fun i => simplex_jit radius maxiter ftol xtol fuel (rowv x i)) (seq 0 p)) as [ys ->]; [|cbn [bind]; eauto].
      intros i Hi. apply in_seq in Hi. destruct (I1 i (grid_covers p t i Ht ltac:(lia))) as [l [Hl _]]. rewrite Hrow in Hl by lia.
      destruct (simplex_jit radius maxiter ftol xtol fuel (rowv x i)) as [zi|]; [eauto|discriminate]. }
    destruct Hz as [z Hz]. rewrite by_rows_iff in Hz. intros i Hi. rewrite (Hz i Hi). f_equal. apply vec_ext. intros j Hj. rewrite !get_rowv by auto.
    rewrite get_vtab by (apply flat_lt; auto). destruct (Hdiv i j Hj) as [-> ->]. symmetry. exact (Main ps m z Eps Hrun Hz i j Hi Hj).
  - intro Hy. split; [lia|]. fold th. destruct (mapM_total th (cuda_thread_ids p t)) as [ps Eps].
    { intros i _. destruct (lt_dec i p) as [Hp|Hp]; [rewrite Hrow, Hy by auto; cbn [bind]; eauto|rewrite Hout by auto; eauto]. }
    destruct (run_exists (left_over ps) ps y0 eq_refl) as [m Hrun]. exists ps, m. split; [exact Eps|]. split; [exact Hrun|].
    apply rows_ext. intros i Hi. apply vec_ext. intros j Hj. rewrite !get_rowv by auto. rewrite get_vtab by (apply flat_lt; auto). destruct (Hdiv i j Hj) as [-> ->].
    symmetry. exact (Main ps m y Eps Hrun Hy i j Hi Hj).
Qed.

(*! C77_schedule : dims = (r, c), any positive number of threads per block, 0 < ftol: whatever the order in which the threads store and whatever the
   output memory held before, y is a possible result of prox exactly when the sequential numba engine returns y, for axis = 1 or -1 (rows) and 0 (columns);
   so the result exists exactly when the sequential one does, and is unique *)
Lemma C77_schedule_l : forall r c axis t radius maxiter ftol xtol fuel (x y : Vec (r * c)) tau y0, (0 < t)%nat -> 0 < ftol -> 0 < tau ->
  (axis = 1%Z \/ axis = (-1)%Z ->
     (cuda_prox axis t radius maxiter ftol xtol fuel x tau y0 y <-> simplex_prox_rows (simplex_jit radius maxiter ftol xtol fuel) x tau = Ok y)) /\
  (axis = 0%Z ->
     (cuda_prox axis t radius maxiter ftol xtol fuel x tau y0 y <-> simplex_prox_cols (simplex_jit radius maxiter ftol xtol fuel) x tau = Ok y)).
Proof.
  intros r c axis t radius maxiter ftol xtol fuel x y tau y0 Ht Hf Htau. unfold simplex_prox_rows, simplex_prox_cols, cuda_prox.
  destruct (Rleb_spec tau 0) as [[? _]|[_ ->]]; [lra|]. split; intro Ha.
  - assert (Ek : simplex_init (r * c) (Some [r; c]) axis = Ok c) by (destruct Ha as [->| ->]; reflexivity).
    assert (E0 : (axis =? 0)%Z = false) by (destruct Ha as [->| ->]; reflexivity). rewrite E0, Ek. split.
    + intros [_ [k [Hk H]]]. apply Ok_inj in Hk. subst k. apply (launch_iff r c t radius maxiter ftol xtol fuel x y y0 Ht Hf). exact H.
    + intro H. split; [exact Htau|]. exists c. split; [reflexivity|]. apply (launch_iff r c t radius maxiter ftol xtol fuel x y y0 Ht Hf). exact H.
  - subst axis. assert (Ek : simplex_init (r * c) (Some [r; c]) 0 = Ok r) by reflexivity. rewrite Ek. cbn [Z.eqb]. split.
    + intros [_ [k [Hk [z [H ->]]]]]. apply Ok_inj in Hk. subst k. apply (launch_iff c r t radius maxiter ftol xtol fuel (transp x) z y0 Ht Hf) in H. rewrite H. reflexivity.
    + destruct (by_rows (simplex_jit radius maxiter ftol xtol fuel) (transp x)) as [z|e] eqn:E; cbn [bind]; [|discriminate]. intro Ey. apply Ok_inj in Ey. subst y.
      split; [exact Htau|]. exists r. split; [reflexivity|]. exists z. split; [|reflexivity]. apply (launch_iff c r t radius maxiter ftol xtol fuel (transp x) z y0 Ht Hf). exact E.
Qed.

Lemma jit_exact n radius maxiter ftol xtol fuel (z w : Vec n) W : 0 < ftol -> radius <= 10 ^ 10 ->
  (forall lo hi, hp_bracket (hp_fun (ones n) radius jit_bounds z) fuel = Ok (lo, hi) -> hi - lo <= W) -> simplex_jit radius maxiter ftol xtol fuel z = Ok w ->
  exists p, is_proj (simplex_set radius) z p /\ norm (w [-] p) <= Rmax ftol (Rmax xtol (W / 2 ^ maxiter) * sqrt (INR n)).
Proof.
  intros Hf Hr HW H. assert (exists b, hp_bracket (hp_fun (ones n) radius jit_bounds z) fuel = Ok b) as [[lo hi] Eb].
  { unfold simplex_jit in H. destruct (hp_bracket _ fuel) as [b|]; [eauto|discriminate]. }
  destruct (C23_simplex_numba_l n radius maxiter ftol xtol fuel z w lo hi Hr Hf Eb H) as [p [P1 P2]]. exists p. split; [exact P1|].
  eapply Rle_trans; [exact P2|]. apply Rle_max_compat_l. apply Rmult_le_compat_r; [apply sqrt_pos|]. apply Rle_max_compat_l.
  unfold Rdiv. apply Rmult_le_compat_r; [|exact (HW lo hi Eb)]. left. apply Rinv_0_lt_compat. apply pow_lt. lra.
Qed.
(*! C77_exact : for radius <= 1e10 and within brackets of width at most W, every row (axis = 1 or -1) or column (axis = 0) of every possible result is within
   max(ftol, sqrt n max(xtol, W/2^maxiter)) of the Euclidean projection of that row or column on the simplex, n its length *)
Lemma C77_exact_l : forall r c axis t radius maxiter ftol xtol fuel (x y : Vec (r * c)) tau y0 W, (0 < t)%nat -> 0 < ftol -> radius <= 10 ^ 10 ->
  cuda_prox axis t radius maxiter ftol xtol fuel x tau y0 y ->
  (axis = 1%Z \/ axis = (-1)%Z -> (forall i lo hi, (i < r)%nat -> hp_bracket (hp_fun (ones c) radius jit_bounds (rowv x i)) fuel = Ok (lo, hi) -> hi - lo <= W) ->
     forall i, (i < r)%nat -> exists p, is_proj (simplex_set radius) (rowv x i) p /\ norm (rowv y i [-] p) <= Rmax ftol (Rmax xtol (W / 2 ^ maxiter) * sqrt (INR c))) /\
  (axis = 0%Z -> (forall j lo hi, (j < c)%nat -> hp_bracket (hp_fun (ones r) radius jit_bounds (colv x j)) fuel = Ok (lo, hi) -> hi - lo <= W) ->
     forall j, (j < c)%nat -> exists p, is_proj (simplex_set radius) (colv x j) p /\ norm (colv y j [-] p) <= Rmax ftol (Rmax xtol (W / 2 ^ maxiter) * sqrt (INR r))).
Proof.
  intros r c axis t radius maxiter ftol xtol fuel x y tau y0 W Ht Hf Hr H. pose proof (proj1 H) as Htau.
  destruct (C77_schedule_l r c axis t radius maxiter ftol xtol fuel x y tau y0 Ht Hf Htau) as [S1 S2]. destruct (C23_dims_l r c x y tau Htau) as [D1 D2]. split; intros Ha HW i Hi.
  - apply (jit_exact c radius maxiter ftol xtol fuel (rowv x i) (rowv y i) W Hf Hr); [intros lo hi; apply HW; auto|]. apply (proj1 (D1 _) (proj1 (S1 Ha) H)); auto.
  - apply (jit_exact r radius maxiter ftol xtol fuel (colv x i) (colv y i) W Hf Hr); [intros lo hi; apply HW; auto|]. apply (proj1 (D2 _) (proj1 (S2 Ha) H)); auto.
Qed.

Lemma cuda_step f ftol xtol n a b fa o : bisect_cuda_loop f ftol xtol (S n) a b fa o =
  if Rltb ((b - a) / 2) xtol then Ok ((a + b) / 2) else if Rltb (Rabs (f ((a + b) / 2))) ftol then Ok ((a + b) / 2)
  else if dev_eq (dev_sign (f ((a + b) / 2))) (dev_sign fa) then bisect_cuda_loop f ftol xtol n ((a + b) / 2) b (f ((a + b) / 2)) (Some ((a + b) / 2))
  else bisect_cuda_loop f ftol xtol n a ((a + b) / 2) fa (Some ((a + b) / 2)).
Proof. reflexivity. Qed.
(*! C77_axis_refuted : axis = -2 names the first of two dimensions but is not treated as 0: on a 1 x 2 matrix the kernel stores one entry of the row only, and the
   other entry of the result is whatever the output memory held *)
Lemma C77_axis_refuted_l : forall g, exists (x y : Vec (1 * 2)) y0, cuda_prox (-2)%Z 32 1 100 (/ 10 ^ 8) (/ 10 ^ 8) 10 x 1 y0 y /\ get y 1 = g.
Proof.
  intro g. set (x := vtab (1 * 2) (fun _ => 1) : Vec (1 * 2)). set (y0 := fun _ _ : nat => g).
  assert (Hth : cuda_thread 1 1 (fun _ => 1) (fun i j => get x (i * 2 + j)) 1 0 (10 ^ 10) 100 (/ 10 ^ 8) (/ 10 ^ 8) 10 0 = Ok [mkStore 0 0 1]).
  { unfold cuda_thread. cbn [Nat.ltb Nat.leb]. set (f := fun_jit_cuda _ _ _ _ _ _).
    assert (Hx : get x (0 * 2 + 0) = 1) by (apply get_vtab; lia).
    assert (Hf : forall mu, f mu = Rmin (Rmax (1 - mu) 0) (10 ^ 10) - 1).
    { intro mu. unfold f, fun_jit_cuda. cbn [RS]. rewrite Hx. rewrite Rmult_1_r, Rmult_1_l. ring. }
    assert (B1 : 2 <= 10 ^ 10) by lra.
    assert (F1 : f (-1) = 1) by (rewrite Hf, Rmax_left, Rmin_left by lra; lra).
    assert (F2 : f 1 = -1) by (rewrite Hf, Rmax_left, Rmin_left by lra; lra).
    assert (F0 : f 0 = 0) by (rewrite Hf, Rmax_left, Rmin_left by lra; lra).
    unfold hp_bracket. cbn [double_while]. rewrite F1, F2. destruct (Rltb_spec 1 0) as [[? _]|[_ ->]]; [lra|]. cbn [bind]. destruct (Rltb_spec 0 (-1)) as [[? _]|[_ ->]]; [lra|]. cbn [bind fst snd].
    unfold bisect_jit_cuda. rewrite cuda_step. replace ((-1 + 1) / 2) with 0 by field. rewrite F0.
    destruct (Rltb_spec ((1 - -1) / 2) (/ 10 ^ 8)) as [[? _]|[_ ->]]; [lra|]. rewrite Rabs_R0. destruct (Rltb_spec 0 (/ 10 ^ 8)) as [[_ ->]|[? _]]; [|lra].
    cbn [bind seq map]. rewrite Hx. do 3 f_equal. rewrite Rmax_left, Rmin_left by lra. lra. }
  assert (Hother : forall i, (1 <= i)%nat -> cuda_thread 1 1 (fun _ => 1) (fun i j => get x (i * 2 + j)) 1 0 (10 ^ 10) 100 (/ 10 ^ 8) (/ 10 ^ 8) 10 i = Ok []).
  { intros i Hi. unfold cuda_thread. destruct (Nat.ltb_spec i 1); [lia|reflexivity]. }
  set (th := cuda_thread 1 1 (fun _ => 1) (fun i j => get x (i * 2 + j)) 1 0 (10 ^ 10) 100 (/ 10 ^ 8) (/ 10 ^ 8) 10) in *.
  assert (Hth' : forall i, th i = Ok (if Nat.eqb i 0 then [mkStore 0 0 1] else [])) by (intros [|i]; [exact Hth|apply Hother; lia]).
  destruct (mapM_total th (cuda_thread_ids 1 32)) as [ps Eps]; [intros i _; rewrite Hth'; eauto|].
  destruct (run_exists (left_over ps) ps y0 eq_refl) as [m Hrun]. exists x, (vtab (1 * 2) (fun s => m (s / 2)%nat (s mod 2)%nat)), y0. split.
  - split; [lra|]. exists 1%nat. split; [reflexivity|]. cbn [Z.eqb]. split; [lia|]. exists ps, m. split; [exact Eps|]. split; [exact Hrun|reflexivity].
  - rewrite get_vtab by lia. change (1 / 2)%nat with 0%nat. change (1 mod 2)%nat with 1%nat.
    assert (Hnp : ~ pending ps 0 1).
    { intros (p & w & Hp & Hw & _ & Hc). destruct (proj2 (mapM_in _ _ _ Eps) p Hp) as [a [_ Ha]]. rewrite Hth' in Ha. apply Ok_inj in Ha. subst p.
      destruct (Nat.eqb a 0); [destruct Hw as [<-|[]]; discriminate|destruct Hw]. }
    assert (HV : forall p w, In p ps -> In w p -> st_val w = 1).
    { intros p w Hp Hw. destruct (proj2 (mapM_in _ _ _ Eps) p Hp) as [a [_ Ha]]. rewrite Hth' in Ha. apply Ok_inj in Ha. subst p.
      destruct (Nat.eqb a 0); [destruct Hw as [<-|[]]; reflexivity|destruct Hw]. }
    rewrite (proj1 (proj2 (run_spec (fun _ _ => 1) ps y0 m Hrun HV 0%nat 1%nat)) Hnp). reflexivity.
Qed.

Lemma jit_step f ftol xtol n a b fa o : bisect_jit_loop f ftol xtol (S n) a b fa o =
  if Rltb ((b - a) / 2) xtol then Ok ((a + b) / 2) else if Rltb (Rabs (f ((a + b) / 2))) ftol then Ok ((a + b) / 2)
  else if Reqb (sgn (f ((a + b) / 2))) (sgn fa) then bisect_jit_loop f ftol xtol n ((a + b) / 2) b (f ((a + b) / 2)) (Some ((a + b) / 2))
  else bisect_jit_loop f ftol xtol n a ((a + b) / 2) fa (Some ((a + b) / 2)).
Proof. reflexivity. Qed.
Lemma jit_row2 : forall (z z' : Vec 2) (mu : R) b,
  get z 0 = 1 -> get z 1 = b -> get z' 0 = Rmin (Rmax (1 - mu) 0) (10 ^ 10) -> get z' 1 = Rmin (Rmax (b - mu) 0) (10 ^ 10) -> 0 <= b <= 1 ->
  (b = 1 /\ mu = / 2 \/ b = 0 /\ mu = 0) -> simplex_jit 1 100 (/ 10 ^ 8) (/ 10 ^ 8) 10 z = Ok z'.
Proof.
  intros z z' mu b Ha Hb H0 H1 Hb' Hcase. unfold simplex_jit. set (f := hp_fun _ _ _ _).
  assert (Hf : forall m, f m = Rmin (Rmax (1 - m) 0) (10 ^ 10) + Rmin (Rmax (b - m) 0) (10 ^ 10) - 1).
  { intro m. unfold f. rewrite hp_fun_RS. cbn [RS]. rewrite !get_ones by lia. cbn [jit_bounds clip fst snd]. unfold clip, jit_bounds. cbn [fst snd]. rewrite Ha, Hb, !Rmult_1_r. ring. }
  assert (B1 : 3 <= 10 ^ 10) by lra.
  assert (F1 : f (-1) = 2 + b) by (rewrite Hf, !Rmax_left, !Rmin_left by lra; lra).
  assert (F2 : f 1 = -1) by (rewrite Hf, (Rmax_left (1 - 1)), (Rmax_right (b - 1)), !Rmin_left by lra; lra).
  assert (F0 : f 0 = b) by (rewrite Hf, !Rmax_left, !Rmin_left by lra; lra).
  unfold hp_bracket. cbn [double_while]. rewrite F1, F2. destruct (Rltb_spec (2 + b) 0) as [[? _]|[_ ->]]; [lra|]. cbn [bind]. destruct (Rltb_spec 0 (-1)) as [[? _]|[_ ->]]; [lra|]. cbn [bind fst snd].
  assert (Eb : bisect_jit f (-1) 1 100 (/ 10 ^ 8) (/ 10 ^ 8) = Ok mu).
  { unfold bisect_jit. rewrite jit_step. replace ((-1 + 1) / 2) with 0 by field. rewrite F0. destruct (Rltb_spec ((1 - -1) / 2) (/ 10 ^ 8)) as [[? _]|[_ ->]]; [lra|].
    destruct Hcase as [[-> ->]|[-> ->]].
    - rewrite Rabs_R1. destruct (Rltb_spec 1 (/ 10 ^ 8)) as [[? _]|[_ ->]]; [lra|]. rewrite F1. rewrite !sgn_pos by lra. destruct (Reqb_spec 1 1) as [[_ ->]|[? _]]; [|lra].
      rewrite jit_step. replace ((0 + 1) / 2) with (/ 2) by field. assert (Fh : f (/ 2) = 0) by (rewrite Hf, !Rmax_left, !Rmin_left by lra; lra). rewrite Fh.
      destruct (Rltb_spec ((1 - 0) / 2) (/ 10 ^ 8)) as [[? _]|[_ ->]]; [lra|]. rewrite Rabs_R0. destruct (Rltb_spec 0 (/ 10 ^ 8)) as [[_ ->]|[? _]]; [reflexivity|lra].
    - rewrite Rabs_R0. destruct (Rltb_spec 0 (/ 10 ^ 8)) as [[_ ->]|[? _]]; [reflexivity|lra]. }
  rewrite Eb. cbn [bind]. f_equal. apply vec_ext. intros j Hj. unfold boxv. rewrite get_vtab, get_sub, get_scal, get_ones by auto. unfold clip, jit_bounds. cbn [fst snd]. rewrite Rmult_1_r.
  destruct j as [|[|j]]; [rewrite Ha, H0; reflexivity|rewrite Hb, H1; reflexivity|lia].
Qed.
(*!ex C77_example : the rows (1, 1) and (1, 0), radius 1, axis 1, 32 threads per block: whatever the memory held, the result is the rows (1/2, 1/2) and (1, 0) and nothing else *)
Lemma C77_example_l : forall y0 (y : Vec (2 * 2)),
  cuda_prox 1%Z 32 1 100 (/ 10 ^ 8) (/ 10 ^ 8) 10 (vtab (2 * 2) (fun s => if Nat.eqb s 3 then 0 else 1) : Vec (2 * 2)) 1 y0 y <->
  get y 0 = / 2 /\ get y 1 = / 2 /\ get y 2 = 1 /\ get y 3 = 0.
Proof.
  intros y0 y. set (x := vtab (2 * 2) _ : Vec (2 * 2)). set (w := vtab (2 * 2) (fun s => if Nat.eqb s 3 then 0 else if Nat.eqb s 2 then 1 else / 2) : Vec (2 * 2)).
  assert (Ht : 0 < / 10 ^ 8) by (apply Rinv_0_lt_compat, pow_lt; lra).
  rewrite (proj1 (C77_schedule_l 2 2 1 32 1 100 (/ 10 ^ 8) (/ 10 ^ 8) 10 x y 1 y0 ltac:(lia) Ht ltac:(lra)) (or_introl eq_refl)).
  assert (Hw : simplex_prox_rows (simplex_jit 1 100 (/ 10 ^ 8) (/ 10 ^ 8) 10) x 1 = Ok w).
  { apply (proj1 (C23_dims_l 2 2 x w 1 ltac:(lra))). intros i Hi. assert (B : 3 <= 10 ^ 10) by lra.
    destruct i as [|[|i]]; [| |lia].
    - apply (jit_row2 _ _ (/ 2) 1); try lra; rewrite get_rowv by lia; unfold x, w; rewrite get_vtab by lia; cbn [Nat.eqb Nat.mul Nat.add]; try reflexivity; rewrite Rmax_left, Rmin_left by lra; lra.
    - apply (jit_row2 _ _ 0 0); try lra; rewrite get_rowv by lia; unfold x, w; rewrite get_vtab by lia; cbn [Nat.eqb Nat.mul Nat.add]; try reflexivity; rewrite Rmax_left, Rmin_left by lra; lra. }
  rewrite Hw. split.
  - intro E. apply Ok_inj in E. subst y. unfold w. rewrite !get_vtab by lia. cbn [Nat.eqb]. auto.
  - intros (E0 & E1 & E2 & E3). f_equal. apply vec_ext. intros j Hj. unfold w. rewrite get_vtab by auto. destruct j as [|[|[|[|j]]]]; cbn [Nat.eqb]; auto. lia.
Qed.
