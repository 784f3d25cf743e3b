(** * QuadraticEnvelopeCardIndicator: the theorems (M_QE.v) *)
From Coq Require Import Permutation Sorting.
From Verif Require Import Base Space Spec SpecOps ConvexFacts Sep M_ProxOp M_L1 M_Pen P_L1 P_Pen MatFacts VSum M_Proj M_L0 P_L0 M_SVD M_QE P_QE P_QE2 P_QE3.

(*! C31_cardind_prox : for every r0 >= 1, length, input and 0 < tau < 1, whatever sorting permutation argsort picks among ties,
   QuadraticEnvelopeCardIndicator.prox returns (its level search always finds a level) a global minimiser of Q(u) + |u - y|^2/(2 tau), where Q is
   the quadratic envelope of the indicator of {at most r0 non-zeros} *)
Lemma C31_cardind_prox_l : forall argsort, argsort_ok argsort -> forall n r0 (Q : efun (Vec n)) fuel (y : Vec n) tau, is_qenv r0 Q -> (0 < r0)%nat -> 0 < tau < 1 ->
  exists p, o_prox (obj (S fuel) (ci_body argsort r0)) y tau = Ok p /\ is_prox Q tau y p.
Proof.
  intros argsort HA n r0 Q fuel y tau [hs [hss [H1 [H2 [HD HE]]]]] Hr Ht.
  destruct (ci_prox_ok argsort HA n r0 hs hss Q y tau H1 H2 HD HE Hr Ht) as [p [E Hp]]. exists p. split; auto.
  simpl. unfold check_tau. destruct (Rleb_spec tau 0) as [[? _]|[_ ->]]; [lra|]. exact E.
Qed.

(*! C31_cardind_call : for every r0 >= 2, length and input QuadraticEnvelopeCardIndicator.call returns the value of that envelope, which is finite everywhere *)
Lemma C31_cardind_call_l : forall argsort, argsort_ok argsort -> forall n r0 (Q : efun (Vec n)) fuel (x : Vec n), is_qenv r0 Q -> (2 <= r0)%nat ->
  edom Q x /\ o_call (obj fuel (ci_body argsort r0)) x = Ok (VNum (eval Q x)).
Proof.
  intros argsort HA n r0 Q fuel x [hs [hss [H1 [H2 [HD HE]]]]] Hr.
  destruct (call_tight r0 ltac:(lia) hs H1 argsort HA x Hr) as [v [z [E Ht]]]. destruct (tight_hss hs hss H2 x z _ Ht) as [Hd [Ev _]].
  split; [apply HD; auto|]. rewrite HE, Ev by auto. simpl. unfold d_call. simpl. rewrite E. do 2 f_equal. ring.
Qed.

(*! C31_cardind_call_refuted : with r0 = 1 the call raises ValueError (argmax of an empty array) on every array with two or more non-zeros *)
Lemma C31_cardind_call_refuted_l : forall argsort n fuel (x : Vec n), argsort_ok argsort -> (2 <= nnz x)%nat ->
  o_call (obj fuel (ci_body argsort 1)) x = Err ValueError.
Proof.
  intros argsort n fuel x HA Hx. simpl. unfold d_call. simpl. unfold ci_call.
  assert (Hn : (nnz x <= n)%nat). { unfold nnz. rewrite <- (seq_length n 0) at 2. clear. generalize (seq 0 n) as l. induction l as [|a l IH]; simpl; auto. destruct (negb _); simpl; lia. }
  destruct (Nat.leb_spec n 1); [lia|]. destruct (Nat.leb_spec (nnz x) 1); [lia|]. cbn [orb Nat.eqb].
  set (cs := cumsum 0 _). assert (Hl : length cs = n).
  { unfold cs. rewrite cumsum_length, !rev_length. unfold np_sort, take. rewrite map_length. destruct (argsort_abs argsort HA n x) as [HP _]. rewrite (Permutation_length HP). apply seq_length. }
  assert (Hs : length (skipn (length cs - 1) cs) = 1%nat) by (rewrite skipn_length; lia).
  destruct (skipn (length cs - 1) cs) as [|b [|c l]]; simpl in Hs; try lia. reflexivity.
Qed.

Lemma const_nnz_first {n} r0 (c : R) : (r0 <= n)%nat -> l0_ball r0 (vtab n (fun i => if (i <? r0)%nat then c else 0)).
Proof.
  intro H. unfold l0_ball, nnz. apply INR_le. rewrite <- RS_count, <- (RS_head n r0 H). apply RS_le. intros i Hi. rewrite get_vtab by auto.
  destruct (i <? r0)%nat; [destruct (negb _); lra|]. destruct (Reqb_spec 0 0) as [[_ ->]|[? _]]; [simpl; lra|lra].
Qed.
(*! C31_cardind_tau_refuted : for every r0 >= 1, every length n > r0 and every tau >= 1 the constant arrays with entries above tau are returned
   unchanged (line 192 thresholds and ignores r0), which is not a minimiser: zeroing n - r0 entries is strictly better *)
Lemma C31_cardind_tau_refuted_l : forall argsort n r0 (Q : efun (Vec n)) fuel tau c, is_qenv r0 Q -> (0 < r0 < n)%nat -> 1 <= tau < c ->
  let y := vtab n (fun _ => c) in
  o_prox (obj (S fuel) (ci_body argsort r0)) y tau = Ok y /\ ~ is_prox Q tau y y.
Proof.
  intros argsort n r0 Q fuel tau c [hs [hss [H1 [H2 [HD HE]]]]] Hr Ht y. split.
  - simpl. unfold check_tau. destruct (Rleb_spec tau 0) as [[? _]|[_ ->]]; [lra|]. unfold ci_prox.
    destruct (Rleb_spec (1 / tau) 1) as [[_ ->]|[H _]].
    + f_equal. apply nlist_eq. unfold y, vtab, vmap. simpl. rewrite map_map. apply map_ext. intros _. unfold hard. rewrite Rabs_right by lra.
      destruct (Rleb_spec c tau) as [[? _]|[_ ->]]; [lra|auto].
    + exfalso. apply (Rmult_lt_compat_r tau) in H; [|lra]. unfold Rdiv in H. rewrite Rmult_assoc, Rinv_l in H by lra. lra.
  - intros [_ Hp]. set (u := vtab n (fun i => if (i <? r0)%nat then c else 0)).
    destruct (tight_hss hs hss H2 u u _ (sparse_tight _ hs H1 u (const_nnz_first (n:=n) r0 c ltac:(lia)))) as [Hdu [Eu _]].
    assert (Hn0 : 0 < INR n) by (apply lt_0_INR; lia). assert (Hr0 : 0 < INR r0) by (apply lt_0_INR; lia). assert (Hrn : INR r0 < INR n) by (apply lt_INR; lia).
    set (b := INR n * c / INR r0). assert (Hb : 0 < b) by (apply Rmult_lt_0_compat; [apply Rmult_lt_0_compat; lra|apply Rinv_0_lt_compat; auto]).
    assert (Hth : 0 <= INR r0 / INR n <= 1).
    { split; [apply Rmult_le_pos; [lra|left; apply Rinv_0_lt_compat; auto]|]. apply (Rmult_le_reg_r (INR n)); auto. unfold Rdiv. rewrite Rmult_assoc, Rinv_l by lra. lra. }
    destruct (tight_hss hs hss H2 y (vtab n (fun _ => b)) (/ 2 * RS n (fun i => INR r0 / INR n * (get (vtab n (fun _ => b)) i * get (vtab n (fun _ => b)) i)))) as [Hdy [Ey _]].
    { apply (key_tight r0 ltac:(lia) hs H1 (fun _ => INR r0 / INR n) b).
      - split; [auto|]. split; [rewrite RS_const; field; lra|]. split; [lra|]. intros i Hi. rewrite get_vtab, Rabs_right by (auto; lra). split; right; lra.
      - intros i Hi. unfold y. rewrite !get_vtab by auto. unfold b. field. lra. }
    rewrite (RS_ext n _ (fun _ => INR r0 / INR n * (b * b))) in Ey by (intros i Hi; rewrite get_vtab by auto; reflexivity). rewrite RS_const in Ey.
    specialize (Hp u (proj2 (HD u) Hdu)). rewrite !HE in Hp by auto. rewrite Eu, Ey in Hp.
    replace (y [-] y) with (vzero : Vec n) in Hp by vring. replace (norm2 (vzero : Vec n)) with 0 in Hp by (unfold norm2; rewrite inner_zero_l; ring).
    assert (Ny : norm2 y = INR n * (c * c)). { rewrite vec_norm2, (RS_ext n _ (fun _ => c * c)); [apply RS_const|]. intros i Hi. unfold y. rewrite get_vtab by auto. reflexivity. }
    assert (Nd : norm2 (u [-] y) = (INR n - INR r0) * (c * c)).
    { rewrite vec_norm2, (RS_ext n _ (fun j => (if (j <? r0)%nat then 0 else 1) * (c * c))).
      - rewrite RS_scal_r, RS_tail, minus_INR by lia. reflexivity.
      - intros i Hi. unfold u, y. rewrite get_sub, !get_vtab by auto. destruct (_ <? _)%nat; ring. }
    rewrite Ny, Nd in Hp.
    replace (/ 2 * (INR n * (INR r0 / INR n * (b * b)))) with (/ 2 * (INR n * (c * c)) + / 2 * ((INR n - INR r0) * (c * c)) * (INR n / INR r0)) in Hp by (unfold b; field; lra).
    set (g := (INR n - INR r0) * (c * c)) in *. assert (Hg : 0 < g) by (unfold g; apply Rmult_lt_0_compat; [lra|apply Rmult_lt_0_compat; lra]).
    assert (Hq : 1 < INR n / INR r0) by (apply (Rmult_lt_reg_r (INR r0)); auto; unfold Rdiv; rewrite Rmult_assoc, Rinv_l by lra; lra).
    assert (Hi : / (2 * tau) <= / 2) by (apply Rinv_le_contravar; lra).
    assert (/ 2 * g * 1 < / 2 * g * (INR n / INR r0)) by (apply Rmult_lt_compat_l; lra).
    assert (/ (2 * tau) * g <= / 2 * g) by (apply Rmult_le_compat_r; lra). lra.
Qed.

(** the envelope exists *)
Lemma sparse_conj n r0 : (0 < r0)%nat -> is_conj (sparse_sq (n:=n) r0) (etot (fun z => / 2 * norm2 (l0_proj isort (Z.of_nat r0) z))).
Proof.
  intro Hr. split.
  - exists vzero. simpl. unfold l0_ball, nnz. replace (filter _ _) with (@nil nat); [simpl; lia|]. generalize (seq 0 n) as l. induction l as [|a l IH]; [reflexivity|]. cbn [filter].
    rewrite get_zero. destruct (Reqb_spec 0 0) as [[_ ->]|[? _]]; [exact IH|lra].
  - intro z. pose proof (l0_proj_exact isort isort_ok n r0 z Hr) as [HW Hmin]. set (W := l0_proj isort (Z.of_nat r0) z) in *.
    assert (EW : << z, W >> = << W, W >>).
    { rewrite !vec_inner. apply RS_ext. intros i Hi. unfold W, l0_proj. rewrite get_vtab by auto. destruct (mem _ _); ring. }
    assert (Hu : forall y, l0_ball r0 y -> << z, y >> - / 2 * norm2 y <= / 2 * norm2 W).
    { intros y Hy. specialize (Hmin y Hy). assert (Hq : norm2 (W [-] z) <= norm2 (y [-] z)).
      { unfold norm in Hmin. apply sqrt_le_0 in Hmin; auto; apply inner_pos. }
      rewrite inner_sym in EW. revert Hq. unfold norm2. iexp. rewrite ?(inner_sym z W), EW. intro. lra. }
    split; [split; [intros _; eexists; exact Hu|intros _; exact I]|]. intros _. split.
    + intros t [y [Hy ->]]. apply Hu. auto.
    + intros t Ht. apply Ht. exists W. split; auto. change (/ 2 * norm2 W = << z, W >> - / 2 * norm2 W). rewrite EW. unfold norm2. field.
Qed.
Lemma qenv_exists n r0 : (2 <= r0)%nat -> is_qenv (n:=n) r0 (etot (fun x => match ci_call isort r0 x with Ok v => as_num v | Err _ => 0 end)).
Proof.
  intro Hr. pose proof (sparse_conj n r0 ltac:(lia)) as H1. set (hs := etot _) in H1.
  exists hs, (etot (fun x => (match ci_call isort r0 x with Ok v => as_num v | Err _ => 0 end) + / 2 * norm2 x)).
  split; auto. split; [|split; [intro; split; auto|intros x _; cbn [eval etot]; ring]].
  split; [exists vzero; exact I|]. intro x. destruct (call_tight r0 ltac:(lia) hs H1 isort isort_ok x Hr) as [v [z [E [Hb [Hz Ev]]]]].
  split; [split; [intros _; eexists; exact Hb|intros _; exact I]|]. intros _. cbn [eval etot]. rewrite E. cbn [as_num]. split.
  - intros t [y [Hy ->]]. apply Hb; auto.
  - intros t Ht. apply Ht. exists z. split; auto.
Qed.

(*!ex C31_cardind_example : an envelope in the sense of the specification exists for every length and r0 >= 2; and with r0 = 1, tau = 1/2 the array (3, 2)
   is sent to (8/3, 2/3), a case in which the level search runs *)
Lemma C31_cardind_example_l : (forall n r0, (2 <= r0)%nat -> exists Q : efun (Vec n), is_qenv r0 Q) /\
  exists p : Vec 2, o_prox (obj 1 (ci_body isort 1)) (vtab 2 (fun i => nth i [3; 2] 0)) (1 / 2) = Ok p /\ lst p = [8 / 3; 2 / 3].
Proof.
  split; [intros n r0 H; eexists; apply qenv_exists; auto|]. cbn [o_prox obj d_prox ci_body b_prox]. unfold check_tau. destruct (Rleb_spec (1 / 2) 0) as [[? _]|[_ ->]]; [lra|].
  unfold ci_prox. destruct (Rleb_spec (1 / (1 / 2)) 1) as [[? _]|[_ ->]]; [lra|]. cbn [Nat.leb]. change (lst (vtab 2 _)) with [3; 2]. cbn [map]. rewrite !Rabs_right by lra.
  assert (Ei : isort [- (3); - (2)] = [0%nat; 1%nat]).
  { unfold isort. cbn [length seq fold_right ins nth]. destruct (Rleb_spec (- (3)) (- (2))) as [[_ ->]|[? _]]; [auto|lra]. }
  rewrite Ei. cbn [take map nth]. unfold ci_core, ci_scale. cbn [firstn skipn map app nth at_prev].
  destruct (Rltb_spec (1 / (1 / 2) * 2) 3) as [[? _]|[_ ->]]; [lra|]. cbn [where_min where_max bind nth].
  destruct (Rleb_spec 3 (1 / (1 / 2) * 2)) as [[_ ->]|[? _]]; [|lra]. cbn [bind]. unfold slice. cbn [Nat.sub Nat.add skipn firstn]. unfold np_sort.
  assert (Ej : isort [3; 1 / (1 / 2) * 2] = [0%nat; 1%nat]).
  { unfold isort. cbn [length seq fold_right ins nth]. destruct (Rleb_spec 3 (1 / (1 / 2) * 2)) as [[_ ->]|[? _]]; [auto|lra]. }
  rewrite Ej. cbn [take map nth rev app]. cbn [ci_search]. unfold ci_level. cbn [where_min where_max bind].
  destruct (Rleb_spec 3 ((1 / (1 / 2) * 2 + 3) / 2)) as [[_ ->]|[? _]]; [|lra]. destruct (Rleb_spec ((1 / (1 / 2) * 2 + 3) / 2) (1 / (1 / 2) * 2)) as [[_ ->]|[? _]]; [|lra]. cbn [bind].
  unfold slice. cbn [Nat.sub Nat.add skipn firstn Rsum INR].
  replace (1 / (1 / 2) * (3 + (2 + 0)) / ((1 - 0) * (1 / (1 / 2)) + (1 + 1 - 1) * 1)) with (10 / 3) by field.
  destruct (Rleb_spec 3 (10 / 3)) as [[_ ->]|[? _]]; [|lra]. destruct (Rleb_spec (10 / 3) (1 / (1 / 2) * 2)) as [[_ ->]|[? _]]; [|lra]. cbn [andb bind].
  unfold ci_clip. cbn [firstn skipn map app]. rewrite Rmax_right, Rmin_right by lra. eexists. split; [reflexivity|].
  assert (E1 : sgn 3 = 1) by (apply sgn_pos; lra). assert (E2 : sgn 2 = 1) by (apply sgn_pos; lra).
  cbn -[Rmult Rplus sgn]. rewrite E1, E2. f_equal; [field|f_equal; field].
Qed.
