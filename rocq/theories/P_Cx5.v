(** * Proofs about the L1 and L0 balls on complex arrays (M_Cx.v) *)
From Coq Require Import Psatz ZArith Permutation Sorted.
From Verif Require Import Base Space Spec SpecOps ConvexFacts Sep VSum MatFacts Cplx M_ProxOp M_L1 M_Proj M_L0 M_Cx P_Proj P_Proj2 P_Proj3 P_L0 DFT P_Conv P_Cx P_ProxOp P_Cx2.
From Verif Require Export S_Cx S_Proj S_L0.
Open Scope result_scope.

Lemma radial_proj n (K : Vec n -> Prop) (z w : CArr n) (p : Vec n) :
  (forall x y : Vec n, (forall i, (i < n)%nat -> Rabs (get x i) = Rabs (get y i)) -> (K x <-> K y)) -> turned z p w ->
  is_proj K (cmodulus z) p -> is_proj (fun y : CArr n => K (cmodulus y)) z w.
Proof.
  intros HK HT Hp. apply (proj_prox (E:=CArr n) _ 1); [lra|].
  assert (HF : sign_free (indic K)). { intros x y H. split; [apply HK; auto|reflexivity]. }
  apply (proj2 (C80_radial_l n (indic K) 1 z w p HF ltac:(lra) HT)). apply proj_prox; [lra|exact Hp].
Qed.
Lemma l1_free n r (x y : Vec n) : (forall i, (i < n)%nat -> Rabs (get x i) = Rabs (get y i)) -> (l1_ball r x <-> l1_ball r y).
Proof. intro H. unfold l1_ball. rewrite (RS_ext n _ _ H). reflexivity. Qed.
Lemma l1_mod n r (y : CArr n) : l1_ball r (cmodulus y) <-> cl1_ball r y.
Proof.
  unfold l1_ball, cl1_ball. rewrite (RS_ext n (fun i => Rabs (get (cmodulus y) i)) (fun i => cmod (cg y i))); [reflexivity|].
  intros i Hi. rewrite get_cmodulus by auto. apply Rabs_right, Rle_ge, cmod_nonneg.
Qed.

(** for a point with non-negative entries outside the ball the projections on the simplex and on the ball agree *)
Lemma simplex_l1 n r (m p : Vec n) : (forall i, (i < n)%nat -> 0 <= get m i) -> r <= RS n (get m) ->
  is_proj (simplex_set r) m p -> is_proj (l1_ball r) m p.
Proof.
  intros Hm Hr [[Hp1 Hp2] Hp]. split.
  - unfold l1_ball. rewrite (RS_ext n (fun i => Rabs (get p i)) (get p)); [lra|]. intros i Hi. apply Rabs_right, Rle_ge, Hp2; auto.
  - intros z Hz. unfold l1_ball in Hz.
    set (S0 := RS n (fun i => Rabs (get z i))) in *. set (S1 := RS n (fun i => Rmax (get m i) (Rabs (get z i)))).
    assert (H01 : S0 <= S1) by (apply RS_le; intros; apply Rmax_r).
    assert (Hr1 : r <= S1) by (eapply Rle_trans; [exact Hr|]; apply RS_le; intros; apply Rmax_l).
    assert (Ht : exists t, 0 <= t <= 1 /\ S0 + t * (S1 - S0) = r).
    { destruct (Req_dec S0 S1) as [E|E]; [exists 0; split; lra|]. assert (0 < S1 - S0) by lra. exists ((r - S0) / (S1 - S0)). split; [|field; lra].
      split; [apply Rmult_le_pos; [lra|left; apply Rinv_0_lt_compat; lra]|]. apply (Rmult_le_reg_r (S1 - S0)); auto. unfold Rdiv. rewrite Rmult_assoc, Rinv_l by lra. lra. }
    destruct Ht as [t [Ht Et]].
    set (y := vtab n (fun i => Rabs (get z i) + t * (Rmax (get m i) (Rabs (get z i)) - Rabs (get z i)))).
    assert (Hy : simplex_set r y).
    { split.
      - rewrite <- Et. unfold S0, S1. rewrite <- RS_sub, <- RS_scal, <- RS_add. apply RS_ext. intros i Hi. unfold y. rewrite get_vtab by auto. reflexivity.
      - intros i Hi. unfold y. rewrite get_vtab by auto. pose proof (Rabs_pos (get z i)). pose proof (Rmax_r (get m i) (Rabs (get z i))). nra. }
    eapply Rle_trans; [apply (Hp y Hy)|]. apply norm_le_of_sq; [apply norm_nonneg|]. rewrite norm_sq, !vec_norm2. apply RS_le. intros i Hi.
    rewrite !get_sub by auto. unfold y. rewrite get_vtab by auto. specialize (Hm i Hi). set (a := get m i) in *. set (b := get z i).
    assert (Hab : (Rabs b - a) * (Rabs b - a) <= (b - a) * (b - a)).
    { assert (Rabs b * Rabs b = b * b) by (rewrite <- Rabs_mult; apply Rabs_right; nra). pose proof (Rle_abs b). nra. }
    unfold Rmax. destruct (Rle_dec a (Rabs b)).
    + replace (Rabs b + t * (Rabs b - Rabs b)) with (Rabs b) by ring. nra.
    + replace (Rabs b + t * (a - Rabs b) - a) with ((1 - t) * (Rabs b - a)) by ring.
      set (u := Rabs b - a) in *. assert ((1 - t) * (1 - t) <= 1) by nra. assert (0 <= u * u) by nra. nra.
Qed.

(*! C80_l1_ball : L1Ball.prox on a complex array outside or on the ball sum |x_i| <= radius: whenever it returns y, y is within
   sqrt n (xtol + rtol max(1, 2 sum_i |p_i - x_i|)) of the Euclidean projection p on that ball *)
Lemma C80_l1_ball_l : forall n radius maxiter xtol fuel (x y : CArr n) tau, radius <= RS n (fun i => cmod (cg x i)) ->
  l1ballc_prox radius maxiter xtol fuel x tau = Ok y ->
  exists p : CArr n, is_proj (cl1_ball radius) x p /\ norm (y [-] p) <= (xtol + bisect_rtol * Rmax 1 (2 * RS n (fun i => cmod (csub (cg p i) (cg x i))))) * sqrt (INR n).
Proof.
  intros n radius maxiter xtol fuel x y tau Hr. unfold l1ballc_prox. destruct (Rleb tau 0); [discriminate|].
  destruct (simplex_proj radius maxiter xtol fuel (mods x)) as [s|] eqn:Es; cbn [bind]; [|discriminate]. intro E. injection E as <-.
  rewrite mods_cmodulus in Es. destruct (C23_simplex_l n radius maxiter xtol fuel _ s Es) as [q [Hq [_ [_ Hn]]]].
  assert (Hq' : is_proj (l1_ball radius) (cmodulus x) q).
  { apply simplex_l1; auto.
    - intros i Hi. rewrite get_cmodulus by auto. apply cmod_nonneg.
    - rewrite (RS_ext n (get (cmodulus x)) (fun i => cmod (cg x i))); auto. intros; apply get_cmodulus; auto. }
  exists (turn x q). assert (HT := turn_turned n x q). split.
  - apply (is_proj_ext (fun y : CArr n => l1_ball radius (cmodulus y))); [intro z; apply l1_mod|]. apply (radial_proj n _ x _ q); auto. apply l1_free.
  - rewrite (RS_ext n (fun i => cmod (csub (cg (turn x q) i) (cg x i))) (fun i => Rabs (get q i - get (cmodulus x) i))).
    + eapply Rle_trans; [|exact Hn]. apply Req_le. unfold norm. f_equal. rewrite carr_dist2, vec_dist2. apply RS_ext. intros i Hi.
      unfold turn. rewrite !cg_cvec by auto. rewrite <- cmod_sq.
      replace (csub (cscal (get s i) (cphase (cg x i))) (cscal (get q i) (cphase (cg x i)))) with (cscal (get s i - get q i) (cphase (cg x i))) by (unfold csub, cscal; simpl; f_equal; ring).
      rewrite cmod_scal, cphase_mod, Rmult_1_r. rewrite <- Rabs_mult. apply Rabs_right, Rle_ge, Rle_0_sqr.
    + intros i Hi. destruct (HT i Hi) as [H1 H2]. pose proof (cdist_turned _ _ _ H1 H2) as H. rewrite get_cmodulus by auto.
      unfold cmod at 1. rewrite H. apply sqrt_Rsqr_abs.
Qed.

Lemma nnz_mod n (y : CArr n) : nnz (cmodulus y) = ccount y.
Proof.
  unfold nnz, ccount. f_equal. apply filter_ext_in. intros i Hi. apply in_seq in Hi. rewrite get_cmodulus by lia.
  destruct (Reqb_spec (cmod (cg y i)) 0) as [[H ->]|[H ->]]; destruct (Req_EM_T (cmod (cg y i)) 0); simpl; auto; contradiction.
Qed.
Lemma nnzc_count n (y : CArr n) : nnzc y = ccount y.
Proof.
  unfold nnzc, ccount. f_equal. apply filter_ext_in. intros i Hi. change (@norm C_IPS (cg y i)) with (cmod (cg y i)).
  destruct (Reqb_spec (cmod (cg y i)) 0) as [[H ->]|[H ->]]; destruct (Req_EM_T (cmod (cg y i)) 0); simpl; auto; contradiction.
Qed.
Lemma nnz_free n (x y : Vec n) : (forall i, (i < n)%nat -> Rabs (get x i) = Rabs (get y i)) -> nnz x = nnz y.
Proof.
  intro H. unfold nnz. f_equal. apply filter_ext_in. intros i Hi. apply in_seq in Hi. specialize (H i ltac:(lia)).
  destruct (Reqb_spec (get x i) 0) as [[E ->]|[E ->]]; destruct (Reqb_spec (get y i) 0) as [[E' ->]|[E' ->]]; auto; exfalso.
  - rewrite E, Rabs_R0 in H. symmetry in H. revert H. apply Rabs_no_R0. auto.
  - rewrite E', Rabs_R0 in H. revert H. apply Rabs_no_R0. auto.
Qed.
Lemma mods_keys n (x : CArr n) : map Rabs (lst (mods x)) = lst (mods x).
Proof.
  rewrite <- (map_id (lst (mods x))) at 2. apply map_ext_in. intros a Ha. apply Rabs_right, Rle_ge.
  apply (In_nth _ _ 0) in Ha. destruct Ha as [i [Hi <-]]. rewrite lst_length in Hi. change (0 <= get (mods x) i). rewrite mods_cmodulus, get_cmodulus by auto. apply cmod_nonneg.
Qed.
(*! C80_l0_ball : L0Ball.prox on complex arrays, every positive radius, whatever order argsort picks among ties: a Euclidean
   projection on {at most radius non-zero entries}, and the next call accepts it *)
Lemma C80_l0_ball_l : forall argsort, argsort_ok argsort -> forall n (rad : nat -> Z) count (x : CArr n) tau, 0 < tau -> (0 < rad (S count))%Z ->
  exists y, l0ballc_prox argsort rad count x tau = (S count, Ok y) /\
    is_proj (cl0_ball (Z.to_nat (rad (S count)))) x y /\ l0ballc_call rad (S count) y = true.
Proof.
  intros argsort HA n rad count x tau Ht Hr. unfold l0ballc_prox. destruct (Rleb_spec tau 0) as [[? _]|[_ ->]]; [lra|].
  eexists; split; [reflexivity|]. set (r := rad (S count)) in *. set (k := Z.to_nat r).
  assert (Hk : r = Z.of_nat k) by (unfold k; rewrite Z2Nat.id by lia; auto).
  pose proof (l0_proj_exact argsort HA n k (cmodulus x) ltac:(unfold k; lia)) as HP. rewrite <- Hk in HP.
  assert (HT : turned x (l0_proj argsort r (cmodulus x)) (l0c_proj argsort r x)).
  { intros i Hi. unfold l0_proj, l0c_proj. rewrite cg_cvec, get_vtab by auto. change (cmodulus x) with (mods x). rewrite mods_keys.
    destruct (mem i _); [apply turn_0|]. change (mods x) with (cmodulus x). rewrite get_cmodulus by auto. apply turn_self. }
  assert (HQ : is_proj (cl0_ball k) x (l0c_proj argsort r x)).
  { apply (is_proj_ext (fun y : CArr n => l0_ball k (cmodulus y))); [intro z; unfold l0_ball, cl0_ball; rewrite nnz_mod; reflexivity|].
    apply (radial_proj n _ x _ (l0_proj argsort r (cmodulus x))); auto. intros u v H. unfold l0_ball. rewrite (nnz_free n u v H). reflexivity. }
  split; [exact HQ|]. unfold l0ballc_call. apply Z.leb_le. rewrite nnzc_count. destruct HQ as [H _]. unfold cl0_ball in H. fold r. lia.
Qed.
