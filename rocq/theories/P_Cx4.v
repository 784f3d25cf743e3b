(** * Proofs about ETP, L21 and L21_plus_L1 on complex arrays (M_Cx.v) *)
From Coq Require Import Psatz ZArith Rtrigo1 Ratan Rpower.
From Verif Require Import Base Space Spec SpecOps ConvexFacts Sep VSum MatFacts Cplx M_ProxOp M_L1 M_Pen M_Proj M_L0 M_Cx S_Pen S_Pen2 S_Pen3 P_Pen P_Pen2 P_Pen3 P_L1 P_L21 P_SVD P_Log1 DFT P_Conv P_Cx P_ProxOp P_Cx2 P_Cx3.
From Verif Require Export S_Cx.
Open Scope result_scope.

Lemma cmod_real t : cmod (t, 0) = Rabs t.
Proof. unfold cmod, cabs2; simpl. replace (t * t + 0 * 0) with (Rsqr t) by (unfold Rsqr; ring). apply sqrt_Rsqr_abs. Qed.
Lemma cg_zero n i : cg (vzero : CArr n) i = C0.
Proof.
  replace (vzero : CArr n) with (0 [*] (vzero : CArr n)) by vring. rewrite cg_scal. unfold cscal, C0. f_equal; ring.
Qed.
(** ** ETP *)
Lemma W_range W t : lambert W -> 0 <= t <= exp (-1) -> -1 <= W (- t) <= 0.
Proof.
  intros HW Ht. destruct (HW t Ht) as [H1 H2]. split; auto. pose proof (exp_pos (W (- t))). nra.
Qed.
Lemma etpc_imag W sigma gamma tau b : lambert W -> 0 <= sigma -> 0 < gamma -> 0 < tau -> / gamma <= Rabs b ->
  etpc_pr csign_new W sigma gamma tau (0, b) = C0.
Proof.
  intros HW Hs Hg Ht Hb. unfold etpc_pr.
  assert (Hm : @norm C_IPS (0, b) = Rabs b).
  { change (cmod (0, b) = Rabs b). unfold cmod, cabs2; simpl. replace (0 * 0 + b * b) with (Rsqr b) by (unfold Rsqr; ring). apply sqrt_Rsqr_abs. }
  rewrite Hm. set (tmp := exp (- Rabs b * gamma) * (tau * sigma / (1 - exp (- gamma))) * (gamma * gamma)).
  destruct (Rleb_spec tmp (exp (-1))) as [[Hx ->]|[Hx ->]]; [|reflexivity].
  pose proof (etp_den gamma Hg) as Hden.
  assert (H0 : 0 <= tmp).
  { unfold tmp. apply Rmult_le_pos; [|nra]. apply Rmult_le_pos; [left; apply exp_pos|]. apply Rmult_le_pos; [nra|left; apply Rinv_0_lt_compat; auto]. }
  pose proof (W_range W tmp HW (conj H0 Hx)) as HWr. set (w := W (- tmp)) in *.
  assert (Hb0 : 0 < Rabs b) by (apply Rlt_le_trans with (/ gamma); auto; apply Rinv_0_lt_compat; auto).
  assert (Hsn : csign_new (0, b) = (0, b / Rabs b)).
  { unfold csign_new. rewrite Hm. destruct (Reqb_spec (Rabs b) 0) as [[E ->]|[E ->]]; [lra|]. simpl. f_equal; field; auto. }
  rewrite Hsn. set (s := b / Rabs b). assert (Hs2 : s * s = 1).
  { unfold s. replace (b / Rabs b * (b / Rabs b)) with (b * b / (Rabs b * Rabs b)) by (field; lra). rewrite <- Rabs_mult, (Rabs_right (b * b)) by nra.
    field. intro E. rewrite E, Rabs_R0 in Hb0. lra. }
  match goal with |- context[etpc_elem _ _ ?st] => set (q := etpc_elem sigma gamma st) end.
  assert (Hq : 0 <= q).
  { unfold q, etpc_elem. apply Rmult_le_pos; [apply Rmult_le_pos; [auto|left; apply Rinv_0_lt_compat; auto]|].
    match goal with |- context[norm ?v] => pose proof (norm_nonneg v) as Hn; set (m := norm v) in * end.
    assert (- gamma * m <= 0) by nra. destruct H as [H|H]; [left; apply exp_increasing in H; rewrite exp_0 in H; lra|rewrite H, exp_0; lra]. }
  match goal with |- context[clt ?l ?r] => assert (E : clt l r = false) end; [|rewrite E; reflexivity].
  unfold clt. simpl. unfold vsub; simpl.
  assert (Hw2 : (w / gamma) * (w / gamma) <= b * b).
  { replace (b * b) with (Rabs b * Rabs b) by (rewrite <- Rabs_mult; apply Rabs_right; nra).
    assert (0 < / gamma) by (apply Rinv_0_lt_compat; auto). replace (w / gamma * (w / gamma)) with ((- w * / gamma) * (- w * / gamma)) by (field; lra).
    assert (0 <= - w * / gamma <= Rabs b) by (split; [apply Rmult_le_pos; lra|]; apply Rle_trans with (1 * / gamma); [apply Rmult_le_compat_r; lra|lra]).
    nra. }
  set (L := w / gamma) in *.
  match goal with |- (Rltb ?l ?r || _)%bool = false => assert (Hlr : r <= l) end.
  { assert (E : (L * s + b + -1 * b) * (L * s + b + -1 * b) = L * L) by (replace (_ * _) with (L * L * (s * s)) by ring; rewrite Hs2; ring).
    assert (0 <= tau * q) by nra. 
    replace ((L * 0 + 0 + -1 * 0) * (L * 0 + 0 + -1 * 0)) with 0 by ring. nra. }
  match goal with |- (Rltb ?l ?r || _)%bool = false => destruct (Rltb_spec l r) as [[F ->]|[F ->]]; [lra|] end.
  match goal with |- (false || (Reqb ?l ?r && Rltb ?u ?v))%bool = false => replace (Rltb u v) with false end; [rewrite Bool.andb_false_r; reflexivity|].
  symmetry. match goal with |- Rltb ?l ?r = false => destruct (Rltb_spec l r) as [[G _]|[_ ->]]; [|reflexivity] end. exfalso. ring_simplify in G. lra.
Qed.

(*! C80_etp_refuted : ETP.prox compares complex numbers: for every sigma, gamma > 0, tau > 0 a purely imaginary entry of modulus at
   least 1/gamma is sent to 0, however large it is.  This is not a minimiser when |b|^2/2 > tau sigma/(1 - e^-gamma) *)
Lemma C80_etp_refuted_l : forall W fuel sigma gamma tau b, lambert W -> 0 <= sigma -> 0 < gamma -> 0 < tau -> / gamma <= Rabs b ->
  tau * (sigma / (1 - exp (- gamma))) < b * b / 2 ->
  exists p, o_prox (obj (S fuel) (csep_body (n:=1) (etpc_elem sigma gamma) (etpc_pr csign_new W sigma gamma))) (cvec 1 (fun _ => (0, b))) tau = Ok p /\
    p = cvec 1 (fun _ => C0) /\
    ~ is_prox (etot (csumf (fun r => sigma / (1 - exp (- gamma)) * (1 - exp (- gamma * r))))) tau (cvec 1 (fun _ => (0, b))) p.
Proof.
  intros W fuel sigma gamma tau b HW Hs Hg Ht Hb Hbig. simpl o_prox. rewrite check_tau_pos by auto. eexists; split; [reflexivity|].
  assert (E : cmapv (etpc_pr csign_new W sigma gamma tau) (cvec 1 (fun _ => (0, b))) = cvec 1 (fun _ => C0)).
  { apply carr_ext. intros i Hi. rewrite cg_cmapv, !cg_cvec by auto. apply etpc_imag; auto. }
  rewrite E. split; [reflexivity|]. intros [_ H]. specialize (H (cvec 1 (fun _ => (0, b))) I). cbn [eval etot] in H.
  rewrite !carr_dist2 in H. unfold csumf in H. cbn [RS] in H. rewrite !cg_cvec in H by lia.
  rewrite cmod_C0 in H. pose proof (etp_den gamma Hg) as Hden.
  assert (Hsg : 0 <= sigma / (1 - exp (- gamma))) by (apply Rmult_le_pos; [auto|left; apply Rinv_0_lt_compat; auto]).
  set (S0 := sigma / (1 - exp (- gamma))) in *. rewrite Rmult_0_r, exp_0 in H.
  pose proof (exp_pos (- gamma * cmod (0, b))). unfold cabs2, csub, C0 in H; simpl in H.
  assert (K : / (2 * tau) * (b * b) <= S0).
  { assert (S0 * (1 - exp (- gamma * cmod (0, b))) <= S0) by nra.
    replace (/ (2 * tau) * (b * b)) with (/ (2 * tau) * (0 + ((0 - 0) * (0 - 0) + (0 - b) * (0 - b)))) by ring.
    replace (/ (2 * tau) * (0 + ((0 - 0) * (0 - 0) + (b - b) * (b - b)))) with 0 in H by ring. lra. }
  apply (Rmult_le_compat_l tau) in K; [|lra]. replace (tau * (/ (2 * tau) * (b * b))) with (b * b / 2) in K by (field; lra). lra.
Qed.

(** ** L21 *)
Lemma sqrt_sum_imag m (r : Vec m) : csum m (fun i => cmul (cg (cvec m (fun i => (0, get r i)) : CArr m) i) (cg (cvec m (fun i => (0, get r i)) : CArr m) i)) = (- norm2 r, 0).
Proof.
  apply c_ext; cbn [fst snd].
  - rewrite csum_fst, vec_norm2. apply eq_trans with (RS m (fun i => -1 * (get r i * get r i))); [|rewrite RS_scal; ring].
    apply RS_ext. intros i Hi. rewrite cg_cvec by auto. simpl. ring.
  - rewrite csum_snd. apply eq_trans with (RS m (fun _ => 0)); [|apply RS_zero]. apply RS_ext. intros i Hi. rewrite cg_cvec by auto. simpl. ring.
Qed.
Lemma aux_imag m (r : Vec m) : l21c_aux (cvec m (fun i => (0, get r i)) : CArr m) = (0, norm r).
Proof.
  unfold l21c_aux. rewrite sqrt_sum_imag. unfold csqrt.
  assert (E : @norm C_IPS (- norm2 r, 0) = norm2 r).
  { change (cmod (- norm2 r, 0) = norm2 r). rewrite cmod_real, Rabs_Ropp. apply Rabs_right, Rle_ge, norm2_nonneg. }
  rewrite E. cbn [fst snd]. replace ((norm2 r + - norm2 r) / 2) with 0 by field. replace ((norm2 r - - norm2 r) / 2) with (norm2 r) by field.
  rewrite sqrt_0. destruct (Rltb_spec 0 0) as [[? _]|[_ ->]]; [lra|]. unfold norm. f_equal. ring.
Qed.
Lemma cmax_imag t u : 0 < u -> cmaximum (0, t) (cr u) = cr u.
Proof.
  intro Hu. unfold cmaximum, cle, cr; simpl. destruct (Rltb_spec u 0) as [[? _]|[_ ->]]; [lra|].
  destruct (Reqb_spec u 0) as [[? _]|[_ ->]]; [lra|]. reflexivity.
Qed.
Lemma cdiv_cr a b : b <> 0 -> cdiv (cr a) (cr b) = cr (a / b).
Proof. intro H. unfold cdiv, cr, cabs2, cmul, cconj, cscal; simpl. f_equal; field; nra. Qed.

(*! C80_l21_refuted : L21 sums complex squares: a group whose entries are all purely imaginary has the value 0, is sent
   to 0 by prox and returned unchanged by proxdual, whatever its norm.  The value is wrong unless the group is 0; prox is not a minimiser
   as soon as the norm exceeds tau sigma; the result of proxdual is outside the dual ball as soon as the norm exceeds sigma *)
Lemma C80_l21_refuted_l : forall m sigma tau (r : Vec m), 0 < sigma -> 0 < tau ->
  let c : CArr m := cvec m (fun i => (0, get r i)) in
  norm c = norm r /\
  l21c_call sigma [c] = 0 /\ l21c_col sigma tau c = vzero /\ l21c_dcol sigma c = c /\
  (tau * sigma < norm c -> ~ is_prox (etot (fun y : CArr m => sigma * norm y)) tau c (l21c_col sigma tau c)) /\
  (sigma < norm c -> ~ (norm (l21c_dcol sigma c) <= sigma)).
Proof.
  intros m sigma tau r Hs Ht c. assert (Ea : l21c_aux c = (0, norm r)) by apply aux_imag. assert (Hts : 0 < tau * sigma) by nra.
  assert (Hn : norm c = norm r).
  { unfold norm. f_equal. rewrite carr_norm2, vec_norm2. apply RS_ext. intros i Hi. unfold c. rewrite cg_cvec by auto. unfold cabs2; simpl. ring. }
  assert (Hp : l21c_col sigma tau c = vzero).
  { unfold l21c_col. rewrite Ea, cmax_imag by auto. rewrite cdiv_cr by lra. apply carr_ext. intros i Hi. rewrite cg_cvec by auto.
    rewrite cg_zero. replace (csub (cr 1) (cr (tau * sigma / (tau * sigma)))) with C0 by (unfold csub, cr, C0; simpl; f_equal; field; lra).
    unfold cmul, C0; simpl. f_equal; ring. }
  assert (Hd : l21c_dcol sigma c = c).
  { unfold l21c_dcol. rewrite Ea, cmax_imag by auto. apply carr_ext. intros i Hi. rewrite cg_cvec by auto.
    destruct (cg c i) as [u v]. unfold cdiv, cr, cscal, cabs2, cmul, cconj; simpl. f_equal; field; nra. }
  split; [exact Hn|]. split; [|split; [exact Hp|split; [exact Hd|split]]].
  - unfold l21c_call. cbn [map fold_right]. rewrite Ea. unfold cscal, cadd, C0; simpl. ring.
  - intros Hbig [_ H]. rewrite Hp in H. set (t := 1 - tau * sigma / norm c). specialize (H (t [*] c) I). cbn [eval etot] in H.
    assert (Hpos : 0 < norm c) by lra.
    assert (Hm1 : 0 < tau * sigma / norm c < 1).
    { split; [apply Rmult_lt_0_compat; [lra|apply Rinv_0_lt_compat; lra]|]. apply (Rmult_lt_reg_r (norm c)); auto. unfold Rdiv. rewrite Rmult_assoc, Rinv_l by lra. lra. }
    rewrite norm_scal, (Rabs_right t) in H by (unfold t; lra).
    replace (norm2 (vzero [-] c)) with (norm c * norm c) in H by (rewrite norm_sq; unfold norm2; iexp; ring).
    replace (norm2 (t [*] c [-] c)) with ((1 - t) * (1 - t) * (norm c * norm c)) in H by (rewrite norm_sq; unfold norm2; iexp; ring).
    rewrite norm_zero in H. apply (Rmult_le_compat_l (2 * tau)) in H; [|lra].
    replace (2 * tau * (sigma * 0 + / (2 * tau) * (norm c * norm c))) with (norm c * norm c) in H by (field; lra).
    replace (2 * tau * (sigma * (t * norm c) + / (2 * tau) * ((1 - t) * (1 - t) * (norm c * norm c)))) with
      (2 * (tau * sigma) * (t * norm c) + ((1 - t) * norm c) * ((1 - t) * norm c)) in H by (field; lra).
    assert (E1 : t * norm c = norm c - tau * sigma) by (unfold t; field; lra). assert (E2 : (1 - t) * norm c = tau * sigma) by (unfold t; field; lra).
    rewrite E1, E2 in H. nra.
  - intros Hbig. rewrite Hd. lra.
Qed.

(** ** L21_plus_L1 *)
Lemma sg_sign_free m w v : sign_free (n:=m) (etot (sparse_group_fun w v)).
Proof.
  intros x y H. split; [reflexivity|]. intros _. cbn [eval etot]. unfold sparse_group_fun.
  assert (E1 : forall z : Vec m, l1_of z = RS m (fun i => Rabs (get z i))) by (intro z; exact (Rsum_map_lst m z Rabs)).
  rewrite !E1. f_equal.
  - f_equal. apply RS_ext. auto.
  - f_equal. unfold norm. f_equal. rewrite !vec_norm2. apply RS_ext. intros i Hi. specialize (H i Hi).
    assert (S : forall a, a * a = Rabs a * Rabs a) by (intro a; rewrite <- Rabs_mult, Rabs_right by nra; reflexivity).
    rewrite (S (get x i)), (S (get y i)), H. reflexivity.
Qed.
(*! C80_l21l1 : L21_plus_L1.prox (0 <= rho < 1) on a complex group is the exact proximal point of
   sigma (rho sum |x_i| + (1-rho) ||x||); its call evaluates that function on real groups, but on a purely imaginary
   group it misses the whole second term *)
Lemma C80_l21l1_l : forall m sigma rho tau (c : CArr m), 0 < sigma -> 0 <= rho < 1 -> 0 < tau ->
  let f (y : CArr m) := rho * sigma * RS m (fun i => cmod (cg y i)) + (1 - rho) * sigma * norm y in
  (exists p, l21l1c_col sigma rho tau c = Ok p /\ is_prox (etot f) tau c p) /\
  ((exists r : Vec m, c = cvec m (fun i => (get r i, 0))) -> fst (l21l1c_val sigma rho c) = f c) /\
  (forall r : Vec m, c = cvec m (fun i => (0, get r i)) -> fst (l21l1c_val sigma rho c) = f c - (1 - rho) * sigma * norm c).
Proof.
  intros m sigma rho tau c Hs Hr Ht f. split; [|split].
  - destruct (l21l1_col_ok sigma rho tau (cmodulus c) Hs Hr Ht) as [p [Hp Hpx]].
    unfold l21l1_col in Hp. unfold l21l1c_col.
    set (l1 := vmap (fun a => Rmax (Rabs a - sigma * tau * rho) 0) (cmodulus c) : Vec m) in *.
    assert (El : forall i, (i < m)%nat -> get l1 i = Rmax (norm (cg c i : C_IPS) - sigma * tau * rho) 0).
    { intros i Hi. unfold l1. rewrite get_vmap, get_cmodulus by auto. rewrite Rabs_right by (apply Rle_ge, cmod_nonneg). reflexivity. }
    replace (RS m (fun i => Rmax (norm (cg c i : C_IPS) - sigma * tau * rho) 0 * Rmax (norm (cg c i : C_IPS) - sigma * tau * rho) 0)) with (norm2 l1)
      by (rewrite vec_norm2; apply RS_ext; intros i Hi; rewrite El by auto; reflexivity).
    match goal with |- context[bind ?r _] => assert (Er : exists l21, r = Ok l21 /\ p = (vmap (fun a => sgn a * Rmax (Rabs a - sigma * tau * rho) 0 * l21) (cmodulus c) : Vec m)) end.
    { revert Hp. destruct (Reqb (sqrt (norm2 l1)) 0).
      - destruct (Rltb 0 (sigma * tau * (1 - rho))); [|destruct (Reqb (sigma * tau * (1 - rho)) 0); discriminate].
        cbn [bind]. intro Hp. injection Hp as <-. eexists; split; reflexivity.
      - cbn [bind]. intro Hp. injection Hp as <-. eexists; split; reflexivity. }
    destruct Er as [l21 [-> Ep]]. cbn [bind]. eexists; split; [reflexivity|].
    assert (HT : turned c p (cvec m (fun i => if Reqb (norm (cg c i : C_IPS)) 0 then C0 else cscal (/ norm (cg c i : C_IPS) * Rmax (norm (cg c i : C_IPS) - sigma * tau * rho) 0 * l21) (cg c i)))).
    { intros i Hi. rewrite cg_cvec by auto. rewrite Ep, get_vmap, get_cmodulus by auto. change (@norm C_IPS (cg c i)) with (cmod (cg c i)).
      set (z := cg c i). pose proof (cmod_nonneg z) as Hz. rewrite (Rabs_right (cmod z)) by lra.
      destruct (Reqb_spec (cmod z) 0) as [[H0 ->]|[H0 ->]].
      - replace (sgn (cmod z) * Rmax (cmod z - sigma * tau * rho) 0 * l21) with 0 by (rewrite H0, sgn_0; ring). apply turn_0.
      - rewrite sgn_pos by lra. set (u := Rmax _ _). replace (1 * u * l21) with (/ cmod z * u * l21 * cmod z) by (field; auto). apply turn_scal. }
    pose proof (proj2 (C80_radial_l m _ tau c _ p (sg_sign_free m (rho * sigma) ((1 - rho) * sigma)) Ht HT) Hpx) as H.
    revert H. apply is_prox_ext; try (intros; split; intros; exact I). intros y _. cbn [eval etot on_moduli]. unfold f, sparse_group_fun. f_equal.
    + f_equal. apply eq_trans with (RS m (fun i => Rabs (get (cmodulus y) i))); [exact (Rsum_map_lst m (cmodulus y) Rabs)|].
      apply RS_ext. intros i Hi. rewrite get_cmodulus by auto. apply Rabs_right, Rle_ge, cmod_nonneg.
    + f_equal. unfold norm. f_equal. rewrite carr_norm2, vec_norm2. apply RS_ext. intros i Hi. rewrite get_cmodulus by auto. apply cmod_sq.
  - intros [r Hr']. unfold l21l1c_val, f. unfold cadd, cr, cscal; cbn [fst snd]. f_equal. f_equal. unfold l21c_aux, csqrt; cbn [fst snd].
    assert (E : csum m (fun i => cmul (cg c i) (cg c i)) = (norm2 c, 0)).
    { apply c_ext; cbn [fst snd].
      - rewrite csum_fst, carr_norm2. apply RS_ext. intros i Hi. rewrite Hr', cg_cvec by auto. unfold cabs2; simpl. ring.
      - rewrite csum_snd. apply eq_trans with (RS m (fun _ => 0)); [|apply RS_zero]. apply RS_ext. intros i Hi. rewrite Hr', cg_cvec by auto. simpl. ring. }
    rewrite E. change (@norm C_IPS (norm2 c, 0)) with (cmod (norm2 c, 0)).
    rewrite cmod_real, Rabs_right by apply Rle_ge, norm2_nonneg. cbn [fst snd]. unfold norm. f_equal. field.
  - intros r Hr'. unfold l21l1c_val, f. assert (Ea : l21c_aux c = (0, norm r)) by (rewrite Hr'; apply aux_imag). rewrite Ea. unfold cadd, cr, cscal; cbn [fst snd]. change (fun i => @norm C_IPS (cg c i)) with (fun i => cmod (cg c i)). ring.
Qed.
