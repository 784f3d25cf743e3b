(** * Proofs about L21 and L21_plus_L1 (M_L1.v) *)
From Verif Require Import Base Space Spec ConvexFacts Sep M_ProxOp SpecOps P_ProxOp M_Norms P_Norms M_L1 P_L1.
From Coq Require Import Psatz.
From Verif Require Export S_L21.
Open Scope result_scope.


Lemma group_sep {E : IPS} {k} (f : efun E) (ph : E -> R) (y : Pow E k) :
  (forall c, eval f c = ph c) -> eval (esep (repeat f k) k) y = Rsum (map ph (proj1_sig (y : nlist E k))).
Proof.
  intro H. destruct y as [y Hy]. simpl. subst k. induction y as [|a y IH]; simpl; auto. rewrite H, IH; auto.
Qed.
Lemma group_dom {E : IPS} {k} (f : efun E) (y : Pow E k) :
  edom (esep (repeat f k) k) y <-> Forall (edom f) (proj1_sig (y : nlist E k)).
Proof.
  destruct y as [y Hy]. simpl. subst k. induction y as [|a y IH]; simpl; [split; auto|].
  rewrite IH. split; [intros [? ?]; constructor; auto | intro F; inversion F; auto].
Qed.
Lemma group_prox {E : IPS} {k} (f : efun E) tau T (x : Pow E k) :
  (forall c, is_prox f tau c (T c)) -> is_prox (esep (repeat f k) k) tau x (powmap T x).
Proof.
  intro H. apply sep_prox. destruct x as [x Hx]. simpl. subst k. apply pw3_map. auto.
Qed.

Lemma group_norm_conj {E : IPS} k sigma : 0 <= sigma ->
  is_conj (etot (group_norm (E:=E) (k:=k) sigma)) (indic (group_ball sigma)).
Proof.
  intro Hs. apply (is_conj_ext (esep (repeat (norm_fun sigma) k) k) _ (esep (repeat (indic (fun z : E => norm z <= sigma)) k) k)).
  - intro y. rewrite group_dom. simpl. split; auto. intros _. apply Forall_forall; auto.
  - intros y _. simpl eval at 2. apply group_sep. reflexivity.
  - intro y. rewrite group_dom. reflexivity.
  - intros y _. rewrite (group_sep _ (fun _ => 0)) by reflexivity. simpl.
    induction (proj1_sig (y : nlist E k)) as [|a l IH]; simpl; auto. lra.
  - apply sep_conj; [apply repeat_length|]. induction k; simpl; constructor; auto. apply norm_conj; auto.
Qed.

(*! C19_l21 : L21 (sigma > 0): call is sigma times the sum of the column norms, prox is the exact proximal point
   of that function and proxdual the exact proximal point of its conjugate (the indicator of all column norms
   <= sigma), for every number and size of columns *)
Lemma C19_l21_l : forall m k fuel sigma, 0 < sigma ->
  let o := obj (S fuel) (l21_body (m:=m) (k:=k) sigma) in
  impl_call o (etot (group_norm (E:=Vec m) (k:=k) sigma)) /\
  impl_prox o (etot (group_norm (E:=Vec m) (k:=k) sigma)) /\
  is_conj (etot (group_norm (E:=Vec m) (k:=k) sigma)) (indic (group_ball sigma)) /\
  impl_proxdual o (indic (group_ball (E:=Vec m) (k:=k) sigma)).
Proof.
  intros m k fuel sigma Hs o. split; [|split; [|split]].
  - intros x _. unfold o, obj, o_call, d_call. cbn [b_call l21_body]. unfold l21_call, group_norm. cbn [eval etot]. do 2 f_equal.
    induction (proj1_sig (x : nlist (Vec m) k)) as [|c l IH]; [simpl; ring|].
    cbn [map Rsum]. rewrite <- IH. unfold norm. ring.
  - intros x tau Ht. unfold o, obj, o_prox. cbn [d_prox b_prox l21_body]. rewrite check_tau_pos by auto.
    eexists; split; [reflexivity|].
    apply (is_prox_ext (esep (repeat (norm_fun sigma) k) k)).
    + intro y. rewrite group_dom. simpl. split; auto. intros _. apply Forall_forall; auto.
    + intros y _. apply group_sep. reflexivity.
    + apply group_prox. intro c. apply (euclid_prox_spec (E:=Vec m)); auto.
  - apply group_norm_conj; lra.
  - intros x tau Ht. unfold o, obj, o_proxdual. cbn [d_proxdual b_proxdual l21_body]. rewrite check_tau_pos by auto.
    eexists; split; [reflexivity|].
    apply (is_prox_ext (esep (repeat (indic (fun z : Vec m => norm z <= sigma)) k) k)).
    + intro y. rewrite group_dom. reflexivity.
    + intros y _. rewrite (group_sep _ (fun _ => 0)) by reflexivity. cbn [eval indic].
      induction (proj1_sig (y : nlist (Vec m) k)) as [|a l IH]; cbn [map Rsum]; auto. rewrite IH; ring.
    + apply group_prox. intro c. apply proj_prox; auto.
      assert (Hm : 0 < Rmax (norm c) sigma) by (pose proof (Rmax_r (norm c) sigma); lra).
      pose proof (ball_proj_spec (vzero : Vec m) sigma c ltac:(lra)) as Hb.
      rewrite vsub_0_r in Hb. specialize (Hb Hm). rewrite vadd_0_l in Hb.
      eapply is_proj_ext; [|exact Hb]. intro y. unfold ball. rewrite vsub_0_r. tauto.
Qed.

(** ** L21_plus_L1 *)


Lemma l1_of_wl1 {m} w (c : Vec m) : w * l1_of c = wl1 (exist _ (repeat w m) (repeat_length w m)) vzero c.
Proof.
  unfold l1_of, wl1. rewrite vsub_0_r. destruct c as [c Hc]. simpl. subst m. symmetry. apply Rsum_map2_repeat.
Qed.

(** Entrywise certificate: |u_i| <= w and u_i c_i = w |c_i|. *)
Lemma l1_of_subgrad {m} w (c u : Vec m) :
  Forall2 (fun a b => Rabs b <= w /\ b * a = w * Rabs a) (proj1_sig (c : nlist R m)) (proj1_sig (u : nlist R m)) ->
  forall y : Vec m, w * l1_of c + << u, y [-] c >> <= w * l1_of y.
Proof.
  intros H y. rewrite inner_sub_r. unfold l1_of. destruct c as [c Hc], u as [u Hu], y as [y Hy]. simpl in *.
  assert (Hl : length y = length c) by exact (eq_trans Hy (eq_sym Hc)). clear Hc Hu Hy.
  revert y Hl; induction H as [|a b c u [H1 H2] H IH]; intros [|z y] Hl; simpl in *; try discriminate; [lra|].
  specialize (IH y ltac:(lia)).
  assert (b * z <= w * Rabs z).
  { eapply Rle_trans; [apply Rle_abs|]. rewrite Rabs_mult. apply Rmult_le_compat_r; [apply Rabs_pos|auto]. }
  lra.
Qed.

Lemma soft_alt t a : sgn a * Rmax (Rabs a - t) 0 = soft t a.
Proof. unfold soft; ring. Qed.

Lemma soft_abs t a : 0 <= t -> Rabs (soft t a) = Rmax (Rabs a - t) 0.
Proof.
  intro Ht. unfold soft. rewrite Rabs_mult. destruct (Rtotal_order a 0) as [H|[->|H]].
  - rewrite sgn_neg by auto. replace (Rabs (-1)) with 1 by (rewrite Rabs_left; lra). rewrite Rmult_1_r. apply Rabs_pos_eq, Rmax_r.
  - rewrite sgn_0, Rabs_R0, Rmult_0_r. rewrite Rmax_right; lra.
  - rewrite sgn_pos, Rabs_R1, Rmult_1_r by auto. apply Rabs_pos_eq, Rmax_r.
Qed.

Lemma sg_col_prox {m} w v tau (c : Vec m) lam : 0 <= w -> 0 < v -> 0 < tau ->
  let s := vmap (soft (tau * w)) c : Vec m in
  lam = 1 - tau * v / Rmax (norm s) (tau * v) ->
  is_prox (etot (sparse_group_fun w v)) tau c (lam [*] s).
Proof.
  intros Hw Hv Ht s Hlam.
  assert (Htv : 0 < tau * v) by nra. assert (Htw : 0 <= tau * w) by nra.
  pose proof (euclid_prox_spec v tau s Hv Ht) as H2. rewrite <- Hlam in H2.
  apply prox_subgrad in H2; [|apply norm_fun_convex; lra|auto].
  destruct H2 as [_ H2].
  apply subgrad_prox; auto. split; [exact I|]. intros y _. specialize (H2 y I). cbn [eval etot norm_fun] in *.
  assert (Hl : 0 <= lam).
  { rewrite Hlam. assert (tau * v / Rmax (norm s) (tau * v) <= 1); [|lra].
    pose proof (Rmax_r (norm s) (tau * v)). apply (Rmult_le_reg_r (Rmax (norm s) (tau * v))); [lra|].
    unfold Rdiv. rewrite Rmult_assoc, Rinv_l by lra. lra. }
  assert (H1 : forall y : Vec m, w * l1_of (lam [*] s) + << / tau [*] (c [-] s), y [-] lam [*] s >> <= w * l1_of y).
  { apply l1_of_subgrad. unfold s. clear -Hl Hw Ht Htw. pose proof (Vec_vsub c (vmap (soft (tau * w)) c)) as Hs.
    change (proj1_sig (/ tau [*] (c [-] vmap (soft (tau * w)) c) : nlist R m)) with
      (map (Rmult (/ tau)) (proj1_sig (c [-] vmap (soft (tau * w)) c : nlist R m))). rewrite Hs.
    destruct c as [c Hc]. simpl. clear Hs Hc.
    induction c as [|e c IH]; simpl; constructor; auto. clear IH.
    replace (e + -1 * soft (tau * w) e) with (e - soft (tau * w) e) by ring. split.
    - rewrite Rabs_mult, (Rabs_pos_eq (/ tau)) by (left; apply Rinv_0_lt_compat; auto).
      apply (Rmult_le_reg_l tau); auto. rewrite <- Rmult_assoc, Rinv_r, Rmult_1_l by lra.
      destruct (soft_cases (tau * w) e Htw) as [[H ->]|[[H ->]|[H ->]]].
      + replace (e - (e - tau * w)) with (tau * w) by ring. rewrite Rabs_pos_eq; lra.
      + replace (e - (e + tau * w)) with (- (tau * w)) by ring. rewrite Rabs_Ropp, Rabs_pos_eq; lra.
      + apply Rabs_le; lra.
    - rewrite Rabs_mult, (Rabs_pos_eq lam) by auto.
      destruct (soft_cases (tau * w) e Htw) as [[H ->]|[[H ->]|[H ->]]].
      + rewrite Rabs_right by lra. field; lra.
      + rewrite Rabs_left by lra. field; lra.
      + rewrite Rabs_R0; ring. }
  unfold sparse_group_fun. specialize (H1 y).
  replace (/ tau [*] (c [-] lam [*] s)) with (/ tau [*] (c [-] s) [+] / tau [*] (s [-] lam [*] s)) by vring.
  rewrite inner_add_l. lra.
Qed.

Lemma l21l1_col_ok {m} sigma rho tau (c : Vec m) : 0 < sigma -> 0 <= rho < 1 -> 0 < tau ->
  exists p, l21l1_col sigma rho tau c = Ok p /\
    is_prox (etot (sparse_group_fun (rho * sigma) ((1 - rho) * sigma))) tau c p.
Proof.
  intros Hs Hr Ht. set (w := rho * sigma). set (v := (1 - rho) * sigma).
  assert (Hw : 0 <= w) by (unfold w; nra). assert (Hv : 0 < v) by (unfold v; nra).
  assert (Htv : 0 < tau * v) by nra. assert (Htw : 0 <= tau * w) by nra.
  set (s := vmap (soft (tau * w)) c : Vec m).
  set (lam := 1 - tau * v / Rmax (norm s) (tau * v)).
  exists (lam [*] s). split; [|apply sg_col_prox; auto].
  unfold l21l1_col. set (l1 := vmap (fun a => Rmax (Rabs a - sigma * tau * rho) 0) c : Vec m).
  assert (Haux : sqrt (norm2 l1) = norm s).
  { unfold norm. f_equal. unfold norm2, l1, s. destruct c as [c Hc]. simpl. clear Hc lam s l1.
    replace (sigma * tau * rho) with (tau * w) by (unfold w; ring).
    induction c as [|e c IH]; simpl; auto. rewrite IH. f_equal. rewrite <- soft_abs by auto.
    rewrite <- Rabs_mult. apply Rabs_pos_eq. apply Rle_0_sqr. }
  fold l1. rewrite Haux.
  replace (sigma * tau * (1 - rho)) with (tau * v) by (unfold v; ring).
  assert (Hres : forall r, r = lam ->
    Ok (vmap (fun a => sgn a * Rmax (Rabs a - sigma * tau * rho) 0 * r) c : Vec m) = Ok (lam [*] s)).
  { intros r ->. f_equal. apply nlist_eq. unfold s. destruct c as [c Hc]. simpl. clear.
    replace (sigma * tau * rho) with (tau * w) by (unfold w; ring).
    rewrite map_map. apply map_ext. intro a. rewrite soft_alt. ring. }
  pose proof (norm_nonneg s) as Hn.
  destruct (Reqb_spec (norm s) 0) as [[H0 ->]|[H0 ->]].
  - destruct (Rltb_spec 0 (tau * v)) as [[_ ->]|[? _]]; [|lra]. cbn [bind]. apply Hres.
    unfold lam. rewrite H0, Rmax_right by lra. field; lra.
  - cbn [bind]. apply Hres. unfold lam. destruct (Rle_dec (norm s) (tau * v)).
    + rewrite (Rmax_right (norm s)) by lra. rewrite Rmax_right; [field; lra|].
      assert (1 <= tau * v / norm s); [|lra]. apply (Rmult_le_reg_r (norm s)); [lra|].
      unfold Rdiv. rewrite Rmult_assoc, Rinv_l by lra. lra.
    + rewrite (Rmax_left (norm s)) by lra. rewrite Rmax_left; auto.
      assert (tau * v / norm s <= 1); [|lra]. apply (Rmult_le_reg_r (norm s)); [lra|].
      unfold Rdiv. rewrite Rmult_assoc, Rinv_l by lra. lra.
Qed.

(*! C19_l21l1 : L21_plus_L1 with 0 <= rho < 1: prox is the exact proximal point of the function evaluated by call,
   rho*sigma*|x|_1 + (1-rho)*sigma*sum of column norms, for every number and size of columns *)
Lemma C19_l21l1_l : forall m k sigma rho tau (x : Pow (Vec m) k),
  0 < sigma -> 0 <= rho < 1 -> 0 < tau ->
  exists p : Pow (Vec m) k,
    l21l1_prox sigma rho (proj1_sig (x : nlist (Vec m) k)) tau = Ok (proj1_sig (p : nlist (Vec m) k)) /\
    is_prox (etot (l21l1_call sigma rho)) tau x p.
Proof.
  intros m k sigma rho tau x Hs Hr Ht.
  set (f := etot (sparse_group_fun (m:=m) (rho * sigma) ((1 - rho) * sigma))).
  assert (H : exists l, sequence (map (l21l1_col sigma rho tau) (proj1_sig (x : nlist (Vec m) k))) = Ok l /\
     pw3 (fun f x p => is_prox f tau x p) (repeat f k) (proj1_sig (x : nlist (Vec m) k)) l).
  { destruct x as [x Hx]. simpl. subst k. induction x as [|c x IH]; simpl.
    - exists []. split; auto. constructor.
    - destruct (l21l1_col_ok sigma rho tau c Hs Hr Ht) as [p [-> Hp]].
      destruct IH as [l [-> Hl]]. exists (p :: l). split; auto. constructor; auto. }
  destruct H as [l [Hl Hp]].
  destruct (pw3_len _ _ _ _ Hp) as [_ Hlen].
  exists (exist _ l (eq_trans Hlen (proj2_sig (x : nlist (Vec m) k)))). split.
  - unfold l21l1_prox. destruct (Rleb_spec tau 0) as [[? _]|[_ ->]]; [lra|]. exact Hl.
  - apply (is_prox_ext (esep (repeat f k) k)).
    + intro y. rewrite group_dom. simpl. split; auto. intros _. apply Forall_forall; simpl; auto.
    + intros y _. rewrite (group_sep _ (sparse_group_fun (rho * sigma) ((1 - rho) * sigma))) by reflexivity.
      cbn [eval etot]. unfold l21l1_call.
      induction (proj1_sig (y : nlist (Vec m) k)) as [|c r IH]; [simpl; ring|].
      cbn [map Rsum]. rewrite IH. unfold sparse_group_fun, l1_of, norm. ring.
    + apply sep_prox. exact Hp.
Qed.

(*! C19_rho_one_refuted : with rho = 1 (pure L1, allowed by the documentation) the prox of every zero column is not
   a number (0/0), although the exact proximal point is 0 *)
Lemma C19_rho_one_refuted_l : forall m sigma tau, 0 < sigma -> 0 < tau ->
  l21l1_prox sigma 1 [vzero : Vec m] tau = Err ZeroDivisionError /\
  is_prox (etot (sparse_group_fun (m:=m) sigma 0)) tau vzero vzero.
Proof.
  intros m sigma tau Hs Ht. split.
  - unfold l21l1_prox. destruct (Rleb_spec tau 0) as [[? _]|[_ ->]]; [lra|]. cbn [map sequence].
    unfold l21l1_col. set (l1 := vmap _ _ : Vec m).
    assert (H : norm2 l1 = 0).
    { unfold norm2, l1. simpl. assert (0 < sigma * tau) by nra. clear l1.
      induction m; simpl; auto. rewrite IHm. rewrite Rabs_R0, Rmax_right by lra. ring. }
    fold l1. rewrite H, sqrt_0. destruct (Reqb_spec 0 0) as [[_ ->]|[? _]]; [|lra].
    replace (sigma * tau * (1 - 1)) with 0 by ring.
    destruct (Rltb_spec 0 0) as [[? _]|[_ ->]]; [lra|].
    destruct (Reqb_spec 0 0) as [[_ ->]|[? _]]; [|lra]. reflexivity.
  - split; [exact I|]. intros y _. cbn [eval etot]. rewrite vsub_diag, norm2_zero, vsub_0_r.
    unfold sparse_group_fun. assert (H0 : l1_of (vzero : Vec m) = 0).
    { clear. unfold l1_of; simpl. induction m; simpl; auto. rewrite IHm. rewrite Rabs_R0; ring. }
    rewrite H0. assert (0 <= l1_of y).
    { unfold l1_of. induction (proj1_sig (y : nlist R m)); simpl; [lra|]. pose proof (Rabs_pos a); lra. }
    pose proof (norm2_nonneg y). assert (0 < / (2 * tau)) by (apply Rinv_0_lt_compat; lra). nra.
Qed.

(*!ex C19_example : two columns (3,4) and (0,0), sigma = 1, tau = 1: L21 prox gives (12/5, 16/5) and (0,0) *)
Lemma C19_example_l :
  exists p, o_prox (obj 1 (l21_body (m:=2) (k:=2) 1)) (nl [nl [3; 4]; nl [0; 0]]) 1 = Ok p /\
    map (fun c : Vec 2 => proj1_sig (c : nlist R 2)) (proj1_sig (p : nlist (Vec 2) 2)) = [[12/5; 16/5]; [0; 0]].
Proof.
  simpl. rewrite check_tau_pos by lra. eexists; split; [reflexivity|]. simpl.
  unfold norm2; simpl.
  replace (3 * 3 + (4 * 4 + 0)) with (5 * 5) by ring. rewrite sqrt_square by lra.
  replace (0 * 0 + (0 * 0 + 0)) with 0 by ring. rewrite sqrt_0. unfold np_ratio.
  rewrite Rmax_left, Rmax_right by lra. list_eq; field.
Qed.
