(** * The solvers applied to the library's own L2 and L1 objects solve the LASSO problem *)
From Coq Require Import String Psatz.
From Verif Require Import Base Space Spec ConvexFacts Smooth VSum MatFacts M_ProxOp SpecOps P_ProxOp M_Norms P_Norms M_L1 P_L1 M_L2 P_L2 M_Loop LoopFacts SeqFacts M_PG M_Split M_PD SplitMath P_PG P_PG2 P_PG3 P_Split2 P_Split3 P_PD S_Seq SeqConv Compact Fejer P_Iter P_Iter2 Sep P_Conv2 ExactSolve M_Objs.
From Verif Require Export S_Lasso.
Open Scope result_scope.
Open Scope R_scope.

(** ** the objects *)
Lemma reached_fresh {E F : IPS} (ext : L2Ext E F) cfg sigma x0 st : l2_reached ext cfg sigma x0 st -> l2_fresh cfg sigma st.
Proof. induction 1; [apply l2_fresh_init|apply l2_fresh_prox; auto]. Qed.
Lemma l2_obj_prox {E F : IPS} (ext : L2Ext E F) cfg sigma x0 st0 ch : l2_exact ext -> 0 < sigma -> (forall x tau, l2_reached ext cfg sigma x0 (ch x tau)) ->
  impl_prox (obj 2 (l2_body ext cfg st0 ch)) (etot (l2_fun (l2_d cfg) (l2_q cfg) sigma (l2_alpha cfg))).
Proof.
  intros Hex Hs Hch x tau Ht. cbn [obj o_prox d_prox l2_body b_prox]. rewrite check_tau_pos by auto.
  destruct (l2_prox_step ext cfg sigma (ch x tau) x tau Hex Hs Ht (reached_fresh _ _ _ _ _ (Hch x tau))) as [p [E1 E2]]. exists p. split; [exact E1|].
  rewrite <- E2. apply l2_residual_prox; lra.
Qed.
Lemma l2_obj_proxdual {E F : IPS} (ext : L2Ext E F) cfg sigma x0 st0 ch fs : l2_exact ext -> 0 < sigma -> (forall x tau, l2_reached ext cfg sigma x0 (ch x tau)) ->
  is_conj (etot (l2_fun (l2_d cfg) (l2_q cfg) sigma (l2_alpha cfg))) fs -> impl_proxdual (obj 2 (l2_body ext cfg st0 ch)) fs.
Proof.
  intros Hex Hs Hch Hc.
  apply (default_proxdual E 0 (l2_body ext cfg st0 ch) (etot (l2_fun (l2_d cfg) (l2_q cfg) sigma (l2_alpha cfg))) fs (fun x tau => snd (l2_prox ext cfg (ch x tau) x tau))); auto.
  - apply l2_fun_convex. lra.
  - intros x tau Ht. destruct (l2_prox_step ext cfg sigma (ch x tau) x tau Hex Hs Ht (reached_fresh _ _ _ _ _ (Hch x tau))) as [p [E1 E2]]. exists p. split; [exact E1|].
    rewrite <- E2. apply l2_residual_prox; lra.
Qed.
(** the fit s/2 |A x - b|^2 and its gradient *)
Definition sfit {E F : IPS} (A : linop E F) (b : F) (s : R) (x : E) : R := s / 2 * norm2 (A x [-] b).
Definition dsfit {E F : IPS} (A : linop E F) (b : F) (s : R) (x : E) : E := s [*] ladj A (A x [-] b).
Lemma l2_fun_sfit {E F : IPS} (A : linop E F) e b s al x : l2_fun (WithOp A e b) None s al x = sfit A b s x.
Proof. unfold l2_fun, sfit. ring. Qed.
Lemma sfit_convex {E F : IPS} (A : linop E F) b s : 0 <= s -> convex (etot (sfit A b s)).
Proof.
  intro Hs. apply (convex_ext (etot (l2_fun (WithOp A true b) None s 0))); [intro; reflexivity| |apply l2_fun_convex; auto].
  intros y _. cbn [eval etot]. apply l2_fun_sfit.
Qed.
Lemma sfit_expand {E F : IPS} (A : linop E F) b s (x h : E) : sfit A b s (x [+] h) = sfit A b s x + << dsfit A b s x, h >> + s / 2 * norm2 (A h).
Proof.
  pose proof (l2_expand (WithOp A true b) None s 0 x h) as H. rewrite !l2_fun_sfit in H. rewrite H. unfold l2_dfun, dsfit.
  replace (s [*] ladj A (A x [-] b) [+] vzero) with (s [*] ladj A (A x [-] b)) by vring. reflexivity.
Qed.
Lemma sfit_grad {E F : IPS} (A : linop E F) b s C : 0 <= C -> (forall v, norm2 (A v) <= C * norm2 v) -> forall x, is_grad (sfit A b s) x (dsfit A b s x).
Proof.
  intros HC HA x eps He. set (K := Rabs s * (C + 1) + 1). assert (HK : 0 < K) by (unfold K; pose proof (Rabs_pos s); nra).
  exists (eps / K). split; [apply Rdiv_lt_0_compat; auto|]. intros h Hh. rewrite sfit_expand.
  replace (sfit A b s x + << dsfit A b s x, h >> + s / 2 * norm2 (A h) - sfit A b s x - << dsfit A b s x, h >>) with (s / 2 * norm2 (A h)) by ring.
  pose proof (norm_nonneg h) as Hn. rewrite Rabs_mult, (Rabs_right (norm2 (A h))) by (apply Rle_ge, norm2_nonneg).
  replace (Rabs (s / 2)) with (Rabs s / 2) by (unfold Rdiv; rewrite Rabs_mult, (Rabs_right (/ 2)) by lra; reflexivity).
  specialize (HA h). pose proof (norm_sq h) as Hq. pose proof (Rabs_pos s) as Hs.
  assert (H1 : Rabs s / 2 * norm2 (A h) <= K * (norm h * norm h)).
  { apply Rle_trans with (Rabs s / 2 * (C * norm2 h)); [apply Rmult_le_compat_l; lra|]. rewrite <- Hq. unfold K.
    assert (0 <= norm h * norm h) by nra. assert (0 <= Rabs s * C * (norm h ^ 2)) by (repeat apply Rmult_le_pos; auto; nra).
    assert (0 <= Rabs s * (norm h ^ 2)) by (apply Rmult_le_pos; auto; nra). nra. }
  eapply Rle_trans; [exact H1|]. rewrite <- Rmult_assoc. apply Rmult_le_compat_r; [exact Hn|].
  apply Rle_trans with (K * (eps / K)); [apply Rmult_le_compat_l; lra|right; field; lra].
Qed.
Lemma sfit_smooth {E F : IPS} (A : linop E F) b s L : 0 < s -> 0 < L -> (forall v, s * norm2 (A v) <= L * norm2 v) -> L_smooth (sfit A b s) (dsfit A b s) L.
Proof.
  intros Hs HL HA. assert (HA' : forall v, norm2 (A v) <= L / s * norm2 v).
  { intro v. apply (Rmult_le_reg_l s); [exact Hs|]. replace (s * (L / s * norm2 v)) with (L * norm2 v) by (field; lra). apply HA. }
  assert (Hq : 0 <= L / s) by (left; apply Rdiv_lt_0_compat; auto). split; [apply (sfit_grad A b s (L / s) Hq HA')|].
  intros x y. unfold dsfit. replace (s [*] ladj A (A x [-] b) [-] s [*] ladj A (A y [-] b)) with (s [*] ladj A (A (x [-] y))).
  - rewrite norm_scal, Rabs_right by lra. apply Rle_trans with (s * (L / s * norm (x [-] y))); [|right; field; lra]. apply Rmult_le_compat_l; [lra|]. apply ladj_bound; auto.
  - rewrite lapp_sub, !ladj_sub. vring.
Qed.

Lemma L2_facts {E F : IPS} (o : Op E) (A : linop E F) b s : 0 < s -> is_L2 o A b s ->
  impl_prox o (etot (sfit A b s)) /\ impl_call o (etot (sfit A b s)) /\ (forall x, o_grad o x = Ok (Some (dsfit A b s x))).
Proof.
  intros Hs (ext & cfg & x0 & st0 & ch & e & Hex & Hd & Hq & H0 & Hch & ->). destruct (reached_fresh _ _ _ _ _ H0) as [Hsg _]. split; [|split].
  - intros x tau Ht. destruct (l2_obj_prox ext cfg s x0 st0 ch Hex Hs Hch x tau Ht) as [p [E1 E2]]. exists p. split; [exact E1|].
    revert E2. apply is_prox_ext; [reflexivity|]. intros y _. cbn [eval etot]. rewrite Hd, Hq. apply l2_fun_sfit.
  - intros x _. cbn [obj o_call d_call l2_body b_call eval etot]. do 2 f_equal. destruct (l2_call_spec E F ext cfg st0 x) as [-> _]. rewrite Hd, Hq, Hsg. apply l2_fun_sfit.
  - intro x. cbn [obj o_grad d_grad l2_body b_grad]. do 2 f_equal. unfold l2_grad, dsfit. rewrite Hd, Hq, Hsg. reflexivity.
Qed.
Definition bfit {F : IPS} (b : F) (s : R) (y : F) : R := s / 2 * norm2 (y [-] b).
Definition bfits {F : IPS} (b : F) (s : R) (z : F) : R := / (2 * s) * norm2 z + << z, b >>.
Lemma bfit_conj {F : IPS} (b : F) s : 0 < s -> is_conj (etot (bfit b s)) (etot (bfits b s)).
Proof.
  intro Hs. assert (H : forall z y, << z, y >> - bfit b s y = bfits b s z - s / 2 * norm2 (y [-] b [-] / s [*] z)).
  { intros z y. unfold bfit, bfits, norm2. iexp. field. lra. }
  split; [exists vzero; exact I|]. intro z. split; [split; [intros _; exists (bfits b s z)|intros _; exact I]|].
  - intros y _. cbn [eval etot]. rewrite H. assert (0 <= s / 2 * norm2 (y [-] b [-] / s [*] z)) by (apply Rmult_le_pos; [lra|apply norm2_nonneg]). lra.
  - intros _. split.
    + intros r (y & _ & ->). cbn [eval etot]. rewrite H. assert (0 <= s / 2 * norm2 (y [-] b [-] / s [*] z)) by (apply Rmult_le_pos; [lra|apply norm2_nonneg]). lra.
    + intros M HM. apply HM. exists (b [+] / s [*] z). split; [exact I|]. cbn [eval etot]. rewrite H.
      replace (b [+] / s [*] z [-] b [-] / s [*] z) with (vzero : F) by vring. unfold norm2. rewrite inner_zero_l. lra.
Qed.
Lemma bfit_convex {F : IPS} (b : F) s : 0 <= s -> convex (etot (bfit b s)).
Proof.
  intro Hs. apply (convex_ext (etot (sfit (id_linop F) b s))); [intro; reflexivity| |apply sfit_convex; auto]. intros y _. reflexivity.
Qed.
Lemma L2b_facts {F : IPS} (o : Op F) b s : 0 < s -> is_L2b o b s -> impl_prox o (etot (bfit b s)) /\ impl_proxdual o (etot (bfits b s)).
Proof.
  intros Hs (ext & cfg & x0 & st0 & ch & Hex & Hd & Hq & H0 & Hch & ->).
  assert (Hf : forall y, l2_fun (l2_d cfg) (l2_q cfg) s (l2_alpha cfg) y = bfit b s y) by (intro y; rewrite Hd, Hq; unfold l2_fun, bfit; ring). split.
  - intros x tau Ht. destruct (l2_obj_prox ext cfg s x0 st0 ch Hex Hs Hch x tau Ht) as [p [E1 E2]]. exists p. split; [exact E1|].
    revert E2. apply is_prox_ext; [reflexivity|]. intros y _. apply Hf.
  - apply (l2_obj_proxdual ext cfg s x0 st0 ch _ Hex Hs Hch). apply (is_conj_ext (etot (bfit b s)) _ (etot (bfits b s)) _); try reflexivity; [|apply bfit_conj; auto].
    intros y _. symmetry. apply Hf.
Qed.

Definition l1n {n} (lam : R) (x : Vec n) : R := lam * RS n (fun i => Rabs (get x i)).
Lemma wl1_const n lam (x : Vec n) : wl1 (const_sigma n lam) (gvec None) x = l1n lam x.
Proof.
  unfold wl1, gvec. rewrite vsub_0_r. change (proj1_sig (const_sigma n lam)) with (repeat lam n). change (proj1_sig (x : nlist R n)) with (lst x).
  rewrite <- (lst_length n x) at 1. rewrite Rsum_map2_repeat, Rsum_RS, map_length, lst_length. unfold l1n. f_equal. apply RS_ext. intros i Hi. unfold nthr.
  rewrite (map_nth_lt Rabs (lst x) i 0 0) by (rewrite lst_length; auto). reflexivity.
Qed.
Lemma const_nonneg n lam : 0 <= lam -> nonneg_list (const_sigma n lam).
Proof. intro H. unfold nonneg_list, const_sigma. cbn [proj1_sig]. induction n; cbn [repeat]; constructor; auto. Qed.
Lemma Rabs_def2_le a b : Rabs a <= b -> - b <= a <= b.
Proof. unfold Rabs. destruct Rcase_abs; lra. Qed.
Lemma l1n_subgrad n lam (x c : Vec n) : 0 <= lam -> is_subgrad (etot (l1n lam)) x c <->
  forall i, (i < n)%nat -> Rabs (get c i) <= lam /\ (0 < get x i -> get c i = lam) /\ (get x i < 0 -> get c i = - lam).
Proof.
  intro Hl. split.
  - intros [_ H] i Hi. assert (H1 : forall t, t * get c i <= lam * (Rabs (get x i + t) - Rabs (get x i))).
    { intro t. specialize (H (x [+] t [*] basis n i) I). cbn [eval etot] in H. replace (x [+] t [*] basis n i [-] x) with (t [*] basis n i) in H by vring.
      rewrite inner_scal_r, vec_inner in H. rewrite (RS_ext n _ (fun j => get c j * (if Nat.eqb i j then 1 else 0))) in H.
      2:{ intros j Hj. unfold basis. rewrite get_vtab by auto. rewrite (Nat.eqb_sym j i). reflexivity. }
      rewrite (RS_delta n i (get c) Hi) in H. unfold l1n in H.
      rewrite (RS_ext n (fun j => Rabs (get (x [+] t [*] basis n i) j)) (fun j => Rabs (get x j) + (Rabs (get x i + t) - Rabs (get x i)) * (if Nat.eqb i j then 1 else 0))) in H.
      2:{ intros j Hj. rewrite get_add, get_scal by auto. unfold basis. rewrite get_vtab by auto. rewrite (Nat.eqb_sym j i). destruct (Nat.eqb_spec i j) as [->|_]; [rewrite !Rmult_1_r; ring|].
          rewrite !Rmult_0_r, !Rplus_0_r. reflexivity. }
      rewrite RS_add, (RS_delta n i (fun _ => Rabs (get x i + t) - Rabs (get x i)) Hi) in H. lra. }
    pose proof (H1 1) as Ha. pose proof (H1 (-1)) as Hb. pose proof (H1 (- get x i)) as Hc. rewrite Rplus_opp_r, Rabs_R0 in Hc.
    assert (Rabs (get x i + 1) - Rabs (get x i) <= 1) by (unfold Rabs; repeat destruct Rcase_abs; lra).
    assert (Rabs (get x i + -1) - Rabs (get x i) <= 1) by (unfold Rabs; repeat destruct Rcase_abs; lra).
    assert (Hle : Rabs (get c i) <= lam).
    { apply Rabs_le. assert (lam * (Rabs (get x i + 1) - Rabs (get x i)) <= lam * 1) by (apply Rmult_le_compat_l; auto).
      assert (lam * (Rabs (get x i + -1) - Rabs (get x i)) <= lam * 1) by (apply Rmult_le_compat_l; auto). lra. }
    split; [exact Hle|]. apply Rabs_def2_le in Hle. split; intro Hx.
    + rewrite (Rabs_right (get x i)) in Hc by lra. apply Rle_antisym; [lra|]. apply (Rmult_le_reg_l (get x i)); lra.
    + rewrite (Rabs_left (get x i)) in Hc by lra. apply Rle_antisym; [|lra]. apply (Rmult_le_reg_l (- get x i)); lra.
  - intro H. split; [exact I|]. intros y _. cbn [eval etot]. unfold l1n. rewrite vec_inner, <- !RS_scal, <- RS_add. apply RS_le. intros i Hi. destruct (H i Hi) as (H1 & H2 & H3).
    rewrite get_sub by auto. apply Rabs_def2_le in H1. set (a := get x i) in *. set (d := get y i). set (u := get c i) in *.
    assert (Hd : u * d <= lam * Rabs d).
    { unfold Rabs. destruct Rcase_abs.
      - replace (u * d) with ((- u) * - d) by ring. apply Rmult_le_compat_r; lra.
      - apply Rmult_le_compat_r; lra. }
    assert (Ha : u * a = lam * Rabs a).
    { destruct (Rtotal_order 0 a) as [H0|[H0|H0]].
      - rewrite H2, Rabs_right by lra. reflexivity.
      - rewrite <- H0, Rabs_R0. ring.
      - rewrite H3, Rabs_left by lra. ring. }
    lra.
Qed.
Lemma l1n_convex n lam : 0 <= lam -> convex (etot (l1n (n:=n) lam)).
Proof.
  intro H. apply (convex_ext (etot (wl1 (const_sigma n lam) (gvec None)))); [intro; reflexivity| |apply wl1_convex, const_nonneg; auto]. intros y _. apply wl1_const.
Qed.
Lemma L1_facts n (o : Op (Vec n)) lam : 0 <= lam -> is_L1 o lam -> impl_prox o (etot (l1n lam)) /\ impl_call o (etot (l1n lam)) /\
  exists fs, is_conj (etot (l1n lam)) fs /\ impl_proxdual o fs.
Proof.
  intros Hl (c0 & ch & ->). pose proof (const_nonneg n lam Hl) as Hn. split; [|split].
  - intros x tau Ht. cbn [obj o_prox d_prox l1_body b_prox]. rewrite check_tau_pos by auto.
    destruct (C11_prox_exact_l n (fun _ => const_sigma n lam) None (ch x tau) x tau Hn Ht) as [p [E1 E2]]. exists p. split; [exact E1|].
    revert E2. apply is_prox_ext; [reflexivity|]. intros y _. apply wl1_const.
  - intros x _. cbn [obj o_call d_call l1_body b_call eval etot]. do 2 f_equal. rewrite C11_call_l. apply wl1_const.
  - exists (mkEfun (wlinf_ball (const_sigma n lam)) (fun z => << z, gvec None >>)). split.
    + apply (is_conj_ext (etot (wl1 (const_sigma n lam) (gvec None))) _ (mkEfun (wlinf_ball (const_sigma n lam)) (fun z => << z, gvec None >>)) _); try reflexivity; [|apply wl1_conj; auto].
      intros y _. apply wl1_const.
    + intros x tau Ht. cbn [obj o_proxdual d_proxdual l1_body b_proxdual]. rewrite check_tau_pos by auto.
      destruct (C11_dual_exact_l n (const_sigma n lam) None (ch x tau) x tau Hn Ht) as [_ [p [E1 E2]]]. exists p. split; [exact E1|exact E2].
Qed.

(** ** the problem *)
Lemma sfit_smooth_convex n (F : IPS) (A : linop (Vec n) F) b s : 0 < s -> exists L, 0 < L /\ (forall v, s * norm2 (A v) <= L * norm2 v) /\ smooth_convex (sfit A b s) (dsfit A b s) L.
Proof.
  intro Hs. destruct (vec_bounded n F A) as [C [C0 HC]]. exists (s * (C + 1)). assert (HL : 0 < s * (C + 1)) by (apply Rmult_lt_0_compat; lra).
  assert (H : forall v, s * norm2 (A v) <= s * (C + 1) * norm2 v).
  { intro v. rewrite Rmult_assoc. apply Rmult_le_compat_l; [lra|]. specialize (HC v). pose proof (norm2_nonneg v). lra. }
  split; [exact HL|]. split; [exact H|]. apply L_smooth_convex; [apply sfit_convex; lra|]. apply sfit_smooth; auto.
Qed.
Lemma lasso_ext n (F : IPS) (A : linop (Vec n) F) b s e lam x : is_min (eadd (etot (sfit A b s)) (escal e (etot (l1n lam)))) x <-> is_min (etot (lasso A b s (e * lam))) x.
Proof.
  assert (H : forall z, eval (eadd (etot (sfit A b s)) (escal e (etot (l1n lam)))) z = lasso A b s (e * lam) z) by (intro z; cbn [eval etot eadd escal]; unfold lasso, sfit, l1n; ring).
  split; intros [_ Hx].
  - split; [exact I|]. intros y _. cbn [eval etot]. rewrite <- !H. apply Hx. split; exact I.
  - split; [split; exact I|]. intros y _. rewrite !H. apply Hx. exact I.
Qed.
Lemma lasso_ext1 n (F : IPS) (A : linop (Vec n) F) b s lam x : is_min (eadd (etot (sfit A b s)) (etot (l1n lam))) x <-> is_min (etot (lasso A b s lam)) x.
Proof. split; intros [_ Hx]; split; try exact I; try (split; exact I); intros y _; apply Hx; try exact I; split; exact I. Qed.
Lemma lasso_subgrad n (F : IPS) (A : linop (Vec n) F) b s lam x : 0 < s -> 0 <= lam ->
  is_min (etot (lasso A b s lam)) x <-> is_subgrad (etot (l1n lam)) x (vopp (dsfit A b s x)).
Proof.
  intros Hs Hl. destruct (sfit_smooth_convex n F A b s Hs) as (L & HL & HA & Hsm). rewrite <- lasso_ext1. split.
  - apply (min_sum_subgrad_inv _ _ L); [lra|exact Hsm|apply l1n_convex; auto].
  - apply min_sum_subgrad; [apply sfit_convex; lra|]. destruct (vec_bounded n F A) as [C [C0 HC]]. exact (sfit_grad A b s C C0 HC x).
Qed.

(*! C78_optimality : x solves the LASSO problem  min s/2 |A x - b|^2 + lam sum_i |x_i|  exactly when, with
   c = s A^T(b - A x), every |c_i| <= lam, c_i = lam where x_i > 0 and c_i = -lam where x_i < 0; in particular x = 0 is a
   solution exactly when lam is at least every |s (A^T b)_i| *)
Lemma C78_optimality_l : forall n (F : IPS) (A : linop (Vec n) F) b s lam, 0 < s -> 0 <= lam ->
  (forall x, is_min (etot (lasso A b s lam)) x <->
    forall i, (i < n)%nat -> let c := s * get (ladj A (b [-] A x)) i in Rabs c <= lam /\ (0 < get x i -> c = lam) /\ (get x i < 0 -> c = - lam)) /\
  (is_min (etot (lasso A b s lam)) vzero <-> forall i, (i < n)%nat -> Rabs (s * get (ladj A b) i) <= lam).
Proof.
  intros n F A b s lam Hs Hl.
  assert (H : forall x, is_min (etot (lasso A b s lam)) x <->
    forall i, (i < n)%nat -> let c := s * get (ladj A (b [-] A x)) i in Rabs c <= lam /\ (0 < get x i -> c = lam) /\ (get x i < 0 -> c = - lam)).
  { intro x. rewrite lasso_subgrad, l1n_subgrad by auto.
    assert (E : vopp (dsfit A b s x) = s [*] ladj A (b [-] A x)) by (unfold dsfit; rewrite !ladj_sub; vring). rewrite E.
    split; intros H i Hi; specialize (H i Hi); rewrite get_scal in * by auto; exact H. }
  split; [exact H|]. rewrite H. replace (b [-] A vzero) with b by (rewrite lapp_zero; vring). split; intros H0 i Hi; specialize (H0 i Hi); cbn zeta in *.
  - apply H0.
  - rewrite get_zero. split; [exact H0|]. split; intro; lra.
Qed.

Definition fit_op {E F : IPS} (A : linop E F) (b : F) (s : R) : Op E :=
  mkOp (fun x => Ok (VNum (sfit A b s x))) (fun x _ => Ok x) (fun x _ => Ok x) (fun x => Ok (Some (dsfit A b s x))) true.
Lemma lasso_cont n (F : IPS) (A : linop (Vec n) F) b s lam : seq_cont (lasso A b s lam).
Proof.
  intros u l Hu. unfold lasso. apply CV_plus.
  - apply CV_mult; [intros e He; exists 0%nat; intros; unfold R_dist; rewrite Rminus_diag_eq, Rabs_R0; auto|]. apply (vcv_norm2 (fun k => A (u k) [-] b) (A l [-] b)).
    destruct (vec_bounded n F A) as [C [C0 HC]]. apply (vcv_map (fun x => A x [-] b) (sqrt C + 1)); [pose proof (sqrt_pos C); lra| |exact Hu].
    intros v w. replace (A v [-] b [-] (A w [-] b)) with (A (v [-] w)) by (rewrite lapp_sub; vring). unfold norm at 1.
    apply Rle_trans with (sqrt C * norm (v [-] w)); [|apply Rmult_le_compat_r; [apply norm_nonneg|lra]]. unfold norm. rewrite <- sqrt_mult_alt by auto. apply sqrt_le_1_alt. apply HC.
  - apply CV_mult; [intros e He; exists 0%nat; intros; unfold R_dist; rewrite Rminus_diag_eq, Rabs_R0; auto|]. apply RS_cv. intros i Hi.
    intros e He. destruct (Hu e He) as [N HN]. exists N. intros k Hk. unfold R_dist. specialize (HN k Hk). pose proof (get_le_norm n (u k [-] l) i Hi) as H. rewrite get_sub in H by auto.
    pose proof (Rabs_triang_inv2 (get (u k) i) (get l i)). lra.
Qed.
(*! C78_solution : for s > 0 and lam > 0 the LASSO problem has a solution, for every operator A on vectors and every b
   (however degenerate A is) *)
Lemma C78_solution_l : forall n (F : IPS) (A : linop (Vec n) F) b s lam, 0 < s -> 0 < lam -> exists x, is_min (etot (lasso A b s lam)) x.
Proof.
  intros n F A b s lam Hs Hl. destruct (sfit_smooth_convex n F A b s Hs) as (L & HL & HA & Hsm).
  set (o1 := obj 2 (l1_body (fun _ => const_sigma n lam) None 0 (fun _ _ => 0%nat))). assert (H1 : is_L1 o1 lam) by (exists 0%nat, (fun _ _ => 0%nat); reflexivity).
  destruct (L1_facts n o1 lam ltac:(lra) H1) as (Hp & _ & _).
  assert (Hop : smooth_op (fit_op A b s) (sfit A b s) (dsfit A b s) L).
  { split; [intros x _; reflexivity|]. split; [reflexivity|]. split; [apply sfit_convex; lra|]. split; [exact HL|]. apply sfit_smooth; auto. }
  set (run := fun k => ProximalGradient (fit_op A b s) o1 vzero [1] (Some (/ L)) false (1/2) 1 (S k) 10 None None).
  set (u := fun k => match run k with Ok (x, _) => x | Err _ => vzero end).
  assert (HiL : 0 < / L) by (apply Rinv_0_lt_compat; auto).
  assert (Hu : forall k z, lasso A b s lam (u k) - lasso A b s lam z <= norm2 z / (2 * / L * INR (S k))).
  { intros k z. destruct (C41_rate_l (Vec n) (fit_op A b s) o1 (sfit A b s) (dsfit A b s) L (etot (l1n lam)) (l1n lam) 1 vzero (/ L) (1/2) (S k) 10 None None Hop Hp (l1n_convex n lam ltac:(lra)) ltac:(lra) ltac:(lra) ltac:(lia) (or_introl eq_refl) ltac:(intro Hq; contradiction Hq; reflexivity))
      as (x & tr & k' & E & _ & _ & Hk & _ & Hr & _). injection (Hk eq_refl) as <-. unfold u, run. rewrite E. specialize (Hr z (conj I I)). cbn [eval eadd etot escal] in Hr.
    replace (vzero [-] z) with (vopp z) in Hr by vring. replace (norm2 (vopp z)) with (norm2 z) in Hr by (unfold norm2; iexp; ring). unfold lasso. unfold sfit, l1n in Hr. lra. }
  assert (H0 : forall k, lasso A b s lam (u k) <= lasso A b s lam vzero).
  { intro k. specialize (Hu k vzero). replace (norm2 (vzero : Vec n)) with 0 in Hu by (unfold norm2; rewrite inner_zero_l; reflexivity). unfold Rdiv in Hu. rewrite Rmult_0_l in Hu. lra. }
  destruct (minimiser_exists n (fun _ => True) (lasso A b s lam) (lasso A b s lam vzero / lam) u) as (z & _ & Hz).
  - intros ? ? ? ?. exact I.
  - apply lasso_cont.
  - intro. exact I.
  - intros k i Hi. apply (Rmult_le_reg_l lam); [exact Hl|]. replace (lam * (lasso A b s lam vzero / lam)) with (lasso A b s lam vzero) by (field; lra).
    apply Rle_trans with (lasso A b s lam (u k)); [|apply H0]. unfold lasso. assert (0 <= s / 2 * norm2 (A (u k) [-] b)) by (apply Rmult_le_pos; [lra|apply norm2_nonneg]).
    assert (lam * Rabs (get (u k) i) <= lam * RS n (fun i => Rabs (get (u k) i))); [|lra]. apply Rmult_le_compat_l; [lra|].
    rewrite <- (RS_delta n i (fun j => Rabs (get (u k) j)) Hi). apply RS_le. intros j Hj. pose proof (Rabs_pos (get (u k) j)). destruct (Nat.eqb i j); lra.
  - intros v _ eps He. set (c := norm2 v / (2 * / L)). assert (Hc : 0 <= c) by (apply Rmult_le_pos; [apply norm2_nonneg|left; apply Rinv_0_lt_compat; lra]).
    destruct (archimed_cor1 (eps / (c + 1))) as (N & HN & HN0); [apply Rdiv_lt_0_compat; lra|]. exists N. intros k Hk. specialize (Hu k v).
    assert (Hq : INR (S k) <> 0) by (apply not_0_INR; lia). replace (norm2 v / (2 * / L * INR (S k))) with (c * / INR (S k)) in Hu by (revert Hq; generalize (INR (S k)); intros q Hq; unfold c; field; split; lra).
    assert (/ INR (S k) <= / INR N) by (apply Rinv_le_contravar; [apply lt_0_INR; lia|apply le_INR; lia]).
    assert (0 < / INR (S k)) by (apply Rinv_0_lt_compat, lt_0_INR; lia).
    assert (c * / INR (S k) <= c * (eps / (c + 1))) by (apply Rmult_le_compat_l; lra).
    assert (c * (eps / (c + 1)) <= eps).
    { apply Rle_trans with ((c + 1) * (eps / (c + 1))); [|right; field; lra]. apply Rmult_le_compat_r; [|lra]. left. apply Rdiv_lt_0_compat; lra. }
    lra.
  - exists z. split; [exact I|]. intros y _. apply Hz. exact I.
Qed.

(** ** the solvers *)
Lemma L2_smooth_op {E F : IPS} (o : Op E) (A : linop E F) b s L : 0 < s -> 0 < L -> is_L2 o A b s -> (forall v, s * norm2 (A v) <= L * norm2 v) -> smooth_op o (sfit A b s) (dsfit A b s) L.
Proof.
  intros Hs HL Ho HA. destruct (L2_facts o A b s Hs Ho) as (_ & Hc & Hg). split; [exact Hc|]. split; [exact Hg|]. split; [apply sfit_convex; lra|]. split; [exact HL|]. apply sfit_smooth; auto.
Qed.
(*! C78_ista : ProximalGradient applied to an L2(Op=A, b=b, sigma=s) object and an L1(sigma=lam) object, with
   epsg = [e] > 0, s|Av|^2 <= L|v|^2 and a fixed step 0 < tau < 2/L, without acceleration: the vectors returned with
   niter = 1, 2, ... never raise and converge to a solution of the LASSO with weight e lam; and when tau <= 1/L, after k
   iterations the objective exceeds its minimum by at most |x0 - z|^2/(2 tau k) for every solution z *)
Lemma C78_ista_l : forall n m (f g : Op (Vec n)) (A : linop (Vec n) (Vec m)) b s lam e L x0 tau beta niterback accel,
  is_L2 f A b s -> is_L1 g lam -> 0 < s -> 0 < lam -> 0 < e -> 0 < L -> (forall v, s * norm2 (A v) <= L * norm2 v) -> 0 < tau < 2 / L ->
  accel = None \/ accel = Some "None"%string ->
  exists xs l, xs 0%nat = x0 /\ (forall k, ProximalGradient f g x0 [e] (Some tau) false beta 1 (S k) niterback accel None = Ok (xs (S k), map xs (seq 1 (S k)))) /\
    is_min (etot (lasso A b s (e * lam))) l /\ vcv xs l /\
    (tau <= / L -> forall k z, is_min (etot (lasso A b s (e * lam))) z -> lasso A b s (e * lam) (xs (S k)) - lasso A b s (e * lam) z <= norm2 (x0 [-] z) / (2 * tau * INR (S k))).
Proof.
  intros n m f g A b s lam e L x0 tau beta nb accel Hf Hg Hs Hl He HL HA Ht Hac. pose proof (L2_smooth_op f A b s L Hs HL Hf HA) as Hsm. destruct (L1_facts n g lam ltac:(lra) Hg) as (Hp & _ & _).
  pose proof (l1n_convex n lam ltac:(lra)) as Hcv. assert (Hel : 0 < e * lam) by (apply Rmult_lt_0_compat; auto).
  destruct (C75_proximal_gradient_l (Vec n) f g (sfit A b s) (dsfit A b s) L (etot (l1n lam)) e x0 tau beta 1 nb accel) as (xs & l & X0 & HR & Hm & Hv); auto.
  - apply (proj1 (proj2 C75_arrays_l)).
  - lra.
  - split; [lra|]. assert (tau * L < 2); [|lra]. replace 2 with (2 / L * L) by (field; lra). apply Rmult_lt_compat_r; lra.
  - destruct Hac as [-> | ->]; [left; reflexivity|right; left; reflexivity].
  - destruct (C78_solution_l n (Vec m) A b s (e * lam) Hs Hel) as [z Hz]. exists z. apply lasso_ext. exact Hz.
  - exists xs, l. split; [exact X0|]. split; [exact HR|]. split; [apply lasso_ext, Hm|]. split; [exact Hv|]. intros Ht1 k z _.
    destruct (C41_rate_l (Vec n) f g (sfit A b s) (dsfit A b s) L (etot (l1n lam)) (l1n lam) e x0 tau beta (S k) nb accel None Hsm Hp Hcv He ltac:(lra) ltac:(lia) Hac ltac:(intro Hq; contradiction Hq; reflexivity))
      as (x & tr & k' & E & _ & _ & Hk & _ & Hr & _). injection (Hk eq_refl) as ->. rewrite HR in E. injection E as -> _. specialize (Hr z (conj I I)). cbn [eval eadd etot escal] in Hr.
    unfold sfit, l1n in Hr. unfold lasso. lra.
Qed.

(*! C78_fista : the same with acceleration='fista' or 'vandenberghe' and 0 < tau <= 1/L: after k iterations the returned
   vector's objective exceeds the minimum by at most 2|x0 - z|^2/(tau (k+1)^2) for every solution z (and solutions exist) *)
Lemma C78_fista_l : forall n m (f g : Op (Vec n)) (A : linop (Vec n) (Vec m)) b s lam e L x0 tau beta niterback accel k,
  is_L2 f A b s -> is_L1 g lam -> 0 < s -> 0 < lam -> 0 < e -> 0 < L -> (forall v, s * norm2 (A v) <= L * norm2 v) -> 0 < tau <= / L ->
  accel = Some "vandenberghe"%string \/ accel = Some "fista"%string -> (1 <= k)%nat ->
  exists x tr, ProximalGradient f g x0 [e] (Some tau) false beta 1 k niterback accel None = Ok (x, tr) /\
    forall z, is_min (etot (lasso A b s (e * lam))) z -> lasso A b s (e * lam) x - lasso A b s (e * lam) z <= 2 * norm2 (x0 [-] z) / (tau * (INR k + 1)^2).
Proof.
  intros n m f g A b s lam e L x0 tau beta nb accel k Hf Hg Hs Hl He HL HA Ht Hac Hk. pose proof (L2_smooth_op f A b s L Hs HL Hf HA) as Hsm. destruct (L1_facts n g lam ltac:(lra) Hg) as (Hp & _ & _).
  destruct (C42_accelerated_rate_l (Vec n) f g (sfit A b s) (dsfit A b s) L (etot (l1n lam)) (l1n lam) e x0 tau beta k nb accel None Hsm Hp (l1n_convex n lam ltac:(lra)) He Ht Hk Hac ltac:(intro Hq; contradiction Hq; reflexivity))
    as (x & tr & k' & E & _ & _ & Hk' & _ & Hr). rewrite (Hk' eq_refl) in Hr. exists x, tr. split; [exact E|]. intros z Hz. specialize (Hr z (proj2 (lasso_ext _ _ _ _ _ _ _ _) Hz)).
  cbn [eval eadd etot escal] in Hr. unfold sfit, l1n in Hr. unfold lasso. lra.
Qed.

Lemma lasso_kkt n (F : IPS) (A : linop (Vec n) F) b s lam : 0 < s -> 0 < lam -> exists x u, kkt (etot (sfit A b s)) (etot (l1n lam)) x u.
Proof.
  intros Hs Hl. destruct (C78_solution_l n F A b s lam Hs Hl) as [x Hx]. exists x, (dsfit A b s x). split; [|apply lasso_subgrad; auto; lra].
  split; [exact I|]. intros y _. cbn [eval etot]. pose proof (sfit_expand A b s x (y [-] x)) as E. replace (x [+] (y [-] x)) with y in E by vring. rewrite E. pose proof (norm2_nonneg (A (y [-] x))) as H.
  assert (0 <= s / 2 * norm2 (A (y [-] x))) by (apply Rmult_le_pos; lra). lra.
Qed.
(*! C78_admm : ADMM applied to the same two objects, with any tau > 0, any starting vectors and either order: the two
   returned vectors both converge to one and the same solution of the LASSO as niter grows *)
Lemma C78_admm_l : forall n m (f g : Op (Vec n)) (A : linop (Vec n) (Vec m)) b s lam x0 z0 x z tau (gfirst : bool),
  is_L2 f A b s -> is_L1 g lam -> 0 < s -> 0 < lam -> 0 < tau -> x0z0_init x0 z0 = Ok (x, z) ->
  exists xs zs l, (forall k, exists tr, ADMM f g x0 tau k z0 gfirst = Ok (xs k, zs k, tr)) /\ is_min (etot (lasso A b s lam)) l /\ vcv xs l /\ vcv zs l.
Proof.
  intros n m f g A b s lam x0 z0 x z tau gf Hf Hg Hs Hl Ht H0. destruct (L2_facts f A b s Hs Hf) as (Hpf & _). destruct (L1_facts n g lam ltac:(lra) Hg) as (Hp & _ & _).
  destruct (C75_admm_l (Vec n) f g (etot (sfit A b s)) (etot (l1n lam)) x0 z0 x z tau gf (proj1 (proj2 C75_arrays_l) n) Hpf Hp (sfit_convex A b s ltac:(lra)) (l1n_convex n lam ltac:(lra)) Ht H0 (lasso_kkt n (Vec m) A b s lam Hs Hl))
    as (xs & zs & l & HR & Hm & H1 & H2). exists xs, zs, l. split; [exact HR|]. split; [apply lasso_ext1, Hm|]. split; [exact H1|exact H2].
Qed.
(*! C78_douglas_rachford : the same for DouglasRachfordSplitting with any tau > 0 and 0 < eta < 2, either order *)
Lemma C78_douglas_rachford_l : forall n m (f g : Op (Vec n)) (A : linop (Vec n) (Vec m)) b s lam x0 tau eta (gfirst : bool),
  is_L2 f A b s -> is_L1 g lam -> 0 < s -> 0 < lam -> 0 < tau -> 0 < eta < 2 ->
  exists xs ys l, (forall k, exists tr, DouglasRachford f g x0 tau eta (S k) gfirst = Ok (xs k, ys k, tr)) /\ is_min (etot (lasso A b s lam)) l /\ vcv xs l.
Proof.
  intros n m f g A b s lam x0 tau eta gf Hf Hg Hs Hl Ht He. destruct (L2_facts f A b s Hs Hf) as (Hpf & _). destruct (L1_facts n g lam ltac:(lra) Hg) as (Hp & _ & _).
  destruct (C75_douglas_rachford_l (Vec n) f g (etot (sfit A b s)) (etot (l1n lam)) x0 tau eta gf (proj1 (proj2 C75_arrays_l) n) Hpf Hp (sfit_convex A b s ltac:(lra)) (l1n_convex n lam ltac:(lra)) Ht He (lasso_kkt n (Vec m) A b s lam Hs Hl))
    as (xs & ys & l & u & HR & _ & Hm & H1 & _). exists xs, ys, l. split; [exact HR|]. split; [apply lasso_ext1, Hm|exact H1].
Qed.

Lemma bfit_subgrad {F : IPS} (b : F) s y : 0 < s -> is_subgrad (etot (bfit b s)) y (s [*] (y [-] b)).
Proof.
  intro Hs. split; [exact I|]. intros w _. cbn [eval etot]. assert (E : bfit b s w = bfit b s y + << s [*] (y [-] b), w [-] y >> + s / 2 * norm2 (w [-] y)).
  { unfold bfit, norm2. iexp. field. }
  rewrite E. pose proof (norm2_nonneg (w [-] y)). assert (0 <= s / 2 * norm2 (w [-] y)) by (apply Rmult_le_pos; lra). lra.
Qed.
Lemma bfits_subgrad {F : IPS} (b : F) s y : 0 < s -> is_subgrad (etot (bfits b s)) (s [*] (y [-] b)) y.
Proof.
  intro Hs. split; [exact I|]. intros w _. cbn [eval etot]. assert (E : bfits b s w = bfits b s (s [*] (y [-] b)) + << y, w [-] s [*] (y [-] b) >> + / (2 * s) * norm2 (w [-] s [*] (y [-] b))).
  { unfold bfits, norm2. iexp. field. lra. }
  rewrite E. pose proof (norm2_nonneg (w [-] s [*] (y [-] b))). assert (0 < / (2 * s)) by (apply Rinv_0_lt_compat; lra). assert (0 <= / (2 * s) * norm2 (w [-] s [*] (y [-] b))) by (apply Rmult_le_pos; lra). lra.
Qed.
Lemma lasso_A n m (A : linop (Vec n) (Vec m)) b s lam x :
  is_min (eadd (etot (l1n lam)) (epre (etot (bfit b s)) (lapp A))) x -> is_min (etot (lasso A b s lam)) x.
Proof.
  intros [_ H]. split; [exact I|]. intros y _. specialize (H y (conj I I)). cbn [eval eadd etot epre] in *. unfold l1n, bfit in H. unfold lasso. lra.
Qed.
Lemma lasso_kktA n m (A : linop (Vec n) (Vec m)) b s lam x : 0 < s -> 0 < lam -> is_min (etot (lasso A b s lam)) x -> kktA (etot (l1n lam)) (etot (bfit b s)) A x (s [*] (A x [-] b)).
Proof.
  intros Hs Hl Hx. split; [|apply bfit_subgrad; auto]. rewrite ladj_scal. apply lasso_subgrad; auto. lra.
Qed.
(*! C78_linearized_admm : LinearizedADMM applied to an L1(sigma=lam) object, an L2(b=b, sigma=s) object and the operator A,
   with mu |Av|^2 <= kappa tau |v|^2 for some kappa <= 1: the returned x converges to a solution of the LASSO and the
   returned z to A times that solution *)
Lemma C78_linearized_admm_l : forall n m (g : Op (Vec n)) (f : Op (Vec m)) (A : linop (Vec n) (Vec m)) b s lam tau mu kappa x0 z0 x z,
  is_L1 g lam -> is_L2b f b s -> 0 < s -> 0 < lam -> 0 < tau -> 0 < mu -> 0 <= kappa <= 1 -> (forall a, mu * norm2 (A a) <= kappa * tau * norm2 a) ->
  x0z0_initA (lapp A) x0 z0 = Ok (x, z) ->
  exists xs zs l, (forall k, exists tr, LinearizedADMM g f A x0 tau mu k z0 = Ok (xs k, zs k, tr)) /\ is_min (etot (lasso A b s lam)) l /\ vcv xs l /\ vcv zs (A l).
Proof.
  intros n m g f A b s lam tau mu kappa x0 z0 x z Hg Hf Hs Hl Ht Hmu Hk HA H0. destruct (L1_facts n g lam ltac:(lra) Hg) as (Hp & _ & _). destruct (L2b_facts f b s Hs Hf) as (Hpf & _).
  destruct (C78_solution_l n (Vec m) A b s lam Hs Hl) as [xo Hxo].
  destruct (C75_linearized_admm_l (Vec n) (Vec m) g f (etot (l1n lam)) (etot (bfit b s)) A tau mu kappa x0 z0 x z (proj1 (proj2 C75_arrays_l) n) (proj1 (proj2 C75_arrays_l) m) Hp Hpf
    (l1n_convex n lam ltac:(lra)) (bfit_convex b s ltac:(lra)) Ht Hmu Hk HA H0 (ex_intro _ xo (ex_intro _ _ (lasso_kktA n m A b s lam xo Hs Hl Hxo)))) as (xs & zs & l & HR & Hm & H1 & H2).
  exists xs, zs, l. split; [exact HR|]. split; [apply lasso_A; exact Hm|]. split; [exact H1|exact H2].
Qed.
(*! C78_primal_dual : PrimalDual applied to an L1(sigma=lam) object, an L2(b=b, sigma=s) object and the operator A, with
   constant steps, theta = 1, and tau mu |Av|^2 <= kappa |v|^2 for some kappa <= 1, either order: the returned x converges to
   a solution l of the LASSO and the returned y to s(A l - b) *)
Lemma C78_primal_dual_l : forall n m (g : Op (Vec n)) (f : Op (Vec m)) (A : linop (Vec n) (Vec m)) b s lam alias x0 tau mu kappa y0 gfirst,
  is_L1 g lam -> is_L2b f b s -> 0 < s -> 0 < lam -> 0 < tau -> 0 < mu -> 0 <= kappa <= 1 -> (forall a, tau * mu * norm2 (A a) <= kappa * norm2 a) ->
  exists xs ys l, (forall k, exists tr, PrimalDual g f A alias x0 (Scalar tau) (Scalar mu) y0 None 1 k gfirst = Ok (xs k, ys k, tr)) /\
    is_min (etot (lasso A b s lam)) l /\ vcv xs l /\ vcv ys (s [*] (A l [-] b)).
Proof.
  intros n m g f A b s lam alias x0 tau mu kappa y0 gf Hg Hf Hs Hl Ht Hmu Hk HA. destruct (L1_facts n g lam ltac:(lra) Hg) as (Hp & _ & _). destruct (L2b_facts f b s Hs Hf) as (Hpf & Hpd).
  destruct (C78_solution_l n (Vec m) A b s lam Hs Hl) as [xo Hxo]. destruct (lasso_kktA n m A b s lam xo Hs Hl Hxo) as [K1 K2].
  assert (Hz : forall v : Vec n, v [+] vzero = v) by (intro; vring).
  destruct (C75_primal_dual_l (Vec n) (Vec m) A g f (etot (l1n lam)) (etot (bfit b s)) (etot (bfits b s)) alias x0 tau mu kappa y0 None gf) as (xs & ys & l & yl & HR & Hsd & Hm & H1 & H2); auto.
  - apply (proj1 (proj2 C75_arrays_l)).
  - apply (proj1 (proj2 C75_arrays_l)).
  - apply l1n_convex; lra.
  - apply bfit_convex; lra.
  - apply bfit_conj; auto.
  - intro u. destruct (Hpf u 1 Rlt_0_1) as [p [_ Hq]]. exists p. exact Hq.
  - exists xo, (s [*] (A xo [-] b)). split; [cbn [zvec]; rewrite Hz; exact K1|apply bfits_subgrad; auto].
  - exists xs, ys, l. split; [exact HR|]. split; [|split; [exact H1|]].
    + apply lasso_A. destruct Hm as [_ Hm]. split; [split; exact I|]. intros y _. specialize (Hm y (conj I I)). cbn [eval eadd elin etot epre zvec] in *. rewrite !inner_zero_l in Hm. lra.
    + destruct Hsd as [_ [_ Hs2]]. replace (s [*] (A l [-] b)) with yl; [exact H2|].
      assert (Hq : norm2 (yl [-] s [*] (A l [-] b)) <= 0).
      { specialize (Hs2 (s [*] (A l [-] b)) I). cbn [eval etot] in Hs2.
        assert (E : bfits b s yl = bfits b s (s [*] (A l [-] b)) + << A l, yl [-] s [*] (A l [-] b) >> + / (2 * s) * norm2 (yl [-] s [*] (A l [-] b))).
        { unfold bfits, norm2. iexp. field. lra. }
        replace (s [*] (A l [-] b) [-] yl) with (vopp (yl [-] s [*] (A l [-] b))) in Hs2 by vring. rewrite inner_opp_r in Hs2.
        assert (H3 : / (2 * s) * norm2 (yl [-] s [*] (A l [-] b)) <= 0) by lra. assert (0 < / (2 * s)) by (apply Rinv_0_lt_compat; lra).
        apply (Rmult_le_reg_l (/ (2 * s))); lra. }
      apply vsub_eq, norm2_eq0. apply Rle_antisym; [exact Hq|apply norm2_nonneg].
Qed.

(** ** the hypotheses can be met *)
Lemma normal_spd n (F : IPS) (A : linop (Vec n) F) s : 0 <= s -> let M := fun v : Vec n => v [+] s [*] ladj A (A v) in forall y, M (gs_solve M y) = y.
Proof.
  intros Hs M. apply gs_solve_spec; unfold M.
  - intros u v. rewrite lapp_add, ladj_add. vring.
  - intros a v. rewrite lapp_scal, ladj_scal. vring.
  - intros u v. rewrite inner_add_r, inner_add_l, inner_scal_r, inner_scal_l. f_equal. f_equal. rewrite <- ladj_spec, inner_sym, (inner_sym (ladj A (A u))), <- ladj_spec. reflexivity.
  - intro v. rewrite inner_add_r, inner_scal_r, <- ladj_spec. pose proof (norm2_nonneg (A v)) as H. unfold norm2 in *. assert (0 <= s * << A v, A v >>) by (apply Rmult_le_pos; auto). lra.
Qed.
Definition gs_ext n (F : IPS) : L2Ext (Vec n) F :=
  mkL2Ext (fun M y => gs_solve M y) (Vec n -> Vec n) (fun M => M) (fun M y => gs_solve M y) (fun M y _ _ => gs_solve M y)
          (fun B c y _ _ => gs_solve (fun v => v [+] 1 [*] ladj B (B v)) (ladj B c [+] y)).
Lemma gs_ext_exact n (F : IPS) : l2_exact (gs_ext n F).
Proof.
  split.
  - intros A s y Hs M. cbn [gs_ext x_div x_cho_solve x_cho_factor x_iter]. split; [|split; [|intros _ _]]; exact (normal_spd n F A s Hs y).
  - intros B c y k w r. pose proof (normal_spd n F B 1 ltac:(lra) (ladj B c [+] y)) as H. change (gs_solve (fun v => v [+] 1 [*] ladj B (B v)) (ladj B c [+] y)) with r in H. cbn beta in H.
    rewrite ladj_sub. apply (f_equal (fun t => t [-] (ladj B c [+] y))) in H. replace (vzero : Vec n) with (ladj B c [+] y [-] (ladj B c [+] y)) by vring. rewrite <- H. vring.
Qed.
Lemma L2_exists n (F : IPS) (A : linop (Vec n) F) b s cfg x0 : l2_d cfg = WithOp A true b -> l2_q cfg = None -> is_L2 (obj 2 (l2_body (gs_ext n F) cfg (l2_init _ cfg s x0) (fun _ _ => l2_init _ cfg s x0))) A b s.
Proof.
  intros H1 H2. exists (gs_ext n F), cfg, x0, (l2_init _ cfg s x0), (fun _ _ => l2_init _ cfg s x0), true.
  split; [apply gs_ext_exact|]. split; [exact H1|]. split; [exact H2|]. split; [apply reached_init|]. split; [intros; apply reached_init|reflexivity].
Qed.
Definition sumop : linop (Vec 2) (Vec 1).
Proof.
  refine (mkLinop (Vec 2) (Vec 1) (fun x => vtab 1 (fun _ => get x 0 + get x 1)) (fun y => vtab 2 (fun _ => get y 0)) _ _ _).
  - intros x y. apply vec_ext. intros i Hi. rewrite !get_add, !get_vtab by lia. ring.
  - intros a x. apply vec_ext. intros i Hi. rewrite !get_scal, !get_vtab by lia. ring.
  - intros x y. rewrite !vec_inner. cbn [RS]. rewrite !get_vtab by lia. ring.
Defined.
(*!ex C78_example : the operator (x1, x2) -> x1 + x2 with b = 3, s = lam = 1: L2 and L1 objects of the library with exact inner
   solvers exist for it, L = 2 meets the bound, (2, 0) and (1, 1) are both solutions and 0 is not; and exact inner solvers
   exist for vectors of every length *)
Lemma C78_example_l : let b : Vec 1 := vtab 1 (fun _ => 3) in
  (exists (f g : Op (Vec 2)), is_L2 f sumop b 1 /\ is_L1 g 1) /\ (exists f : Op (Vec 1), is_L2b f b 1) /\ (forall v, 1 * norm2 (sumop v) <= 2 * norm2 v) /\
  is_min (etot (lasso sumop b 1 1)) (vtab 2 (fun i => if Nat.eqb i 0 then 2 else 0)) /\ is_min (etot (lasso sumop b 1 1)) (vtab 2 (fun _ => 1)) /\ ~ is_min (etot (lasso sumop b 1 1)) vzero /\
  forall n (F : IPS), exists ext : L2Ext (Vec n) F, l2_exact ext.
Proof.
  intro b. split; [|split; [|split; [|split; [|split; [|split]]]]].
  - eexists. eexists. split.
    + apply (L2_exists 2 (Vec 1) sumop b 1 (mkL2 (WithOp sumop true b) None 1 true (fun _ => 10%nat) true Legacy DenseDefault) None); reflexivity.
    + exists 0%nat, (fun _ _ => 0%nat). reflexivity.
  - set (cfg := mkL2 (E:=Vec 1) (F:=Vec 1) (OnlyB b) None 1 true (fun _ => 10%nat) true Legacy DenseDefault).
    exists (obj 2 (l2_body (gs_ext 1 (Vec 1)) cfg (l2_init _ cfg 1 None) (fun _ _ => l2_init _ cfg 1 None))), (gs_ext 1 (Vec 1)), cfg, None, (l2_init _ cfg 1 None), (fun _ _ => l2_init _ cfg 1 None).
    split; [apply gs_ext_exact|]. split; [reflexivity|]. split; [reflexivity|]. split; [apply reached_init|]. split; [intros; apply reached_init|reflexivity].
  - intro v. rewrite !vec_norm2. cbn [RS sumop lapp]. rewrite !get_vtab by lia. pose proof (Rle_0_sqr (get v 0 - get v 1)). unfold Rsqr in *. lra.
  - apply C78_optimality_l; [lra|lra|]. intros i Hi c. assert (E : c = 1).
    { unfold c. cbn [sumop lapp ladj]. rewrite get_vtab, get_sub, !get_vtab by lia. unfold b. rewrite get_vtab by lia. cbn [Nat.eqb]. lra. }
    rewrite E. split; [rewrite Rabs_right; lra|]. split; [auto|]. rewrite get_vtab by lia. destruct (Nat.eqb i 0); lra.
  - apply C78_optimality_l; [lra|lra|]. intros i Hi c. assert (E : c = 1).
    { unfold c. cbn [sumop lapp ladj]. rewrite get_vtab, get_sub, !get_vtab by lia. unfold b. rewrite get_vtab by lia. lra. }
    rewrite E. split; [rewrite Rabs_right; lra|]. split; [auto|]. rewrite get_vtab by lia. lra.
  - intro H0. pose proof (proj1 (proj2 (C78_optimality_l 2 (Vec 1) sumop b 1 1 ltac:(lra) ltac:(lra))) H0) as H. specialize (H 0%nat ltac:(lia)). cbn [sumop ladj] in H. unfold b in H. rewrite !get_vtab in H by lia. rewrite Rabs_right in H; lra.
  - intros n F. exists (gs_ext n F). apply gs_ext_exact.
Qed.
