(** * Every operator expression is exact *)
From Coq Require Import String Classical Psatz.
From Verif Require Import Base Space Spec ConvexFacts Smooth VSum Sep M_ProxOp SpecOps P_ProxOp M_Norms P_Norms M_L1 P_L1 P_L21 M_L2 P_L2 P_Sets P_Dyk2 M_Objs P_Conv2 P_Lasso M_Expr.
From Verif Require Export S_Expr.
Open Scope result_scope.
Open Scope R_scope.

Lemma rsup_lub S : has_sup S -> is_lub S (rsup S).
Proof.
  intro H. unfold rsup. destruct (completeness _ _ _) as [m [U L]]. cbn [proj1_sig]. split.
  - intros r Hr. apply U. left. split; assumption.
  - intros b Hb. apply L. intros r [[_ Hr]|[Hn _]]; [apply Hb; exact Hr|contradiction].
Qed.
(** the conjugate exists *)
Lemma conj_ok {E : IPS} (f : efun E) : (exists y, edom f y) -> is_conj f (conj f).
Proof.
  intros [y Hy]. split; [exists y; exact Hy|]. intro z. split; [reflexivity|]. intros [M HM]. cbn [eval conj]. apply rsup_lub. split.
  - eexists. exists y. split; [exact Hy|reflexivity].
  - exists M. intros r (u & Hu & ->). apply HM. exact Hu.
Qed.
Lemma conj_unique {E : IPS} (f fs gs : efun E) : is_conj f fs -> is_conj f gs -> (forall z, edom fs z <-> edom gs z) /\ (forall z, edom fs z -> eval fs z = eval gs z).
Proof.
  intros [_ H1] [_ H2]. assert (D : forall z, edom fs z <-> edom gs z) by (intro z; rewrite (proj1 (H1 z)), (proj1 (H2 z)); reflexivity). split; [exact D|].
  intros z Hz. destruct (proj2 (H1 z) Hz) as [U1 L1]. destruct (proj2 (H2 z) (proj1 (D z) Hz)) as [U2 L2]. apply Rle_antisym; [apply L1; exact U2|apply L2; exact U1].
Qed.
Lemma proxdual_ext {E : IPS} (o : Op E) (f fs gs : efun E) : is_conj f fs -> is_conj f gs -> impl_proxdual o fs -> impl_proxdual o gs.
Proof.
  intros H1 H2 Hi x tau Ht. destruct (Hi x tau Ht) as (p & Hp & Hpp). exists p. split; [exact Hp|]. destruct (conj_unique f fs gs H1 H2) as [D V]. revert Hpp. apply is_prox_ext; assumption.
Qed.

(** ** the invariant *)
Definition good {E : IPS} (o : Op E) (f : efun E) : Prop := convex f /\ impl_prox o f /\ impl_proxdual o (conj f).
Lemma prox_ne {E : IPS} (o : Op E) (f : efun E) : impl_prox o f -> exists y, edom f y.
Proof. intro H. destruct (H vzero 1 ltac:(lra)) as (p & _ & Hp & _). exists p. exact Hp. Qed.
Lemma good_default {E : IPS} fuel (b : Body E) (f : efun E) m : b_prox b = Some m -> b_proxdual b = None -> convex f -> impl_prox (obj (S (S fuel)) b) f -> good (obj (S (S fuel)) b) f.
Proof.
  intros Hm Hd Hc Hi. split; [exact Hc|]. split; [exact Hi|]. apply (default_proxdual E fuel b f (conj f) m Hm Hd Hc (conj_ok f (prox_ne _ _ Hi))).
  intros x tau Ht. destruct (Hi x tau Ht) as (p & Hp & Hpp). exists p. split; [|exact Hpp]. revert Hp. cbn [obj o_prox d_prox]. rewrite Hm, check_tau_pos by exact Ht. auto.
Qed.
Lemma good_dual {E : IPS} (o : Op E) (f fs : efun E) : convex f -> impl_prox o f -> is_conj f fs -> impl_proxdual o fs -> good o f.
Proof. intros Hc Hi Hj Hd. split; [exact Hc|]. split; [exact Hi|]. exact (proxdual_ext o f fs (conj f) Hj (conj_ok f (prox_ne _ _ Hi)) Hd). Qed.
Lemma prox_biconj {E : IPS} (f : efun E) tau x p : convex f -> (exists y, edom (conj f) y) -> 0 < tau -> is_prox f tau x p -> is_prox (conj (conj f)) tau x p.
Proof.
  intros Hc Hne Ht Hp. assert (Hj : is_conj f (conj f)) by (apply conj_ok; exists p; apply Hp).
  pose proof (moreau_decomposition f (conj f) tau x p Hc Hj Ht Hp) as H1. assert (Hti : 0 < / tau) by (apply Rinv_0_lt_compat; exact Ht).
  pose proof (moreau_decomposition (conj f) (conj (conj f)) (/ tau) _ _ (conj_convex f (conj f) Hj) (conj_ok (conj f) Hne) Hti H1) as H2.
  replace (/ / tau) with tau in H2 by (field; lra). replace (tau [*] (/ tau [*] x)) with x in H2 by (vfield; lra).
  replace (tau [*] (/ tau [*] x [-] / tau [*] (x [-] p))) with p in H2 by (vfield; lra). exact H2.
Qed.
Lemma good_H {E : IPS} fuel (o : Op E) (f : efun E) : good o f -> good (op_H (S fuel) o) (conj f).
Proof.
  intros (Hc & Hi & Hd). assert (Hne : exists y, edom (conj f) y). { destruct (Hd vzero 1 ltac:(lra)) as (p & _ & Hp & _). exists p. exact Hp. }
  destruct (adjoint_prox E fuel o f (conj f) Hi Hd) as [A1 A2]. split; [apply (conj_convex f), conj_ok, (prox_ne o), Hi|]. split; [exact A1|].
  intros x tau Ht. destruct (A2 x tau Ht) as (p & Hp & Hpp). exists p. split; [exact Hp|]. apply prox_biconj; assumption.
Qed.
Lemma convex_affine {E F : IPS} (f : efun F) (A : linop E F) (b : F) : convex f -> convex (epre f (fun x => A x [+] b)).
Proof.
  intros H x y t Hx Hy Ht. cbn [edom eval epre] in *. replace (A ((1 - t) [*] x [+] t [*] y) [+] b) with ((1 - t) [*] (A x [+] b) [+] t [*] (A y [+] b)) by (rewrite lapp_add, !lapp_scal; vring).
  exact (H _ _ t Hx Hy Ht).
Qed.
Lemma convex_pre_scal {E : IPS} (f : efun E) a (b : E) : convex f -> convex (epre f (fun x => a [*] x [+] b)).
Proof.
  intros H x y t Hx Hy Ht. cbn [edom eval epre] in *. replace (a [*] ((1 - t) [*] x [+] t [*] y) [+] b) with ((1 - t) [*] (a [*] x [+] b) [+] t [*] (a [*] y [+] b)) by vring.
  exact (H _ _ t Hx Hy Ht).
Qed.
(** ** convexity of the bases *)
Lemma huber_convex {E : IPS} alpha : 0 < alpha -> convex (etot (fun x : E => if Rle_dec (norm x) alpha then norm2 x / (2 * alpha) else norm x - alpha / 2)).
Proof.
  intro Ha. apply (conj_convex (mkEfun (fun u : E => norm u <= 1) (fun u => alpha / 2 * norm2 u))). split; [exists vzero; cbn [edom]; rewrite norm_zero; lra|].
  assert (UB : forall z u : E, norm u <= 1 -> << z, u >> - alpha / 2 * norm2 u <= (if Rle_dec (norm z) alpha then norm2 z / (2 * alpha) else norm z - alpha / 2)).
  { intros z u Hu. pose proof (CS z u) as HCS. pose proof (norm_nonneg z). pose proof (norm_nonneg u). rewrite <- (norm_sq u), <- (norm_sq z). set (n := norm z) in *. set (t := norm u) in *.
    destruct (Rle_dec n alpha) as [Hn|Hn].
    - assert (Q : n ^ 2 / (2 * alpha) - (n * t - alpha / 2 * t ^ 2) = / (2 * alpha) * ((n - alpha * t) * (n - alpha * t))) by (field; lra).
      assert (0 <= / (2 * alpha) * ((n - alpha * t) * (n - alpha * t))) by (apply Rmult_le_pos; [left; apply Rinv_0_lt_compat; lra|apply Rle_0_sqr]). lra.
    - assert (0 <= (1 - t) * (n - alpha)) by (apply Rmult_le_pos; lra). assert (0 <= alpha / 2 * ((1 - t) * (1 - t))) by (apply Rmult_le_pos; [lra|apply Rle_0_sqr]). nra. }
  intro z. split; [split; [intros _; eexists; intros u Hu; apply UB; exact Hu|intros _; exact I]|]. intros _. split.
  - intros r (u & Hu & ->). apply UB. exact Hu.
  - intros M HM. cbn [eval etot]. destruct (Rle_dec (norm z) alpha) as [Hn|Hn].
    + apply HM. exists (/ alpha [*] z). cbn [edom eval]. split.
      * rewrite norm_scal, Rabs_right by (left; apply Rinv_0_lt_compat; lra). apply (Rmult_le_reg_l alpha); [exact Ha|]. rewrite <- Rmult_assoc, Rinv_r, Rmult_1_l, Rmult_1_r by lra. exact Hn.
      * unfold norm2. rewrite inner_scal_l, !inner_scal_r. field. lra.
    + apply HM. exists (/ norm z [*] z). cbn [edom eval]. assert (Hz : 0 < norm z) by lra. split.
      * rewrite norm_scal, Rabs_right by (left; apply Rinv_0_lt_compat; lra). rewrite Rinv_l by lra. lra.
      * unfold norm2. rewrite inner_scal_l, !inner_scal_r. fold (norm2 z). rewrite <- (norm_sq z). field. lra.
Qed.
Lemma quad_fun_convex {E : IPS} (A : option (linop E E)) (b : option E) c : (forall B, A = Some B -> sym_psd B) ->
  convex (etot (fun x => match A with Some A => << x, A x >> / 2 | None => 0 end + match b with Some b => << b, x >> | None => 0 end + c)).
Proof.
  intros HA x y t _ _ Ht. split; [exact I|]. cbn [eval etot].
  assert (L : match b with Some b => << b, (1 - t) [*] x [+] t [*] y >> | None => 0 end = (1 - t) * match b with Some b => << b, x >> | None => 0 end + t * match b with Some b => << b, y >> | None => 0 end) by (destruct b; [rewrite inner_add_r, !inner_scal_r|]; ring).
  rewrite L. destruct A as [A|]; [|lra]. destruct (HA A eq_refl) as [S P]. rewrite lapp_add, !lapp_scal.
  assert (Q : << (1 - t) [*] x [+] t [*] y, (1 - t) [*] A x [+] t [*] A y >> = (1 - t) * << x, A x >> + t * << y, A y >> - t * (1 - t) * << x [-] y, A (x [-] y) >>).
  { rewrite lapp_sub. pose proof (S x y) as S1. rewrite (inner_sym (A x) y) in S1. iexp. inner_lin_all. rewrite S1. ring. }
  rewrite Q. assert (0 <= t * (1 - t) * << x [-] y, A (x [-] y) >>) by (apply Rmult_le_pos; [apply Rmult_le_pos; lra|apply P]). lra.
Qed.
Lemma group_norm_convex {E : IPS} k sigma : 0 <= sigma -> convex (etot (group_norm (E:=E) (k:=k) sigma)).
Proof.
  intro Hs. apply (convex_ext (esep (repeat (norm_fun sigma) k) k)).
  - intro y. rewrite group_dom. split; [intros _; exact I|]. intros _. apply Forall_forall. intros; exact I.
  - intros y _. apply group_sep. reflexivity.
  - apply sep_convex. induction k; constructor; auto. apply norm_fun_convex. exact Hs.
Qed.
Lemma ball_set_convex {E : IPS} (c : E) r : convex_set (fun x => norm (x [-] c) <= r).
Proof.
  intros x y t Hx Hy Ht. replace ((1 - t) [*] x [+] t [*] y [-] c) with ((1 - t) [*] (x [-] c) [+] t [*] (y [-] c)) by vring. eapply Rle_trans; [apply norm_triangle|].
  rewrite !norm_scal, (Rabs_pos_eq (1 - t)), (Rabs_pos_eq t) by lra.
  assert ((1 - t) * norm (x [-] c) <= (1 - t) * r) by (apply Rmult_le_compat_l; lra). assert (t * norm (y [-] c) <= t * r) by (apply Rmult_le_compat_l; lra). lra.
Qed.
Lemma affine_set_convex {E F : IPS} (A : linop E F) b : convex_set (fun x => A x = b).
Proof. intros x y t Hx Hy Ht. rewrite lapp_add, !lapp_scal, Hx, Hy. vring. Qed.

Lemma l2_good {E F : IPS} fuel (ext : L2Ext E F) cfg sigma x0 st0 ch : l2_exact ext -> 0 < sigma -> (forall x tau, l2_reached ext cfg sigma x0 (ch x tau)) ->
  good (obj (S (S fuel)) (l2_body ext cfg st0 ch)) (etot (l2_fun (l2_d cfg) (l2_q cfg) sigma (l2_alpha cfg))).
Proof.
  intros H1 H2 H3. eapply good_default; [reflexivity|reflexivity|apply l2_fun_convex; lra|]. intros x tau Ht.
  destruct (l2_obj_prox ext cfg sigma x0 st0 ch H1 H2 H3 x tau Ht) as (p & Hp & Hpp). exists p. split; [exact Hp|exact Hpp].
Qed.
Lemma quad_good {E : IPS} fuel div lsqr (A : option (linop E E)) b c ex wa ch : (forall B, A = Some B -> sym_psd B) ->
  (forall tau y, 0 < tau -> let M := fun v => v [+] tau [*] match A with Some B => B v | None => vzero end in M (div M y) = y /\ forall w, M (lsqr M y w) = y) ->
  good (obj (S (S fuel)) (quad_body div lsqr (quad_init A b c ex wa) ch)) (etot (fun x => match A with Some A => << x, A x >> / 2 | None => 0 end + match b with Some b => << b, x >> | None => 0 end + c)).
Proof.
  intros H1 H2. eapply good_default; [reflexivity|reflexivity|apply quad_fun_convex; exact H1|]. intros x tau Ht.
  destruct (quadratic_prox E div lsqr A b c ex wa (ch x tau) x tau Ht H1) as (x' & p & Hp & Hpp).
  { intros M y ->. exact (H2 tau y Ht). }
  exists p. split.
  - cbn [obj o_prox d_prox quad_body b_prox]. rewrite check_tau_pos by exact Ht. rewrite Hp. reflexivity.
  - revert Hpp. apply is_prox_ext; [reflexivity|]. intros y _. cbn [eval etot]. unfold quad_call, quad_init. destruct A, b; cbn [qu_Op qu_b qu_c]; rewrite ?inner_zero_l; ring.
Qed.
Lemma l1_good {n} fuel (w : nlist R n) g c0 ch : nonneg_list w -> good (obj (S (S fuel)) (l1_body (fun _ => w) g c0 ch)) (etot (wl1 w (gvec g))).
Proof.
  intro Hw. apply (good_dual _ _ (mkEfun (wlinf_ball w) (fun z => << z, gvec g >>))).
  - apply wl1_convex. exact Hw.
  - intros x tau Ht. cbn [obj o_prox d_prox l1_body b_prox]. rewrite check_tau_pos by exact Ht. exact (C11_prox_exact_l n (fun _ => w) g (ch x tau) x tau Hw Ht).
  - exact (proj1 (C11_dual_exact_l n w g 0 vzero 1 Hw ltac:(lra))).
  - intros x tau Ht. cbn [obj o_proxdual d_proxdual l1_body b_proxdual]. rewrite check_tau_pos by exact Ht. exact (proj2 (C11_dual_exact_l n w g (ch x tau) x tau Hw Ht)).
Qed.
Lemma box_good {n} fuel (lu : nlist bounds n) : Forall bounds_ok (proj1_sig lu) -> good (obj (S (S fuel)) (box_body lu)) (indic (box_set lu)).
Proof.
  intro H. eapply good_default; [reflexivity|reflexivity|apply indic_convex, box_convex|]. intros x tau Ht. destruct (proj2 (C15_box_l n (S fuel) lu H) x tau Ht) as (p & Hp & Hpp & _).
  exists p. split; [exact Hp|]. apply proj_prox; assumption.
Qed.
Lemma affine_good {E F : IPS} fuel close cg (A : linop E F) b : (forall x, A (ladj A (cg (fun v => A (ladj A v)) (A x [-] b))) = A x [-] b) ->
  good (obj (S (S fuel)) (affine_body close cg A b)) (indic (fun x => A x = b)).
Proof.
  intro H. eapply good_default; [reflexivity|reflexivity|apply indic_convex, affine_set_convex|]. intros x tau Ht. 
  destruct (affine_projection E F (S fuel) (fun _ _ => true) cg A b x tau Ht (H x) ltac:(reflexivity)) as (p & Hp & _ & Hpp & _). exists p. split; [exact Hp|exact Hpp].
Qed.

Lemma expr_good : forall fuel (E : IPS) (e : expr E), admissible e -> exists o, build fuel e = Ok o /\ good o (denote e).
Proof.
  intros fuel E e. induction e; intro Ha; cbn [admissible build denote bind] in *.
  - eexists. split; [reflexivity|]. apply l1_good. exact Ha.
  - destruct Ha as (H1 & H2 & _ & H3). eexists. split; [reflexivity|]. apply (l2_good _ _ _ _ o); assumption.
  - destruct Ha as [H1 H2]. eexists. split; [reflexivity|]. apply quad_good; assumption.
  - eexists. split; [reflexivity|]. destruct (euclidean_dual E (S fuel) r Ha) as (H1 & H2 & _). apply (good_dual _ _ _ (norm_fun_convex r (Rlt_le _ _ Ha)) (proj1 (euclidean_prox E (S fuel) r Ha)) H1 H2).
  - eexists. split; [reflexivity|]. eapply good_default; [reflexivity|reflexivity|apply huber_convex; exact Ha|]. apply (hubercircular_prox E (S fuel) r Ha).
  - eexists. split; [reflexivity|]. destruct (C19_l21_l m k (S fuel) r Ha) as (_ & H1 & H2 & H3). apply (good_dual _ _ _ (group_norm_convex k r (Rlt_le _ _ Ha)) H1 H2 H3).
  - eexists. split; [reflexivity|]. eapply good_default; [reflexivity|reflexivity|apply indic_convex, ball_set_convex|]. apply (ball_projection E (S fuel) c r Ha).
  - eexists. split; [reflexivity|]. apply box_good. exact Ha.
  - eexists. split; [reflexivity|]. eapply good_default; [reflexivity|reflexivity|apply indic_convex, half_convex|]. apply (halfspace_projection E (S fuel) c r Ha).
  - eexists. split; [reflexivity|]. apply affine_good. exact Ha.
  - eexists. split; [reflexivity|]. exact Ha.
  - destruct (IHe Ha) as (o & -> & Hc & Hi & _). cbn [bind]. destruct (affine_prox E (S fuel) o (denote e) c Hi) as (g & Hg & Hp & _). exists g. split; [exact Hg|].
    injection Hg as <-. eapply good_default; [reflexivity|reflexivity|apply convex_lin; exact Hc|exact Hp].
  - destruct (IHe Ha) as (o & -> & Hc & Hi & _). cbn [bind]. destruct (subtraction E (S fuel) o (denote e) c Hi) as (g & Hg & Hp & _). exists g. split; [exact Hg|].
    injection Hg as <-. eapply good_default; [reflexivity|reflexivity| |exact Hp].
    apply (convex_ext (elin (denote e) (vopp c))); [reflexivity| |apply convex_lin; exact Hc]. intros y _. cbn [eval elin]. rewrite inner_opp_l. ring.
  - destruct Ha as [Hs Ha]. destruct (IHe Ha) as (o & -> & Hc & Hi & _). cbn [bind]. destruct (scaling_prox E (S fuel) o (denote e) r Hs Hi) as (g & Hg & Hp & _). exists g. split; [exact Hg|].
    injection Hg as <-. eapply good_default; [reflexivity|reflexivity|apply convex_scal; [lra|exact Hc]|exact Hp].
  - destruct Ha as [Hs Ha]. destruct (IHe Ha) as (o & -> & Hc & Hi & _). cbn [bind]. destruct (precomp_prox E vzero (S fuel) o (denote e) r (PArray c) c Hs Hi (or_introl eq_refl)) as (g & Hg & Hp & _). exists g. split; [exact Hg|].
    injection Hg as <-. eapply good_default; [reflexivity|reflexivity|apply convex_pre_scal; exact Hc|exact Hp].
  - destruct (IHe Ha) as (o & -> & Hgd). cbn [bind]. eexists. split; [reflexivity|]. apply good_H. exact Hgd.
  - destruct Ha as [Ha HQ]. destruct (IHe Ha) as (o & -> & Hc & Hi & _). cbn [bind]. eexists. split; [reflexivity|]. eapply good_default; [reflexivity|reflexivity|apply convex_affine; exact Hc|].
    destruct b.
    + destruct HQ as [H1 H2]. apply (orthogonal_partial_mode E F (S fuel) o (denote e) l c r H1 H2 Hi).
    + destruct HQ as [H1 H2]. apply (orthogonal_full_mode E F (S fuel) o (denote e) l c r H1 H2 Hi).
Qed.

(*! C82_prox : every admissible operator expression builds an object whose prox is the exact proximal operator of the function the
   expression stands for and whose proxdual is the exact proximal operator of its convex conjugate, for every x and tau > 0,
   however deeply + v, - v, s *, precomposition, .H and Orthogonal are nested; the function is convex *)
Lemma C82_prox_l : forall fuel (E : IPS) (e : expr E), admissible e ->
  exists o, build fuel e = Ok o /\ convex (denote e) /\ impl_prox o (denote e) /\ is_conj (denote e) (conj (denote e)) /\ impl_proxdual o (conj (denote e)).
Proof.
  intros fuel E e Ha. destruct (expr_good fuel E e Ha) as (o & Ho & Hc & Hi & Hd). exists o. split; [exact Ho|]. split; [exact Hc|]. split; [exact Hi|]. split; [exact (conj_ok _ (prox_ne _ _ Hi))|exact Hd].
Qed.

(** ** values *)
Lemma expr_call : forall fuel (E : IPS) (e : expr E), admissible e -> numeric e -> forall o, build fuel e = Ok o -> impl_call o (denote e).
Proof.
  intros fuel E e. induction e; intros Ha Hn ob Hb; cbn [admissible numeric build denote bind] in *; try contradiction; try (injection Hb as <-).
  - intros x _. cbn [obj o_call d_call l1_body b_call eval etot]. rewrite (C11_call_l n (fun _ => n0)). reflexivity.
  - destruct Ha as (_ & _ & H0 & _). destruct (reached_fresh _ _ _ _ _ H0) as [Hsg _]. intros x _. cbn [obj o_call d_call l2_body b_call eval etot]. do 2 f_equal. rewrite <- Hsg. apply l2_call_spec.
  - intros x _. cbn [obj o_call d_call quad_body b_call eval etot]. do 2 f_equal. unfold quad_call, quad_init. destruct o, o0; cbn [qu_Op qu_b qu_c]; rewrite ?inner_zero_l; ring.
  - apply (euclidean_prox E (S fuel) r Ha).
  - apply (hubercircular_prox E (S fuel) r Ha).
  - apply (C19_l21_l m k (S fuel) r Ha).
  - exact Hn.
  - destruct (expr_good fuel E e Ha) as (o & Ho & _ & Hi & _). rewrite Ho in Hb. cbn [bind] in Hb. destruct (affine_prox E (S fuel) o (denote e) c Hi) as (g & Hg & _ & Hcl). rewrite Hg in Hb. injection Hb as <-. apply Hcl, IHe; assumption.
  - destruct (expr_good fuel E e Ha) as (o & Ho & _ & Hi & _). rewrite Ho in Hb. cbn [bind] in Hb. destruct (subtraction E (S fuel) o (denote e) c Hi) as (g & Hg & _ & Hcl). rewrite Hg in Hb. injection Hb as <-. apply Hcl, IHe; assumption.
  - destruct Ha as [Hs Ha]. destruct (expr_good fuel E e Ha) as (o & Ho & _ & Hi & _). rewrite Ho in Hb. cbn [bind] in Hb. destruct (scaling_prox E (S fuel) o (denote e) r Hs Hi) as (g & Hg & _ & Hcl). rewrite Hg in Hb. injection Hb as <-. apply Hcl, IHe; assumption.
  - destruct Ha as [Hs Ha]. destruct (expr_good fuel E e Ha) as (o & Ho & _ & Hi & _). rewrite Ho in Hb. cbn [bind] in Hb.
    destruct (precomp_prox E vzero (S fuel) o (denote e) r (PArray c) c Hs Hi (or_introl eq_refl)) as (g & Hg & _ & Hcl). rewrite Hg in Hb. injection Hb as <-. apply Hcl, IHe; assumption.
  - destruct Ha as [Ha HQ]. destruct (expr_good fuel F e Ha) as (o & Ho & _). rewrite Ho in Hb. cbn [bind] in Hb. injection Hb as <-. intros x Hx. cbn [obj o_call d_call orth_body b_call]. apply (IHe Ha Hn o Ho). exact Hx.
Qed.
Lemma expr_member : forall fuel (E : IPS) (e : expr E), admissible e -> membership e -> forall o, build fuel e = Ok o ->
  forall x, exists b, o_call o x = Ok (VBool b) /\ (b = true <-> edom (denote e) x).
Proof.
  intros fuel E e. induction e; intros Ha Hn ob Hb x; cbn [admissible membership build denote bind] in *; try contradiction; try (injection Hb as <-).
  - exists (Rleb (norm (x [-] c)) r). split; [reflexivity|]. apply Rleb_true.
  - exact (proj1 (C15_box_l n (S fuel) n0 Ha) x).
  - exists (Rleb (<< c, x >>) r). split; [reflexivity|]. apply Rleb_true.
  - destruct Ha as [Hs Ha]. destruct (expr_good fuel E e Ha) as (o & Ho & _). rewrite Ho in Hb. cbn [bind] in Hb. injection Hb as <-. exact (IHe Ha Hn o Ho (r [*] x [+] c)).
  - destruct Ha as [Ha HQ]. destruct (expr_good fuel F e Ha) as (o & Ho & _). rewrite Ho in Hb. cbn [bind] in Hb. injection Hb as <-. exact (IHe Ha Hn o Ho (l x [+] c)).
Qed.

(*! C82_value : the value of an admissible expression without indicators and without .H is the value of its function wherever that is
   finite; the value of an expression built from Box, EuclideanBall and HalfSpace by precomposition and Orthogonal is the test
   whether the point is in the set *)
Lemma C82_value_l : forall fuel (E : IPS) (e : expr E), admissible e -> exists o, build fuel e = Ok o /\
  (numeric e -> impl_call o (denote e)) /\
  (membership e -> forall x, exists b, o_call o x = Ok (VBool b) /\ (b = true <-> edom (denote e) x)).
Proof.
  intros fuel E e Ha. destruct (expr_good fuel E e Ha) as (o & Ho & _). exists o. split; [exact Ho|]. split; [intro Hn; exact (expr_call fuel E e Ha Hn o Ho)|intro Hn; exact (expr_member fuel E e Ha Hn o Ho)].
Qed.

(** ** gradients *)
Lemma quadratic_is_grad {E : IPS} (f : E -> R) (g x : E) C : (forall h, Rabs (f (x [+] h) - f x - << g, h >>) <= C * norm2 h) -> is_grad f x g.
Proof.
  intros H eps He. exists (eps / (Rabs C + 1)). pose proof (Rabs_pos C). split; [apply Rdiv_lt_0_compat; lra|]. intros h Hh. pose proof (norm_nonneg h) as Hn.
  eapply Rle_trans; [apply H|]. rewrite <- norm_sq. apply Rle_trans with ((Rabs C + 1) * (norm h * norm h)).
  - apply Rmult_le_compat_r; [apply Rle_0_sqr|]. pose proof (Rle_abs C). lra.
  - replace ((Rabs C + 1) * (norm h * norm h)) with (((Rabs C + 1) * norm h) * norm h) by ring. apply Rmult_le_compat_r; [exact Hn|]. apply Rle_trans with ((Rabs C + 1) * (eps / (Rabs C + 1))); [apply Rmult_le_compat_l; lra|right; field; lra].
Qed.
Lemma l2_L_smooth {E F : IPS} (d : l2_data E F) q sigma alpha L : 0 < sigma -> 0 < L ->
  match d with WithOp A _ _ => forall v, sigma * norm2 (A v) <= L * norm2 v | _ => sigma <= L end -> L_smooth (l2_fun d q sigma alpha) (l2_dfun d q sigma alpha) L.
Proof.
  intros Hs HL Hd. split.
  - intro x. apply (quadratic_is_grad _ _ x (L / 2)). intro h. rewrite l2_expand.
    match goal with |- context [sigma / 2 * ?X] => set (N := X) end.
    assert (HN : 0 <= sigma * N <= L * norm2 h). { unfold N. pose proof (norm2_nonneg h). destruct d as [A e b|b|o]; [split; [apply Rmult_le_pos; [lra|apply norm2_nonneg]|apply Hd]| |]; (split; [apply Rmult_le_pos; lra|apply Rmult_le_compat_r; lra]). }
    match goal with |- Rabs ?t <= _ => replace t with (sigma * N / 2) by field end. rewrite Rabs_pos_eq; lra.
  - intros x y. unfold l2_dfun. destruct d as [A e b|b|o].
    + match goal with |- norm ?t <= _ => replace t with (sigma [*] ladj A (A (x [-] y))) by (rewrite lapp_sub, !ladj_sub; vring) end.
      rewrite norm_scal, Rabs_pos_eq by lra. apply Rle_trans with (sigma * (L / sigma * norm (x [-] y))); [|right; field; lra]. apply Rmult_le_compat_l; [lra|]. apply ladj_bound; [left; apply Rdiv_lt_0_compat; lra|].
      intro v. apply (Rmult_le_reg_l sigma); [exact Hs|]. replace (sigma * (L / sigma * norm2 v)) with (L * norm2 v) by (field; lra). apply Hd.
    + match goal with |- norm ?t <= _ => replace t with (sigma [*] (x [-] y)) by vring end. rewrite norm_scal, Rabs_pos_eq by lra. apply Rmult_le_compat_r; [apply norm_nonneg|exact Hd].
    + match goal with |- norm ?t <= _ => replace t with (sigma [*] (x [-] y)) by vring end. rewrite norm_scal, Rabs_pos_eq by lra. apply Rmult_le_compat_r; [apply norm_nonneg|exact Hd].
Qed.
Lemma grad_from {E : IPS} (o : Op E) h (dh : E -> E) : impl_grad o h -> (forall x, o_grad o x = Ok (Some (dh x))) -> forall x, is_grad h x (dh x).
Proof. intros H1 H2 x. destruct (H1 x) as (g & Hg & Hgg). rewrite H2 in Hg. assert (Hd : dh x = g) by congruence. rewrite Hd. exact Hgg. Qed.
Lemma expr_smooth : forall fuel (E : IPS) (e : expr E) L, 0 < L -> admissible e -> smooth e L -> forall o, build fuel e = Ok o ->
  exists dh, (forall x, edom (denote e) x) /\ L_smooth (eval (denote e)) dh L /\ (forall x, o_grad o x = Ok (Some (dh x))).
Proof.
  intros fuel E e. induction e; intros L HL Ha Hs ob Hb; cbn [admissible smooth build denote bind] in *; try contradiction; try (injection Hb as <-).
  - destruct Ha as (_ & Hsg & H0 & _). destruct Hs as [Hq Hs]. destruct (reached_fresh _ _ _ _ _ H0) as [Hst _]. exists (l2_dfun (l2_d l) (l2_q l) r (l2_alpha l)). split; [intro; exact I|]. split; [apply l2_L_smooth; assumption|].
    intro x. cbn [obj o_grad d_grad l2_body b_grad]. do 2 f_equal. unfold l2_grad, l2_dfun. rewrite Hst. destruct Hq as [Hq|Hq]; rewrite Hq; [destruct (l2_d l); try vring; destruct (l2_qgrad l); vring|]. destruct (l2_q l), (l2_d l); vring.
  - destruct Ha as [H1 _]. set (q := quad_init o o0 r b b0). exists (quad_grad q). split; [intro; exact I|].
    assert (Gr : forall x, quad_grad q x = match o with Some A => A x | None => vzero end [+] match o0 with Some b => b | None => vzero end).
    { intro x. unfold q, quad_grad, quad_init. destruct o, o0; cbn [qu_Op qu_b]; vring. }
    split; [split|intro x; reflexivity].
    + intro x. rewrite Gr. apply (quadratic_is_grad _ _ x (L / 2)). intro h. cbn [eval etot].
      assert (Ex : forall c', match o0 with Some b => << b, x [+] h >> | None => 0 end + c' - match o0 with Some b => << b, x >> | None => 0 end = match o0 with Some b => << b, h >> | None => 0 end + c') by (intro c'; destruct o0; [rewrite inner_add_r|]; ring).
      destruct o as [A|].
      * destruct (H1 A eq_refl) as [Sy Ps]. match goal with |- Rabs ?t <= _ => replace t with (<< h, A h >> / 2) end.
        2:{ rewrite lapp_add, !inner_add_l, !inner_add_r, (Sy x h), (inner_sym h (A x)), (Sy x h). specialize (Ex 0). destruct o0; rewrite ?inner_add_r, ?inner_zero_l; lra. }
        rewrite Rabs_pos_eq by (specialize (Ps h); lra). pose proof (CS h (A h)). specialize (Hs h). pose proof (norm_nonneg h).
        assert (norm h * norm (A h) <= norm h * (L * norm h)) by (apply Rmult_le_compat_l; assumption). rewrite <- (norm_sq h). lra.
      * match goal with |- Rabs ?t <= _ => replace t with 0 end. 2:{ specialize (Ex 0). rewrite inner_add_l, inner_zero_l. destruct o0; rewrite ?inner_add_r, ?inner_zero_l; lra. }
        rewrite Rabs_R0. apply Rmult_le_pos; [lra|apply norm2_nonneg].
    + intros x y. rewrite !Gr. destruct o as [A|].
      * match goal with |- norm ?t <= _ => replace t with (A (x [-] y)) by (rewrite lapp_sub; vring) end. apply Hs.
      * match goal with |- norm ?t <= _ => replace t with (vzero : E) by vring end. rewrite norm_zero. apply Rmult_le_pos; [exact Hs|apply norm_nonneg].
  - destruct Hs as (h & dh & -> & H1 & H2). exists dh. split; [intro; exact I|]. split; assumption.
  - destruct (expr_good fuel E e Ha) as (o & Ho & _). rewrite Ho in Hb. cbn [bind] in Hb. destruct (IHe L HL Ha Hs o Ho) as (dh & D & [G1 G2] & G3).
    destruct (affine_grad E (S fuel) o (eval (denote e)) c) as (g & Hg & Hgr); [intro x; exists (dh x); split; [apply G3|apply G1]|]. rewrite Hg in Hb. injection Hb as <-.
    assert (Og : forall x, o_grad g x = Ok (Some (dh x [+] c))). { injection Hg as <-. intro x. cbn [obj o_grad d_grad sum_body b_grad]. rewrite G3. reflexivity. }
    exists (fun x => dh x [+] c). split; [exact D|]. split; [split; [exact (grad_from g _ _ Hgr Og)|]|exact Og].
    intros x y. replace (dh x [+] c [-] (dh y [+] c)) with (dh x [-] dh y) by vring. apply G2.
  - destruct (expr_good fuel E e Ha) as (o & Ho & _). rewrite Ho in Hb. cbn [bind] in Hb. destruct (IHe L HL Ha Hs o Ho) as (dh & D & [G1 G2] & G3).
    destruct (affine_grad E (S fuel) o (eval (denote e)) (vopp c)) as (g & Hg & Hgr); [intro x; exists (dh x); split; [apply G3|apply G1]|].
    change (op_sub (S (S fuel)) o (PArray c)) with (op_add (S (S fuel)) o (PArray (vopp c))) in Hb. rewrite Hg in Hb. injection Hb as <-.
    assert (Og : forall x, o_grad g x = Ok (Some (dh x [+] vopp c))). { injection Hg as <-. intro x. cbn [obj o_grad d_grad sum_body b_grad]. rewrite G3. reflexivity. }
    exists (fun x => dh x [+] vopp c). split; [exact D|]. split; [split|exact Og].
    + intros x eps He. destruct (grad_from g _ _ Hgr Og x eps He) as (d & Hd & Hb). exists d. split; [exact Hd|]. intros h Hh. specialize (Hb h Hh). rewrite !inner_opp_l in Hb. cbn [eval]. 
      match type of Hb with Rabs ?a <= _ => match goal with |- Rabs ?b <= _ => replace b with a by ring end end. exact Hb.
    + intros x y. replace (dh x [+] vopp c [-] (dh y [+] vopp c)) with (dh x [-] dh y) by (unfold vopp; vring). apply G2.
  - destruct Ha as [Hr Ha]. destruct Hs as (K & -> & Hs). assert (HK : 0 < K) by (apply (Rmult_lt_reg_l r); [exact Hr|lra]). destruct (expr_good fuel E e Ha) as (o & Ho & _). rewrite Ho in Hb. cbn [bind] in Hb.
    destruct (IHe K HK Ha Hs o Ho) as (dh & D & [G1 G2] & G3).
    destruct (scaling_grad E (S fuel) o (eval (denote e)) r) as (g & Hg & Hgr); [intro x; exists (dh x); split; [apply G3|apply G1]|]. rewrite Hg in Hb. injection Hb as <-.
    assert (Og : forall x, o_grad g x = Ok (Some (r [*] dh x))). { injection Hg as <-. intro x. cbn [obj o_grad d_grad post_body b_grad]. rewrite G3. reflexivity. }
    exists (fun x => r [*] dh x). split; [exact D|]. split; [split; [exact (grad_from g _ _ Hgr Og)|]|exact Og].
    intros x y. replace (r [*] dh x [-] r [*] dh y) with (r [*] (dh x [-] dh y)) by vring. rewrite norm_scal, Rabs_pos_eq, Rmult_assoc by lra. apply Rmult_le_compat_l; [lra|apply G2].
  - destruct Ha as [Hr Ha]. destruct Hs as (K & -> & Hs). assert (Hr2 : 0 < r ^ 2) by (rewrite <- Rsqr_pow2; apply Rsqr_pos_lt; exact Hr). assert (HK : 0 < K) by (apply (Rmult_lt_reg_l (r ^ 2)); [exact Hr2|lra]).
    destruct (expr_good fuel E e Ha) as (o & Ho & _). rewrite Ho in Hb. cbn [bind] in Hb. destruct (IHe K HK Ha Hs o Ho) as (dh & D & [G1 G2] & G3).
    destruct (precomp_grad E vzero (S fuel) o (eval (denote e)) r c) as (g & Hg & Hgr); [intro x; exists (dh x); split; [apply G3|apply G1]|]. rewrite Hg in Hb. injection Hb as <-.
    assert (Og : forall x, o_grad g x = Ok (Some (r [*] dh (r [*] x [+] c)))). { injection Hg as <-. intro x. cbn [obj o_grad d_grad pre_body b_grad]. rewrite G3. reflexivity. }
    exists (fun x => r [*] dh (r [*] x [+] c)). split; [intro x; apply D|]. split; [split; [exact (grad_from g _ _ Hgr Og)|]|exact Og].
    intros x y. replace (r [*] dh (r [*] x [+] c) [-] r [*] dh (r [*] y [+] c)) with (r [*] (dh (r [*] x [+] c) [-] dh (r [*] y [+] c))) by vring. rewrite norm_scal.
    specialize (G2 (r [*] x [+] c) (r [*] y [+] c)). replace (r [*] x [+] c [-] (r [*] y [+] c)) with (r [*] (x [-] y)) in G2 by vring. rewrite norm_scal in G2.
    apply Rle_trans with (Rabs r * (K * (Rabs r * norm (x [-] y)))); [apply Rmult_le_compat_l; [apply Rabs_pos|exact G2]|]. right. rewrite <- (pow2_abs r). ring.
Qed.

(*! C82_gradient : the gradient returned by an admissible expression built from L2, Quadratic (or any operator with an exact gradient) with
   + v, - v, s * and precomposition is the gradient of its function, Lipschitz with the constant obtained from those of the
   parts: unchanged by +- v, times s for s *, times a^2 for precomposition(a, b) *)
Lemma C82_gradient_l : forall fuel (E : IPS) (e : expr E) L, 0 < L -> admissible e -> smooth e L -> exists o dh, build fuel e = Ok o /\
  (forall x, edom (denote e) x) /\ L_smooth (eval (denote e)) dh L /\ (forall x, o_grad o x = Ok (Some (dh x))).
Proof.
  intros fuel E e L HL Ha Hs. destruct (expr_good fuel E e Ha) as (o & Ho & _). destruct (expr_smooth fuel E e L HL Ha Hs o Ho) as (dh & H). exists o, dh. split; [exact Ho|exact H].
Qed.
