(** * What grad returns *)
From Coq Require Import String Classical Psatz.
From Verif Require Import Base Space Spec ConvexFacts Smooth VSum Sep M_ProxOp SpecOps P_ProxOp M_Norms P_Norms M_L1 P_L1 P_L21 M_L2 P_L2 P_Sets M_Objs P_Lasso M_Expr P_Expr M_Loop M_PG S_PG2 P_PG2 S_Seq Fejer S_Iter P_Iter.
From Verif Require Export S_Grad.
Open Scope result_scope.
Open Scope R_scope.

Lemma vscal1g {E : IPS} (x : E) : 1 [*] x = x.
Proof. vring. Qed.
Lemma env_value {E : IPS} (f : efun E) x p : is_prox f 1 x p -> envelope f x = eval f p + / 2 * norm2 (p [-] x).
Proof.
  intros [Hd Hp]. unfold envelope. set (S := fun r => _). replace (/ (2 * 1)) with (/ 2) in Hp by field.
  assert (B : forall r, S r -> r <= - (eval f p + / 2 * norm2 (p [-] x))) by (intros r (y & Hy & ->); specialize (Hp y Hy); lra).
  assert (M : S (- (eval f p + / 2 * norm2 (p [-] x)))) by (exists p; auto).
  destruct (rsup_lub S) as [U L]; [split; [eexists; exact M|eexists; exact B]|]. specialize (L _ B). specialize (U _ M). lra.
Qed.
Lemma env_convex {E : IPS} (f : efun E) (pr : E -> E) : convex f -> (forall x, is_prox f 1 x (pr x)) -> convex (etot (envelope f)).
Proof.
  intros Hc Hp x y t _ _ Ht. split; [exact I|]. cbn [eval etot]. rewrite (env_value f x _ (Hp x)), (env_value f y _ (Hp y)), (env_value f _ _ (Hp ((1 - t) [*] x [+] t [*] y))).
  destruct (Hc (pr x) (pr y) t (proj1 (Hp x)) (proj1 (Hp y)) Ht) as [D V]. destruct (Hp ((1 - t) [*] x [+] t [*] y)) as [_ Hm]. specialize (Hm _ D). replace (/ (2 * 1)) with (/ 2) in Hm by field.
  replace ((1 - t) [*] pr x [+] t [*] pr y [-] ((1 - t) [*] x [+] t [*] y)) with ((1 - t) [*] (pr x [-] x) [+] t [*] (pr y [-] y)) in Hm by vring.
  assert (Q : norm2 ((1 - t) [*] (pr x [-] x) [+] t [*] (pr y [-] y)) = (1 - t) * norm2 (pr x [-] x) + t * norm2 (pr y [-] y) - (1 - t) * t * norm2 ((pr x [-] x) [-] (pr y [-] y))) by (unfold norm2; iexp; ring).
  assert (0 <= (1 - t) * t * norm2 ((pr x [-] x) [-] (pr y [-] y))) by (apply Rmult_le_pos; [apply Rmult_le_pos; lra|apply norm2_nonneg]). lra.
Qed.
Lemma env_smooth {E : IPS} (o : Op E) (f : efun E) : convex f -> impl_prox o f -> inherits_grad o ->
  exists dh, convex (etot (envelope f)) /\ L_smooth (envelope f) dh 1 /\ forall x, o_grad o x = Ok (Some (dh x)).
Proof.
  intros Hc Hi Hg. set (pr := fun x => match o_prox o x 1 with Ok p => p | Err _ => x end).
  assert (Hp : forall x, o_prox o x 1 = Ok (pr x) /\ is_prox f 1 x (pr x)) by (intro x; unfold pr; destruct (Hi x 1 ltac:(lra)) as (p & -> & H); auto).
  exists (fun x => x [-] pr x). split; [apply (env_convex f pr Hc); intro; apply Hp|]. split; [split|intro x; apply Hg; apply Hp].
  - intro x. apply (quadratic_is_grad _ _ x (/ 2)). intro h. pose proof (envelope_bound f 1 (envelope f) pr Hc ltac:(lra) (fun x => proj2 (Hp x))) as B.
    replace (/ (2 * 1)) with (/ 2) in B by field. specialize (B (fun x => env_value f x _ (proj2 (Hp x))) x h). rewrite Rinv_1, vscal1g in B. exact B.
  - intros x y. rewrite Rmult_1_l. apply sqrt_le_1_alt. pose proof (prox_firm f 1 x y (pr x) (pr y) Hc ltac:(lra) (proj2 (Hp x)) (proj2 (Hp y))) as F.
    assert (Q : norm2 (x [-] pr x [-] (y [-] pr y)) = norm2 (x [-] y) - 2 * << pr x [-] pr y, x [-] y >> + norm2 (pr x [-] pr y)) by (unfold norm2; iexp; ring).
    pose proof (norm2_nonneg (pr x [-] pr y)). lra.
Qed.
Lemma obj_inherits {E : IPS} k (b : Body E) : b_grad b = None -> b_sigmame b = 1 -> inherits_grad (obj k b).
Proof. intros Hg Hs x p Hp. cbn [obj o_grad]. unfold d_grad. rewrite Hg, Hs. cbn [obj o_prox] in Hp. rewrite Hp. cbn [bind]. rewrite Rinv_1, vscal1g. reflexivity. Qed.

Lemma grad_lin {E : IPS} (f : E -> R) x g v : is_grad f x g -> is_grad (fun x => f x + << v, x >>) x (g [+] v).
Proof. intros H eps He. destruct (H eps He) as (d & Hd & Hb). exists d. split; [exact Hd|]. intros h Hh. specialize (Hb h Hh). match goal with |- Rabs ?b <= _ => match type of Hb with Rabs ?a <= _ => replace b with a by (inner_lin_all; ring) end end. exact Hb. Qed.
Lemma grad_scale {E : IPS} (f : E -> R) x g s : is_grad f x g -> is_grad (fun x => s * f x) x (s [*] g).
Proof.
  intros H eps He. assert (0 < Rabs s + 1) by (pose proof (Rabs_pos s); lra). destruct (H (eps / (Rabs s + 1)) ltac:(apply Rdiv_lt_0_compat; lra)) as (d & Hd & Hb). exists d. split; [exact Hd|]. intros h Hh. specialize (Hb h Hh).
  replace (s * f (x [+] h) - s * f x - << s [*] g, h >>) with (s * (f (x [+] h) - f x - << g, h >>)) by (inner_lin_all; ring). rewrite Rabs_mult. pose proof (norm_nonneg h). pose proof (Rabs_pos s).
  apply Rle_trans with ((Rabs s + 1) * (eps / (Rabs s + 1) * norm h)); [|right; field; lra]. apply Rmult_le_compat; try apply Rabs_pos; lra.
Qed.
Lemma grad_pre {E : IPS} (f : E -> R) x g a b : is_grad f (a [*] x [+] b) g -> is_grad (fun x => f (a [*] x [+] b)) x (a [*] g).
Proof.
  intros H eps He. assert (P : 0 < Rabs a + 1) by (pose proof (Rabs_pos a); lra). destruct (H (eps / (Rabs a + 1)) ltac:(apply Rdiv_lt_0_compat; lra)) as (d & Hd & Hb). exists (d / (Rabs a + 1)). split; [apply Rdiv_lt_0_compat; lra|]. intros h Hh. pose proof (norm_nonneg h) as Hn. pose proof (Rabs_pos a) as Ha.
  assert (Hah : norm (a [*] h) <= d). { rewrite norm_scal. apply Rle_trans with ((Rabs a + 1) * (d / (Rabs a + 1))); [apply Rmult_le_compat; lra|right; field; lra]. }
  specialize (Hb _ Hah). replace (a [*] (x [+] h) [+] b) with (a [*] x [+] b [+] a [*] h) by vring. replace (<< a [*] g, h >>) with (<< g, a [*] h >>) by (inner_lin_all; ring). eapply Rle_trans; [exact Hb|]. rewrite norm_scal.
  apply Rle_trans with (eps / (Rabs a + 1) * ((Rabs a + 1) * norm h)); [|right; field; lra]. apply Rmult_le_compat_l; [left; apply Rdiv_lt_0_compat; lra|]. apply Rmult_le_compat_r; lra.
Qed.
Lemma grad_ext {E : IPS} (f k : E -> R) x g : (forall y, f y = k y) -> is_grad f x g -> is_grad k x g.
Proof. intros H G eps He. destruct (G eps He) as (d & Hd & Hb). exists d. split; [exact Hd|]. intros h Hh. rewrite <- !H. apply Hb. exact Hh. Qed.

(*! C95_flag : hasgrad of every operator expression is what its leaf says: True for L2, Quadratic and Euclidean, False for the other classes and
   for Orthogonal; + v, - v, s *, precomposition and .H pass it on *)
Lemma C95_flag_l : forall fuel (E : IPS) (e : expr E) o, build fuel e = Ok o -> o_hasgrad o = flagged e.
Proof.
  intros fuel E e. induction e; intros ob Hb; cbn [build flagged bind] in *; try (injection Hb as <-; reflexivity);
    destruct (build fuel e) as [f|er] eqn:Ef; cbn [bind] in Hb; try discriminate; specialize (IHe f eq_refl); try rewrite <- IHe; injection Hb as <-; reflexivity.
Qed.

(*! C95_gradient : grad(x) of every admissible operator expression returns the gradient at x of the expression in which each object without a
   gradient of its own (L1, Huber, L21, the projections, Orthogonal, every adjoint .H) is replaced by its Moreau envelope with parameter 1 and
   which then goes through the same + v, - v, s * and precomposition; wherever hasgrad is True and no .H is involved that is the gradient of the
   function itself *)
Lemma C95_gradient_l : forall fuel (E : IPS) (e : expr E) x, admissible e -> regular e x -> exists o g, build fuel e = Ok o /\
  o_grad o x = Ok (Some g) /\ is_grad (smoothed e) x g /\ (o_hasgrad o = true -> no_adjoint e -> is_grad (eval (denote e)) x g).
Proof.
  intros fuel E e x Ha Hr.
  assert (K : exists o g, build fuel e = Ok o /\ o_grad o x = Ok (Some g) /\ is_grad (smoothed e) x g /\ (flagged e = true -> no_adjoint e -> is_grad (eval (denote e)) x g)).
  2:{ destruct K as (o & g & K1 & K2 & K3 & K4). exists o, g. repeat split; auto. rewrite (C95_flag_l fuel E e o K1). exact K4. }
  assert (Leaf : forall (E0 : IPS) (e0 : expr E0) (x0 : E0), admissible e0 -> (forall o, build fuel e0 = Ok o -> inherits_grad o) ->
    exists o g, build fuel e0 = Ok o /\ o_grad o x0 = Ok (Some g) /\ is_grad (envelope (denote e0)) x0 g).
  { intros E0 e0 x0 A0 I0. destruct (expr_good fuel E0 e0 A0) as (o & Ho & G1 & G2 & _). destruct (env_smooth o (denote e0) G1 G2 (I0 o Ho)) as (dh & _ & [S1 _] & S2). exists o, (dh x0). auto. }
  assert (Leaf2 : forall (E0 : IPS) (e0 : expr E0) (x0 : E0), admissible e0 -> (forall o, build fuel e0 = Ok o -> inherits_grad o) -> flagged e0 = false \/ ~ no_adjoint e0 -> smoothed e0 = envelope (denote e0) ->
    exists o g, build fuel e0 = Ok o /\ o_grad o x0 = Ok (Some g) /\ is_grad (smoothed e0) x0 g /\ (flagged e0 = true -> no_adjoint e0 -> is_grad (eval (denote e0)) x0 g)).
  { intros E0 e0 x0 A0 I0 F0 ->. destruct (Leaf E0 e0 x0 A0 I0) as (o & g & L1 & L2 & L3). exists o, g. repeat split; auto. intros F1 F2. destruct F0 as [F0|F0]; [congruence|contradiction]. }
  induction e.
  1, 5-10: apply Leaf2; [exact Ha|intros ob Hb; injection Hb as <-; apply obj_inherits; reflexivity|left; reflexivity|reflexivity].
  9: apply Leaf2; [exact Ha| |right; intros []|reflexivity]; intros ob Hb; cbn [build] in Hb; destruct (build fuel e) as [f|]; cbn [bind] in Hb; [|discriminate]; injection Hb as <-; apply obj_inherits; reflexivity.
  9: apply Leaf2; [exact Ha| |left; reflexivity|reflexivity]; intros ob Hb; cbn [build] in Hb; destruct (build fuel e) as [f|]; cbn [bind] in Hb; [|discriminate]; injection Hb as <-; apply obj_inherits; reflexivity.
  - destruct Hr as (L & HL & Hs). destruct (C82_gradient_l fuel _ _ L HL Ha Hs) as (ob & dh & H1 & _ & [H2 _] & H3). exists ob, (dh x). repeat split; auto. 
  - destruct Hr as (L & HL & Hs). destruct (C82_gradient_l fuel _ _ L HL Ha Hs) as (ob & dh & H1 & _ & [H2 _] & H3). exists ob, (dh x). repeat split; auto.
  - destruct (euclidean_grad E (S fuel) r x Ha) as [H1 _]. destruct (H1 Hr) as (g & G1 & G2). exists (obj (S (S fuel)) (euclid_body r)), g. repeat split; auto.
  - cbn [regular smoothed flagged no_adjoint denote build] in *. destruct (o_hasgrad o) eqn:Eh.
    + destruct Hr as (g & G1 & G2). exists o, g. auto.
    + destruct Ha as (A1 & A2 & _). destruct (env_smooth o e A1 A2 Hr) as (dh & _ & [S1 _] & S2). exists o, (dh x). repeat split; auto. discriminate.
  - destruct (IHe x Ha Hr) as (o & g & H1 & H2 & H3 & H4). cbn [build smoothed denote flagged no_adjoint]. rewrite H1. cbn [bind]. eexists. exists (g [+] c). split; [reflexivity|]. split; [cbn [obj o_grad d_grad sum_body b_grad]; rewrite H2; reflexivity|]. split; [apply grad_lin; exact H3|]. intros F1 F2. apply grad_lin. auto.
  - destruct (IHe x Ha Hr) as (o & g & H1 & H2 & H3 & H4). cbn [build smoothed denote flagged no_adjoint]. rewrite H1. cbn [bind]. eexists. exists (g [+] vopp c). split; [reflexivity|]. split; [cbn [obj o_grad d_grad sum_body b_grad]; rewrite H2; reflexivity|].
    split; [|intros F1 F2; specialize (H4 F1 F2)]; [apply (grad_ext (fun x => smoothed e x + << vopp c, x >>))|apply (grad_ext (fun x => eval (denote e) x + << vopp c, x >>))]; try (intro y; cbn [eval]; rewrite inner_opp_l; ring); apply grad_lin; assumption.
  - destruct Ha as [Hs Ha]. destruct (IHe x Ha Hr) as (o & g & H1 & H2 & H3 & H4). cbn [build smoothed denote flagged no_adjoint]. rewrite H1. cbn [bind]. eexists. exists (r [*] g). split; [reflexivity|]. split; [cbn [obj o_grad d_grad post_body b_grad]; rewrite H2; reflexivity|]. split; [apply grad_scale; exact H3|]. intros F1 F2. apply grad_scale. auto.
  - destruct Ha as [Hs Ha]. destruct (IHe (r [*] x [+] c) Ha Hr) as (o & g & H1 & H2 & H3 & H4). cbn [build smoothed denote flagged no_adjoint]. rewrite H1. cbn [bind]. eexists. exists (r [*] g). split; [reflexivity|]. split; [cbn [obj o_grad d_grad pre_body b_grad]; rewrite H2; reflexivity|]. split; [apply (grad_pre (smoothed e)); exact H3|]. intros F1 F2. apply (grad_pre (eval (denote e))). auto.
Qed.

Lemma L_smooth_weak {E : IPS} (f : E -> R) df K L : K <= L -> L_smooth f df K -> L_smooth f df L.
Proof. intros H [H1 H2]. split; [exact H1|]. intros x y. eapply Rle_trans; [apply H2|]. apply Rmult_le_compat_r; [apply norm_nonneg|exact H]. Qed.
Lemma expr_lip : forall fuel (E : IPS) (e : expr E) L, 0 < L -> admissible e -> lip e L -> forall o, build fuel e = Ok o ->
  exists dh, convex (etot (smoothed e)) /\ L_smooth (smoothed e) dh L /\ (forall x, o_grad o x = Ok (Some (dh x))).
Proof.
  intros fuel E e.
  assert (Leaf : forall (E0 : IPS) (e0 : expr E0) L o, admissible e0 -> 1 <= L -> build fuel e0 = Ok o -> inherits_grad o -> smoothed e0 = envelope (denote e0) ->
    exists dh, convex (etot (smoothed e0)) /\ L_smooth (smoothed e0) dh L /\ (forall x, o_grad o x = Ok (Some (dh x)))).
  { intros E0 e0 L o A0 H1 Ho I0 ->. destruct (expr_good fuel E0 e0 A0) as (o' & Ho' & G1 & G2 & _). replace o' with o in * by congruence. destruct (env_smooth o (denote e0) G1 G2 I0) as (dh & S1 & S2 & S3). exists dh. split; [exact S1|]. split; [apply (L_smooth_weak _ _ 1 L H1 S2)|exact S3]. }
  assert (Sm : forall (E0 : IPS) (e0 : expr E0) L o, 0 < L -> admissible e0 -> smooth e0 L -> build fuel e0 = Ok o -> smoothed e0 = eval (denote e0) ->
    exists dh, convex (etot (smoothed e0)) /\ L_smooth (smoothed e0) dh L /\ (forall x, o_grad o x = Ok (Some (dh x)))).
  { intros E0 e0 L o HL A0 H1 Ho ->. destruct (expr_good fuel E0 e0 A0) as (o' & Ho' & G1 & _). replace o' with o in * by congruence. destruct (expr_smooth fuel E0 e0 L HL A0 H1 o Ho) as (dh & D & S1 & S2). exists dh. split; [|split; assumption].
    apply (convex_ext (denote e0)); [intro x; split; [intros _; exact I|intros _; apply D]|reflexivity|exact G1]. }
  induction e; intros L HL Ha Hl ob Hb.
  1, 5-10: apply Leaf; [exact Ha|exact Hl|exact Hb|injection Hb as <-; apply obj_inherits; reflexivity|reflexivity].
  9: apply Leaf; [exact Ha|exact Hl|exact Hb| |reflexivity]; cbn [build] in Hb; destruct (build fuel e) as [f|]; cbn [bind] in Hb; [|discriminate]; injection Hb as <-; apply obj_inherits; reflexivity.
  9: apply Leaf; [exact Ha|exact Hl|exact Hb| |reflexivity]; cbn [build] in Hb; destruct (build fuel e) as [f|]; cbn [bind] in Hb; [|discriminate]; injection Hb as <-; apply obj_inherits; reflexivity.
  - apply Sm; auto.
  - apply Sm; auto.
  - destruct Hl.
  - cbn [lip smoothed] in *. injection Hb as <-. destruct (o_hasgrad o) eqn:Eh.
    + destruct (Sm E (XOther E o e) L o HL Ha Hl eq_refl) as (dh & S1 & S2 & S3); [cbn [smoothed]; rewrite Eh; reflexivity|]. cbn [smoothed] in S1, S2. rewrite Eh in S1, S2. exists dh. auto.
    + destruct Ha as (A1 & A2 & _). destruct Hl as [Hl Hi]. destruct (env_smooth o e A1 A2 Hi) as (dh & S1 & S2 & S3). exists dh. split; [exact S1|]. split; [apply (L_smooth_weak _ _ 1 L Hl S2)|exact S3].
  - cbn [build] in Hb. destruct (build fuel e) as [f|] eqn:Ef; cbn [bind] in Hb; [|discriminate]. injection Hb as <-. destruct (IHe L HL Ha Hl f eq_refl) as (dh & C & [G1 G2] & G3). exists (fun x => dh x [+] c). cbn [smoothed]. split; [exact (convex_lin _ c C)|]. split; [split|].
    + intro x. apply grad_lin. apply G1.
    + intros x y. replace (dh x [+] c [-] (dh y [+] c)) with (dh x [-] dh y) by vring. apply G2.
    + intro x. cbn [obj o_grad d_grad sum_body b_grad]. rewrite G3. reflexivity.
  - cbn [build] in Hb. destruct (build fuel e) as [f|] eqn:Ef; cbn [bind] in Hb; [|discriminate]. injection Hb as <-. destruct (IHe L HL Ha Hl f eq_refl) as (dh & C & [G1 G2] & G3). exists (fun x => dh x [+] vopp c). cbn [smoothed].
    assert (Ex : forall x, smoothed e x + << vopp c, x >> = smoothed e x - << c, x >>) by (intro x; rewrite inner_opp_l; ring).
    split; [apply (convex_ext (elin (etot (smoothed e)) (vopp c))); [reflexivity|intros y _; cbn [eval elin etot]; apply Ex|apply convex_lin; exact C]|]. split; [split|].
    + intro x. apply (grad_ext _ _ _ _ Ex). apply grad_lin. apply G1.
    + intros x y. replace (dh x [+] vopp c [-] (dh y [+] vopp c)) with (dh x [-] dh y) by (unfold vopp; vring). apply G2.
    + intro x. cbn [obj o_grad d_grad sum_body b_grad]. rewrite G3. reflexivity.
  - destruct Ha as [Hr Ha]. destruct Hl as (K & -> & Hl). assert (HK : 0 < K) by (apply (Rmult_lt_reg_l r); [exact Hr|lra]). cbn [build] in Hb. destruct (build fuel e) as [f|] eqn:Ef; cbn [bind] in Hb; [|discriminate]. injection Hb as <-. destruct (IHe K HK Ha Hl f eq_refl) as (dh & C & [G1 G2] & G3).
    exists (fun x => r [*] dh x). cbn [smoothed]. split; [exact (convex_scal r _ (Rlt_le _ _ Hr) C)|]. split; [split|].
    + intro x. apply grad_scale. apply G1.
    + intros x y. replace (r [*] dh x [-] r [*] dh y) with (r [*] (dh x [-] dh y)) by vring. rewrite norm_scal, Rabs_pos_eq, Rmult_assoc by lra. apply Rmult_le_compat_l; [lra|apply G2].
    + intro x. cbn [obj o_grad d_grad post_body b_grad]. rewrite G3. reflexivity.
  - destruct Ha as [Hr Ha]. destruct Hl as (K & -> & Hl). assert (Hr2 : 0 < r ^ 2) by (rewrite <- Rsqr_pow2; apply Rsqr_pos_lt; exact Hr). assert (HK : 0 < K) by (apply (Rmult_lt_reg_l (r ^ 2)); [exact Hr2|lra]).
    cbn [build] in Hb. destruct (build fuel e) as [f|] eqn:Ef; cbn [bind] in Hb; [|discriminate]. injection Hb as <-. destruct (IHe K HK Ha Hl f eq_refl) as (dh & C & [G1 G2] & G3).
    exists (fun x => r [*] dh (r [*] x [+] c)). cbn [smoothed]. split; [exact (convex_pre_scal _ r c C)|]. split; [split|].
    + intro x. apply (grad_pre (smoothed e)). apply G1.
    + intros x y. replace (r [*] dh (r [*] x [+] c) [-] r [*] dh (r [*] y [+] c)) with (r [*] (dh (r [*] x [+] c) [-] dh (r [*] y [+] c))) by vring. rewrite norm_scal.
      specialize (G2 (r [*] x [+] c) (r [*] y [+] c)). replace (r [*] x [+] c [-] (r [*] y [+] c)) with (r [*] (x [-] y)) in G2 by vring. rewrite norm_scal in G2.
      apply Rle_trans with (Rabs r * (K * (Rabs r * norm (x [-] y)))); [apply Rmult_le_compat_l; [apply Rabs_pos|exact G2]|]. right. rewrite <- (pow2_abs r). ring.
    + intro x. cbn [obj o_grad d_grad pre_body b_grad]. rewrite G3. reflexivity.
Qed.

(*! C95_proximal_gradient : ProximalGradient with an admissible operator expression in place of the smooth term, differentiable or not, and a
   convex g with exact prox, solves the problem for the smoothed expression (each non-differentiable object replaced by its Moreau envelope):
   with tau <= 1/L the value is within |x0 - z|^2 / (2 tau niter) of that of every z and never increases, and in finite dimension the iterates
   converge to a minimiser if there is one *)
Lemma C95_proximal_gradient_l : forall fuel (E : IPS) (e : expr E) L (proxg : Op E) g eps x0 tau beta niterback accel,
  0 < L -> admissible e -> lip e L -> impl_prox proxg g -> convex g -> 0 < eps -> 0 < tau <= / L -> accel = None \/ accel = Some "None"%string ->
  let F := eadd (etot (smoothed e)) (escal eps g) in
  exists o, build fuel e = Ok o /\
    (forall niter, (1 <= niter)%nat -> exists x tr, ProximalGradient o proxg x0 [eps] (Some tau) false beta 1 niter niterback accel None = Ok (x, tr) /\
      List.length tr = niter /\ edom F x /\ (forall z, edom F z -> eval F x - eval F z <= norm2 (x0 [-] z) / (2 * tau * INR niter)) /\
      (forall i a b, nth_error tr i = Some a -> nth_error tr (S i) = Some b -> eval F b <= eval F a)) /\
    (bw E -> (exists m, is_min F m) -> exists xs l, xs 0%nat = x0 /\
      (forall n, ProximalGradient o proxg x0 [eps] (Some tau) false beta 1 (S n) niterback accel None = Ok (xs (S n), map xs (seq 1 (S n)))) /\ is_min F l /\ vcv xs l).
Proof.
  intros fuel E e L proxg g eps x0 tau beta nb accel HL Ha Hl Hg Cg He Ht Hac F. destruct (expr_good fuel E e Ha) as (o & Ho & _). exists o. split; [exact Ho|]. destruct (expr_lip fuel E e L HL Ha Hl o Ho) as (dh & C & S & G).
  set (o' := mkOp (fun x => Ok (VNum (smoothed e x))) (o_prox o) (o_proxdual o) (o_grad o) (o_hasgrad o)).
  assert (Eq : forall niter, ProximalGradient o proxg x0 [eps] (Some tau) false beta 1 niter nb accel None = ProximalGradient o' proxg x0 [eps] (Some tau) false beta 1 niter nb accel None) by (intro; reflexivity).
  assert (So : smooth_op o' (smoothed e) dh L) by (split; [intros x _; reflexivity|]; split; [exact G|split; [exact C|split; [exact HL|exact S]]]).
  split.
  - intros niter Hn. destruct (C41_rate_l E o' proxg (smoothed e) dh L g (fun _ => 0) eps x0 tau beta niter nb accel None So Hg Cg He Ht Hn Hac) as (x & tr & k & R1 & R2 & R3 & R4 & R5 & R6 & R7); [congruence|]. specialize (R4 eq_refl). rewrite R4 in R2, R6. exists x, tr. rewrite Eq. auto 8.
  - intros Hb Hm. destruct (C75_proximal_gradient_l E o' proxg (smoothed e) dh L g eps x0 tau beta 1 nb accel Hb So Hg Cg He) as (xs & l & X1 & X2 & X3); auto; try lra.
    + assert (tau * L <= 1) by (apply (Rmult_le_reg_r (/ L)); [apply Rinv_0_lt_compat; lra|]; rewrite Rmult_assoc, Rinv_r by lra; lra). lra.
    + destruct Hac as [-> | ->]; [left|right; left]; reflexivity.
    + exists xs, l. split; [exact X1|]. split; [|exact X3]. intro n. rewrite Eq. apply X2.
Qed.

Lemma half_sq_conj (f : R -> R) : (forall x, f x = x * x / 2) -> is_conj (E:=R_IPS) (etot (E:=R_IPS) f) (etot (E:=R_IPS) (fun z : R => z * z / 2)).
Proof.
  intro Hf. split; [exists (0 : R); exact I|]. intro z. change R in (type of z). split.
  - split; [|intros; exact I]. intros _. exists (z * z / 2). intros y _. change R in (type of y). cbn. rewrite Hf. pose proof (Rle_0_sqr (z - y)). unfold Rsqr in *. lra.
  - intros _. split.
    + intros r (y & _ & ->). change R in (type of y). cbn. rewrite Hf. pose proof (Rle_0_sqr (z - y)). unfold Rsqr in *. lra.
    + intros b Hb. apply Hb. exists z. split; [exact I|]. cbn. rewrite Hf. field.
Qed.
Lemma quad_grad1 (c x : R) : is_grad (E:=R_IPS) (fun x : R => c * (x * x) / 2) x (c * x).
Proof.
  apply (quadratic_is_grad (E:=R_IPS) _ _ _ (Rabs c)). intro h. change R in (type of h). cbn. match goal with |- Rabs ?t <= _ => replace t with (c / 2 * (h * h)) by field end.
  rewrite Rabs_mult. unfold norm2. cbn. rewrite (Rabs_pos_eq (h * h)) by (apply Rle_0_sqr). apply Rmult_le_compat_r; [apply Rle_0_sqr|]. unfold Rdiv. rewrite Rabs_mult, (Rabs_pos_eq (/ 2)) by lra. pose proof (Rabs_pos c). lra.
Qed.

(*! C95_scaled_refuted : the documented meaning of grad (the gradient of the function, or else of its Moreau envelope) is lost under s * and under
   .H: 2 * EuclideanBall(0, 1) stands for the same function as the ball, but its grad at 2 is 2 instead of 1; Quadratic(I).H has hasgrad True, but
   its grad at 1 is 1/2, while the conjugate z^2/2 has derivative 1; and HuberCircular(1) is differentiable with derivative 1/2 at 1/2, but hasgrad
   is False and grad is 1/4 *)
Lemma C95_scaled_refuted_l : forall fuel, let ball := XBall R_IPS (0 : R) 1 in
  let div := fun (M : R -> R) y => y / M 1 in let quad := XQuadratic R_IPS div (fun M y _ => div M y) (Some (id_linop R_IPS)) None 0 true true (fun _ _ => None) in
  (admissible (XMul R_IPS 2 ball) /\ (forall x, edom (denote (XMul R_IPS 2 ball)) x <-> edom (denote ball) x) /\ (forall x, eval (denote (XMul R_IPS 2 ball)) x = eval (denote ball) x) /\
    is_grad (E:=R_IPS) (envelope (denote (XMul R_IPS 2 ball))) 2 1 /\ exists o, build fuel (XMul R_IPS 2 ball) = Ok o /\ o_grad o 2 = Ok (Some 2)) /\
  (admissible (XH R_IPS quad) /\ is_grad (E:=R_IPS) (eval (denote (XH R_IPS quad))) 1 1 /\ exists o, build fuel (XH R_IPS quad) = Ok o /\ o_hasgrad o = true /\ o_grad o 1 = Ok (Some (1 / 2))) /\
  (admissible (XHuberCircular R_IPS 1) /\ is_grad (E:=R_IPS) (eval (denote (XHuberCircular R_IPS 1))) (1 / 2) (1 / 2) /\
    exists o, build fuel (XHuberCircular R_IPS 1) = Ok o /\ o_hasgrad o = false /\ o_grad o (1 / 2) = Ok (Some (1 / 4))).
Proof.
  intros fuel ball div quad.
  assert (N : forall x y : R, norm (vsub (E:=R_IPS) x y) = Rabs (x - y)) by (intros x y; unfold norm, norm2, vsub; cbn; replace (x + -1 * y) with (x - y) by ring; apply sqrt_Rsqr_abs).
  assert (N0 : forall x : R, norm (E:=R_IPS) x = Rabs x) by (intro x; unfold norm, norm2; cbn; apply sqrt_Rsqr_abs).
  split; [|split].
  - assert (Ab : admissible ball) by (cbn; lra). assert (Am : admissible (XMul R_IPS 2 ball)) by (split; [lra|exact Ab]).
    assert (P : o_prox (obj (S (S fuel)) (ball_body (E:=R_IPS) (0 : R) 1)) 2 1 = Ok (1 : R)).
    { cbn [obj o_prox d_prox ball_body b_prox]. rewrite check_tau_pos by lra. unfold ball_proj. rewrite N, (Rabs_pos_eq (2 - 0)), Rmax_left, pydiv_ok by lra. cbn [bind]. f_equal. unfold vsub. cbn. field. }
    assert (Eb : o_grad (obj (S (S fuel)) (ball_body (E:=R_IPS) (0 : R) 1)) 2 = Ok (Some (1 : R))).
    { rewrite (obj_inherits _ (ball_body (E:=R_IPS) (0 : R) 1) eq_refl eq_refl 2 1 P). do 2 f_equal. unfold vsub. cbn. ring. }
    split; [exact Am|]. split; [intro; reflexivity|]. split; [intro x; cbn; ring|]. split.
    + destruct (C95_gradient_l fuel R_IPS ball (2 : R) Ab I) as (o & g & B1 & B2 & B3 & _). injection B1 as <-. change (build fuel ball) with (Ok (obj (S (S fuel)) (ball_body (E:=R_IPS) (0 : R) 1))) in *. rewrite Eb in B2. injection B2 as <-.
      apply (grad_ext (E:=R_IPS) (envelope (denote ball))); [|exact B3]. intro y. destruct (expr_good fuel R_IPS ball Ab) as (o & _ & _ & Pi & _). destruct (Pi y 1 ltac:(lra)) as (p & _ & Hp).
      rewrite (env_value _ y p Hp), (env_value (denote (XMul R_IPS 2 ball)) y p); [cbn [denote eval escal indic ball]; ring|]. destruct Hp as [D V]. split; [exact D|]. intros z Hz. specialize (V z Hz). cbn [denote eval escal indic ball] in *. lra.
    + eexists. split; [reflexivity|]. transitivity (bind (o_grad (obj (S (S fuel)) (ball_body (E:=R_IPS) (0 : R) 1)) 2) (fun g => match g with Some g => Ok (Some (vscal (i:=R_IPS) 2 g)) | None => Err TypeError end)); [reflexivity|].
      rewrite Eb. cbn [bind]. do 2 f_equal. cbn. ring.
  - assert (Aq : admissible quad). { split; [intros B HB; injection HB as <-; split; [intros x y; cbn [id_linop lapp]; reflexivity|intro x; cbn [id_linop lapp]; apply norm2_nonneg]|]. intros tau y Ht. cbn. split; [|intro w]; unfold div; field; lra. }
    split; [exact Aq|]. split.
    + apply (grad_ext (E:=R_IPS) (fun x : R => 1 * (x * x) / 2)); [|pose proof (quad_grad1 1 1) as Q; rewrite (Rmult_1_r 1) in Q; exact Q]. intro y. change R in (type of y).
      assert (Hc : is_conj (denote quad) (etot (E:=R_IPS) (fun z : R => z * z / 2))) by (apply half_sq_conj; intro x; cbn; field).
      destruct (conj_unique (denote quad) _ _ (conj_ok (denote quad) (ex_intro _ (0 : R) I)) Hc) as [D V]. change (1 * (y * y) / 2 = eval (S_Expr.conj (denote quad)) y). rewrite V; [cbn; field|]. apply D. exact I.
    + eexists. split; [reflexivity|]. split; [reflexivity|].
      match goal with |- o_grad ?o 1 = _ => assert (P : o_prox o 1 1 = Ok (1 / 2 : R)) end.
      { cbn [op_H obj o_prox d_prox adjoint_body b_prox o_proxdual d_proxdual quad_body b_proxdual]. rewrite !check_tau_pos by lra. 
        unfold quad_prox, quad_init. cbn. destruct (Rleb_spec (1 / 1) 0) as [[? _]|[_ ->]]; [lra|]. cbn [snd bind]. f_equal. unfold div. field. }
      unfold op_H in *. match type of P with o_prox (obj ?k ?b) _ _ = _ => rewrite (obj_inherits k b eq_refl eq_refl 1 (1 / 2) P) end. do 2 f_equal. unfold vsub. cbn. field.
  - split; [cbn; lra|]. split; [|eexists; split; [reflexivity|split; [reflexivity|]]].
    + intros eps He. exists (Rmin (1 / 2) (2 * eps)). split; [apply Rmin_pos; lra|]. intros h Hh. change R in (type of h). rewrite N0 in *. pose proof (Rmin_l (1/2) (2 * eps)). pose proof (Rmin_r (1/2) (2 * eps)). cbn [denote eval etot]. 
      change (vadd (i:=R_IPS) (1 / 2) h) with (1 / 2 + h)%R. rewrite !N0. unfold norm2. cbn [inner R_IPS].
      assert (Rabs h <= 1 / 2) by lra. assert (- (1 / 2) <= h <= 1 / 2) by (unfold Rabs in *; destruct (Rcase_abs h); lra). rewrite (Rabs_pos_eq (1 / 2 + h)), (Rabs_pos_eq (1 / 2)) by lra.
      destruct (Rle_dec (1 / 2 + h) 1); [|lra]. destruct (Rle_dec (1 / 2) 1); [|lra]. match goal with |- Rabs ?t <= _ => replace t with (h * h / 2) by (cbn; field) end.
      rewrite Rabs_pos_eq by (pose proof (Rle_0_sqr h); unfold Rsqr in *; lra). replace (h * h) with (Rabs h * Rabs h) by (rewrite <- Rabs_mult; apply Rabs_pos_eq; apply Rle_0_sqr). pose proof (Rabs_pos h). 
      assert (Rabs h * Rabs h <= 2 * eps * Rabs h) by (apply Rmult_le_compat_r; lra). lra.
    + match goal with |- o_grad ?o _ = _ => assert (P : o_prox o (1 / 2) 1 = Ok (1 / 4 : R)) end.
      { cbn [obj o_prox d_prox hubercirc_body b_prox]. rewrite check_tau_pos by lra. rewrite N0, (Rabs_pos_eq (1 / 2)), Rmax_right, pydiv_ok by lra. cbn [bind]. f_equal. cbn. field. }
      match type of P with o_prox (obj ?k ?b) _ _ = _ => rewrite (obj_inherits k b eq_refl eq_refl _ _ P) end. do 2 f_equal. unfold vsub. cbn. field.
Qed.

(*!ex C95_example : 3 * ((EuclideanBall(1, 2) + 5).precomposition(2, 1)) is admissible and regular everywhere, 12 is a Lipschitz constant of its
   grad, and the smoothed function at 2 is 81: half the squared distance of 2 * 2 + 1 to the ball [-1, 3], plus 5 * (2 * 2 + 1), times 3 *)
Lemma C95_example_l : let e := XMul R_IPS 3 (XPre R_IPS (XAdd R_IPS (XBall R_IPS (1 : R) 2) (5 : R)) 2 (1 : R)) in
  admissible e /\ (forall x, regular e x) /\ lip e 12 /\ smoothed e (2 : R) = 81.
Proof.
  cbv zeta. split; [cbn; lra|]. split; [intro x; exact I|]. split; [exists 4; split; [lra|]; exists 1; split; [cbn; lra|cbn; lra]|].
  change (3 * (envelope (denote (XBall R_IPS (1 : R) 2)) (2 * 2 + 1) + 5 * (2 * 2 + 1)) = 81). rewrite (env_value (E:=R_IPS) _ _ (3 : R)).
  - cbn. unfold norm2, vsub. cbn. field.
  - replace (2 * 2 + 1) with 5 by ring. split.
    + cbn. unfold norm, norm2, vsub. cbn. replace ((3 + -1 * 1) * (3 + -1 * 1)) with (2 * 2) by ring. rewrite sqrt_square; lra.
    + intros y Hy. change R in (type of y). cbn in Hy |- *. assert (B : y <= 3). { unfold norm, norm2, vsub in Hy. cbn in Hy. fold (Rsqr (y + -1 * 1)) in Hy. rewrite sqrt_Rsqr_abs in Hy. apply (Rle_trans _ _ _ (Rle_abs _)) in Hy. lra. }
      unfold norm2, vsub. cbn. assert (0 <= (3 - y) * (7 - y)) by (apply Rmult_le_pos; lra). lra.
Qed.
