(** * Proofs about the coordinate-free operators (M_Norms.v) *)
From Verif Require Import Base Space Spec ConvexFacts M_ProxOp SpecOps P_ProxOp M_Norms.
From Coq Require Import Psatz.
From Verif Require Export S_Norms.
Open Scope result_scope.

Lemma pydiv_ok a b : b <> 0 -> pydiv a b = Ok (a / b).
Proof. intro H; unfold pydiv. destruct (Reqb b 0) eqn:E; auto. apply Reqb_true in E; contradiction. Qed.
Lemma pydiv_0 a : pydiv a 0 = Err ZeroDivisionError.
Proof. unfold pydiv. destruct (Reqb 0 0) eqn:E; auto. apply Reqb_false in E; lra. Qed.

(** ** The Euclidean norm *)
Definition norm_fun {E : IPS} (sigma : R) : efun E := etot (fun x : E => sigma * norm x).

Lemma norm_fun_convex {E : IPS} sigma : 0 <= sigma -> convex (norm_fun (E:=E) sigma).
Proof.
  intros Hs x y t _ _ Ht; simpl; split; auto.
  pose proof (norm_triangle ((1 - t) [*] x) (t [*] y)) as H.
  rewrite !norm_scal, !Rabs_pos_eq in H by lra. nra.
Qed.

(** u with |u| <= s and <u,p> = s|p| is a subgradient of s|.| at p. *)
Lemma norm_subgrad {E : IPS} s (p u : E) :
  norm u <= s -> << u, p >> = s * norm p -> is_subgrad (norm_fun s) p u.
Proof.
  intros H1 H2; split; [exact I|]. intros y _; simpl.
  rewrite inner_sub_r, H2. pose proof (CS u y). pose proof (norm_nonneg y). nra.
Qed.

Lemma norm_unit {E : IPS} (x : E) : x <> vzero -> norm (/ norm x [*] x) = 1.
Proof.
  intro H. pose proof (norm_pos x H). rewrite norm_scal, Rabs_pos_eq.
  - field; lra.
  - left; apply Rinv_0_lt_compat; auto.
Qed.

Lemma norm0_or {E : IPS} (x : E) : norm x = 0 \/ 0 < norm x.
Proof. pose proof (norm_nonneg x). lra. Qed.

Lemma euclid_prox_spec {E : IPS} sigma tau (x : E) :
  0 < sigma -> 0 < tau ->
  is_prox (norm_fun sigma) tau x ((1 - tau * sigma / Rmax (norm x) (tau * sigma)) [*] x).
Proof.
  intros Hs Ht. assert (Hts : 0 < tau * sigma) by nra.
  apply subgrad_prox; auto.
  destruct (Rle_dec (norm x) (tau * sigma)) as [H|H].
  - rewrite Rmax_right by auto.
    replace ((1 - tau * sigma / (tau * sigma)) [*] x) with (vzero : E) by (vfield; lra).
    rewrite vsub_0_r. apply norm_subgrad.
    + rewrite norm_scal, Rabs_pos_eq by (left; apply Rinv_0_lt_compat; auto).
      apply Rmult_le_reg_l with tau; auto. rewrite <- Rmult_assoc, Rinv_r; lra.
    + rewrite inner_zero_r, norm_zero; ring.
  - rewrite Rmax_left by lra. assert (Hn : 0 < norm x) by lra.
    set (k := 1 - tau * sigma / norm x).
    assert (Hk : 0 < k).
    { unfold k. apply Rmult_lt_reg_r with (norm x); auto. field_simplify; lra. }
    apply norm_subgrad.
    + replace (/ tau [*] (x [-] k [*] x)) with (sigma [*] (/ norm x [*] x)).
      * rewrite norm_scal, norm_scal. rewrite !Rabs_pos_eq; try lra.
        -- apply Req_le; field; lra.
        -- left; apply Rinv_0_lt_compat; lra.
      * unfold k. vfield. split; lra.
    + replace (/ tau [*] (x [-] k [*] x)) with (sigma [*] (/ norm x [*] x))
        by (unfold k; vfield; split; lra).
      rewrite norm_scal, Rabs_pos_eq by lra.
      rewrite !inner_scal_l, inner_scal_r. fold (norm2 x). rewrite <- norm_sq. field. lra.
Qed.

(*! C12_euclidean_prox : for sigma > 0, Euclidean(sigma) evaluates sigma*|x| and its prox is the exact
   proximal map, for every x and tau > 0, in every inner product space *)
Lemma euclidean_prox : forall (E : IPS) (fuel : nat) (sigma : R), 0 < sigma ->
  let f := obj (S fuel) (euclid_body (E:=E) sigma) in
  impl_prox f (etot (fun x => sigma * norm x)) /\ impl_call f (etot (fun x => sigma * norm x)).
Proof.
  intros E fuel sigma Hs f; split; [|intros x _; reflexivity].
  intros x tau Ht. unfold f; simpl. rewrite check_tau_pos by auto.
  rewrite pydiv_ok.
  - simpl. eexists; split; [reflexivity|]. apply euclid_prox_spec; auto.
  - pose proof (Rmax_r (norm x) (tau * sigma)). nra.
Qed.

Definition ball {E : IPS} (c : E) (r : R) : E -> Prop := fun x => norm (x [-] c) <= r.

Lemma ball_proj_spec {E : IPS} (c : E) r (x : E) : 0 <= r -> 0 < Rmax (norm (x [-] c)) r ->
  is_proj (ball c r) x (c [+] (r / Rmax (norm (x [-] c)) r) [*] (x [-] c)).
Proof.
  intros Hr Hm. set (d := x [-] c) in *. set (m := Rmax (norm d) r) in *.
  assert (Hq : 0 <= r / m) by (apply Rmult_le_pos; auto; left; apply Rinv_0_lt_compat; auto).
  assert (Hq1 : r / m <= 1).
  { apply Rmult_le_reg_r with m; auto. unfold Rdiv. rewrite Rmult_assoc, Rinv_l, Rmult_1_r, Rmult_1_l by lra. apply Rmax_r. }
  apply vi_proj.
  - unfold ball. replace (c [+] (r / m) [*] d [-] c) with ((r / m) [*] d) by vring.
    rewrite norm_scal, Rabs_pos_eq by auto.
    apply Rmult_le_reg_r with m; auto. replace (r / m * norm d * m) with (r * norm d) by (field; lra).
    apply Rmult_le_compat_l; auto. apply Rmax_l.
  - intros y Hy. unfold ball in Hy.
    replace (x [-] (c [+] (r / m) [*] d)) with ((1 - r / m) [*] d) by (unfold d; vring).
    replace (y [-] (c [+] (r / m) [*] d)) with (y [-] c [-] (r / m) [*] d) by vring.
    rewrite inner_scal_l, inner_sub_r, inner_scal_r. fold (norm2 d). rewrite <- norm_sq.
    pose proof (CS d (y [-] c)) as Hcs. pose proof (norm_nonneg d). pose proof (norm_nonneg (y [-] c)).
    destruct (Rle_dec (norm d) r) as [H1|H1].
    + assert (m = r) by (unfold m; apply Rmax_right; auto). rewrite H2 in *.
      replace (1 - r / r) with 0 by (field; lra). lra.
    + assert (m = norm d) by (unfold m; apply Rmax_left; lra). rewrite H2 in *.
      replace (r / norm d * (norm d * norm d)) with (r * norm d) by (field; lra).
      assert (<< d, y [-] c >> - r * norm d <= 0) by nra. nra.
Qed.

Lemma norm_conj {E : IPS} sigma : 0 <= sigma ->
  is_conj (norm_fun (E:=E) sigma) (indic (fun z => norm z <= sigma)).
Proof.
  intros Hs; split; [exists vzero; exact I|]. intros z; split; [split|].
  - intros H; simpl in H. exists 0. intros y _; simpl. pose proof (CS z y). pose proof (norm_nonneg y). nra.
  - intros [M HM]. simpl. destruct (Rle_dec (norm z) sigma) as [H|H]; auto. exfalso.
    assert (Hn : 0 < norm z) by lra.
    set (k := (Rabs M + 1) / (norm z * (norm z - sigma))).
    assert (Hd : 0 < norm z * (norm z - sigma)) by (apply Rmult_lt_0_compat; lra).
    assert (Hk : 0 < k) by (apply Rdiv_lt_0_compat; auto; pose proof (Rabs_pos M); lra).
    specialize (HM (k [*] z) I). simpl in HM.
    rewrite inner_scal_r, norm_scal, Rabs_pos_eq in HM by lra.
    fold (norm2 z) in HM. rewrite <- norm_sq in HM.
    replace (k * (norm z * norm z) - sigma * (k * norm z)) with (k * (norm z * (norm z - sigma))) in HM by ring.
    unfold k in HM. unfold Rdiv in HM. rewrite Rmult_assoc, Rinv_l, Rmult_1_r in HM by lra.
    pose proof (Rle_abs M). lra.
  - intros H; simpl in *. split.
    + intros r [y [_ ->]]; simpl. pose proof (CS z y). pose proof (norm_nonneg y). nra.
    + intros M HM. apply HM. exists vzero; split; [exact I|]. simpl. rewrite inner_zero_r, norm_zero; ring.
Qed.

(*! C12_euclidean_dual : proxdual is the exact prox (projection onto the ball of radius sigma) of the
   conjugate of sigma|.|; conj and projection are both stated *)
Lemma euclidean_dual : forall (E : IPS) (fuel : nat) (sigma : R), 0 < sigma ->
  is_conj (etot (fun x : E => sigma * norm x)) (indic (fun z => norm z <= sigma)) /\
  impl_proxdual (obj (S fuel) (euclid_body (E:=E) sigma)) (indic (fun z => norm z <= sigma)) /\
  forall x tau, 0 < tau -> exists p,
    o_proxdual (obj (S fuel) (euclid_body (E:=E) sigma)) x tau = Ok p /\
    is_proj (fun z => norm z <= sigma) x p.
Proof.
  intros E fuel sigma Hs. split; [apply norm_conj; lra|].
  assert (H : forall (x : E) tau, 0 < tau -> exists p,
    o_proxdual (obj (S fuel) (euclid_body sigma)) x tau = Ok p /\ is_proj (fun z => norm z <= sigma) x p).
  { intros x tau Ht; simpl. rewrite check_tau_pos by auto.
    assert (Hm : 0 < Rmax (norm x) sigma) by (pose proof (Rmax_r (norm x) sigma); lra).
    rewrite pydiv_ok by lra. simpl. eexists; split; [reflexivity|].
    pose proof (ball_proj_spec (vzero : E) sigma x) as Hb.
    rewrite vsub_0_r in Hb. specialize (Hb ltac:(lra) Hm). rewrite vadd_0_l in Hb.
    replace ((1 / Rmax (norm x) sigma) [*] (sigma [*] x)) with ((sigma / Rmax (norm x) sigma) [*] x) by (vfield; lra).
    destruct Hb as [Hb1 Hb2]. unfold ball in *. rewrite vsub_0_r in Hb1. split; auto.
    intros y Hy. apply Hb2. rewrite vsub_0_r; auto. }
  split; [|exact H]. intros x tau Ht. destruct (H x tau Ht) as [p [Hp Hpp]].
  exists p; split; auto. apply proj_prox; auto.
Qed.

(*! C12_euclidean_grad : away from 0, grad is the gradient of sigma|.|; at 0 no number comes out *)
Lemma euclidean_grad : forall (E : IPS) (fuel : nat) (sigma : R) (x : E), 0 < sigma ->
  (x <> vzero -> exists g, o_grad (obj (S fuel) (euclid_body sigma)) x = Ok (Some g) /\
                 is_grad (fun x => sigma * norm x) x g) /\
  (x = vzero -> o_grad (obj (S fuel) (euclid_body sigma)) x = Err ZeroDivisionError).
Proof.
  intros E fuel sigma x Hs; split; intro Hx.
  - pose proof (norm_pos x Hx) as Hn. simpl. unfold d_grad; simpl. rewrite pydiv_ok by lra. simpl.
    eexists; split; [reflexivity|]. intros eps He.
    set (n := norm x) in *.
    exists (2 * n * eps / sigma). split; [apply Rdiv_lt_0_compat; nra|].
    intros h Hh. set (m := norm (x [+] h)).
    assert (Hm2 : m * m = n * n + 2 * << x, h >> + norm h * norm h).
    { unfold m, n. rewrite !norm_sq, norm2_add. ring. }
    replace (<< (1 / n) [*] (sigma [*] x), h >>) with (sigma / n * << x, h >>) by (inner_lin_all; field; lra).
    assert (Hlow : (m - n) * (m - n) <= norm h * norm h).
    { pose proof (CS_abs x h) as Hc. fold n in Hc. pose proof (norm_nonneg h).
      pose proof (norm_nonneg (x [+] h)). fold m in H0.
      assert (n * n + << x, h >> <= m * n).
      { pose proof (CS x (x [+] h)) as H1. rewrite inner_add_r in H1. fold (norm2 x) in H1.
        rewrite <- norm_sq in H1. fold n m in H1. lra. }
      nra. }
    replace (sigma * m - sigma * n - sigma / n * << x, h >>)
      with (sigma * (norm h * norm h - (m - n) * (m - n)) / (2 * n)).
    2:{ replace (norm h * norm h) with (m * m - n * n - 2 * << x, h >>) by lra. field. lra. }
    assert (0 <= sigma * (norm h * norm h - (m - n) * (m - n)) / (2 * n)).
    { apply Rmult_le_pos; [nra|]. left; apply Rinv_0_lt_compat; lra. }
    rewrite Rabs_pos_eq by auto.
    apply Rmult_le_reg_r with (2 * n / sigma); [apply Rdiv_lt_0_compat; lra|].
    replace (sigma * (norm h * norm h - (m - n) * (m - n)) / (2 * n) * (2 * n / sigma))
      with (norm h * norm h - (m - n) * (m - n)) by (field; lra).
    replace (eps * norm h * (2 * n / sigma)) with (2 * n * eps / sigma * norm h) by (field; lra).
    pose proof (norm_nonneg h). pose proof (pow2_ge_0 (m - n)).
    apply Rle_trans with (norm h * norm h); [lra|]. apply Rmult_le_compat_r; auto.
  - subst x; simpl. unfold d_grad; simpl. rewrite norm_zero, pydiv_0. reflexivity.
Qed.

(*! C08_chain_value_refuted : the value of a chain is the second operator applied to the number the first one returns:
   chaining Euclidean(sf) and Euclidean(sg) gives sf sg |x|, not the sum of the two values *)
Lemma chain_value_refuted : forall (E : IPS) (fuel : nat) (sf sg : R) (x : E), 0 <= sf ->
  let f := obj fuel (euclid_body sf) in let g := obj fuel (euclid_body sg) in
  o_call (chain fuel f g (euclid_num sg)) x = Ok (VNum (sf * sg * norm x)) /\
  (sf = 1 -> sg = 1 -> x <> vzero -> exists a b c, o_call f x = Ok (VNum a) /\ o_call g x = Ok (VNum b) /\
     o_call (chain fuel f g (euclid_num sg)) x = Ok (VNum c) /\ c <> a + b).
Proof.
  intros E fuel sf sg x Hs f g.
  assert (V : o_call (chain fuel f g (euclid_num sg)) x = Ok (VNum (sf * sg * norm x))).
  { cbn. unfold d_call; cbn. unfold euclid_num. cbn [as_num]. rewrite Rabs_right by (apply Rle_ge, Rmult_le_pos; [exact Hs|apply norm_nonneg]). do 2 f_equal. ring. }
  split; [exact V|]. intros -> -> Hx. exists (1 * norm x), (1 * norm x), (1 * 1 * norm x). repeat split; [exact V|].
  assert (N : 0 < norm x) by (apply norm_pos; exact Hx). lra.
Qed.

(*! C12_sigma_zero_refuted : Euclidean(0) is not total: prox of the zero vector divides 0 by 0 for every
   tau > 0 although the exact prox exists (it is 0) *)
Lemma euclid_sigma_zero : forall (E : IPS) (fuel : nat) (tau : R), 0 < tau ->
  o_prox (obj (S fuel) (euclid_body (E:=E) 0)) vzero tau = Err ZeroDivisionError /\
  is_prox (etot (fun x : E => 0 * norm x)) tau vzero vzero.
Proof.
  intros E fuel tau Ht; split.
  - simpl. rewrite check_tau_pos by auto. rewrite norm_zero, Rmult_0_r, Rmax_left, pydiv_0 by lra. reflexivity.
  - split; [exact I|]. intros y _; simpl. rewrite vsub_diag, norm2_zero.
    pose proof (norm2_nonneg (y [-] vzero)). assert (0 < / (2 * tau)) by (apply Rinv_0_lt_compat; lra). nra.
Qed.

(*! C12_ball_projection : EuclideanBall(c, r) with r > 0: prox is the projection on the ball for every x
   and tau > 0; the result is a member according to the operator's own call *)
Lemma ball_projection : forall (E : IPS) (fuel : nat) (c : E) (r : R), 0 < r ->
  let f := obj (S fuel) (ball_body c r) in
  impl_prox f (indic (fun x => norm (x [-] c) <= r)) /\
  forall x tau, 0 < tau -> exists p, o_prox f x tau = Ok p /\
    is_proj (fun x => norm (x [-] c) <= r) x p /\ o_call f p = Ok (VBool true).
Proof.
  intros E fuel c r Hr f.
  assert (H : forall x tau, 0 < tau -> exists p, o_prox f x tau = Ok p /\
    is_proj (fun x => norm (x [-] c) <= r) x p).
  { intros x tau Ht. unfold f; simpl. rewrite check_tau_pos by auto. unfold ball_proj.
    assert (Hm : 0 < Rmax (norm (x [-] c)) r) by (pose proof (Rmax_r (norm (x [-] c)) r); lra).
    rewrite pydiv_ok by lra. simpl. eexists; split; [reflexivity|]. apply ball_proj_spec; auto; lra. }
  split; intros x tau Ht; destruct (H x tau Ht) as [p [Hp Hpp]]; exists p; split; auto.
  - apply proj_prox; auto.
  - split; auto. destruct Hpp as [Hm _]. simpl. unfold d_call; simpl.
    apply Rleb_true in Hm. rewrite Hm. reflexivity.
Qed.

(*! C12_radius_zero_refuted : with radius 0 the ball is the single point c, yet projecting c itself
   raises; every other point is projected correctly *)
Lemma ball_radius_zero : forall (E : IPS) (fuel : nat) (c : E) (tau : R), 0 < tau ->
  o_prox (obj (S fuel) (ball_body c 0)) c tau = Err ZeroDivisionError /\
  is_proj (fun x => norm (x [-] c) <= 0) c c /\
  forall x, x <> c -> exists p, o_prox (obj (S fuel) (ball_body c 0)) x tau = Ok p /\
    is_proj (fun x => norm (x [-] c) <= 0) x p.
Proof.
  intros E fuel c tau Ht; split; [|split].
  - simpl. rewrite check_tau_pos by auto. unfold ball_proj. rewrite vsub_diag, norm_zero, Rmax_left, pydiv_0 by lra.
    reflexivity.
  - apply proj_id. rewrite vsub_diag, norm_zero; lra.
  - intros x Hx. simpl. rewrite check_tau_pos by auto. unfold ball_proj.
    assert (Hn : 0 < norm (x [-] c)).
    { apply norm_pos. intro H. apply Hx. apply vsub_eq; auto. }
    assert (Hm : 0 < Rmax (norm (x [-] c)) 0) by (pose proof (Rmax_l (norm (x [-] c)) 0); lra).
    rewrite pydiv_ok by lra. simpl. eexists; split; [reflexivity|]. apply ball_proj_spec; auto; lra.
Qed.

(** ** Half space *)
Lemma halfspace_spec {E : IPS} (w : E) b x : w <> vzero ->
  exists p, halfspace_proj w b x = Ok p /\ is_proj (fun x => << w, x >> <= b) x p.
Proof.
  intro Hw. unfold halfspace_proj. destruct (Rleb_spec (<< w, x >>) b) as [[H ->]|[H ->]].
  - exists x; split; auto. apply proj_id; auto.
  - assert (Hn : 0 < norm2 w) by (apply norm2_pos; auto). fold (norm2 w).
    rewrite pydiv_ok by lra. simpl. eexists; split; [reflexivity|].
    set (k := (<< w, x >> - b) / norm2 w).
    assert (Hk : k * norm2 w = << w, x >> - b) by (unfold k; field; lra).
    assert (Hk0 : 0 < k) by (apply Rdiv_lt_0_compat; lra).
    apply vi_proj.
    + rewrite inner_sub_r, inner_scal_r. fold (norm2 w). lra.
    + intros y Hy. replace (x [-] (x [-] k [*] w)) with (k [*] w) by vring.
      rewrite inner_scal_l, !inner_sub_r, inner_scal_r. fold (norm2 w). nra.
Qed.

(*! C16_halfspace_projection : HalfSpace(w,b).prox is the Euclidean projection on {w.x <= b} for every
   w <> 0, x, tau > 0; the result satisfies the operator's own call and a second
   application changes nothing *)
Lemma halfspace_projection : forall (E : IPS) (fuel : nat) (w : E) (b : R), w <> vzero ->
  let f := obj (S fuel) (halfspace_body w b) in
  impl_prox f (indic (fun x => << w, x >> <= b)) /\
  forall x tau, 0 < tau -> exists p, o_prox f x tau = Ok p /\
    is_proj (fun x => << w, x >> <= b) x p /\
    o_call f p = Ok (VBool true) /\ o_prox f p tau = Ok p.
Proof.
  intros E fuel w b Hw f.
  assert (H : forall x tau, 0 < tau -> exists p, o_prox f x tau = Ok p /\
    is_proj (fun x => << w, x >> <= b) x p).
  { intros x tau Ht. unfold f; simpl. rewrite check_tau_pos by auto. apply halfspace_spec; auto. }
  split; intros x tau Ht; destruct (H x tau Ht) as [p [Hp Hpp]]; exists p; split; auto.
  - apply proj_prox; auto.
  - split; auto. destruct Hpp as [Hm _]. unfold f; simpl. unfold d_call; simpl.
    rewrite check_tau_pos by auto. unfold halfspace_proj.
    apply Rleb_true in Hm. rewrite Hm. auto.
Qed.

(*! C16_degenerate : for w = 0 the operator is still right when b >= 0 (everything is feasible) and
   produces no number when b < 0 (the set is empty) *)
Lemma halfspace_degenerate : forall (E : IPS) (fuel : nat) (b : R) (x : E) tau, 0 < tau ->
  (0 <= b -> o_prox (obj (S fuel) (halfspace_body vzero b)) x tau = Ok x) /\
  (b < 0 -> o_prox (obj (S fuel) (halfspace_body vzero b)) x tau = Err ZeroDivisionError).
Proof.
  intros E fuel b x tau Ht; simpl. rewrite check_tau_pos by auto. unfold halfspace_proj.
  rewrite inner_zero_l. split; intro H.
  - apply Rleb_true in H; rewrite H; auto.
  - destruct (Rleb_spec 0 b) as [[? ->]|[? ->]]; [lra|]. rewrite inner_zero_l, pydiv_0. reflexivity.
Qed.

(** ** Affine set *)

(*! C17_affine_projection : AffineSet(Op,b).prox is the Euclidean projection on {Op x = b} whenever the
   inner conjugate gradient solved the normal equations for this input, and the result passes the
   operator's own test *)
Lemma affine_projection : forall (E F : IPS) (fuel : nat) close cg (A : linop E F) (b : F) (x : E) tau,
  0 < tau ->
  A (ladj A (cg (fun v => A (ladj A v)) (A x [-] b))) = A x [-] b ->
  (forall y, close y y = true) ->
  let f := obj (S fuel) (affine_body close cg A b) in
  exists p, o_prox f x tau = Ok p /\ is_proj (fun y => A y = b) x p /\
            is_prox (indic (fun y => A y = b)) tau x p /\ o_call f p = Ok (VBool true).
Proof.
  intros E F fuel close cg A b x tau Ht Hcg Hcl f. unfold f; simpl. rewrite check_tau_pos by auto.
  eexists; split; [reflexivity|]. unfold affine_proj.
  set (xi := cg _ _) in *.
  assert (Hfe : A (x [-] ladj A xi) = b) by (rewrite lapp_sub, Hcg; vring).
  assert (Hpr : is_proj (fun y => A y = b) x (x [-] ladj A xi)).
  { apply vi_proj; auto. intros y Hy.
    replace (x [-] (x [-] ladj A xi)) with (ladj A xi) by vring.
    rewrite ladj_spec', lapp_sub, Hy, Hfe, vsub_diag, inner_zero_r. lra. }
  split; auto. split; [apply proj_prox; auto|]. unfold d_call; simpl. rewrite Hfe, Hcl. reflexivity.
Qed.

(*! C17_affine_inexact : with any inner solver, exact or not, the feasibility error Op p - b of the result
   is minus the residual that the inner solver left, and the displacement x - p is in the range
   of Op^T (so p is the exact projection on the affine set it does satisfy) *)
Lemma affine_inexact : forall (E F : IPS) cg (A : linop E F) (b : F) (x : E),
  let p := affine_proj cg A b x in
  let xinv := cg (fun v => A (ladj A v)) (A x [-] b) in
  A p [-] b = (A x [-] b) [-] A (ladj A xinv) /\
  is_proj (fun y => A y = A p) x p.
Proof.
  intros E F cg A b x p xinv. unfold p, affine_proj. fold xinv. split.
  - rewrite lapp_sub. vring.
  - apply vi_proj; auto. intros y Hy.
    replace (x [-] (x [-] ladj A xinv)) with (ladj A xinv) by vring.
    rewrite ladj_spec', lapp_sub, Hy, vsub_diag, inner_zero_r. lra.
Qed.

(*!ex C17_example : A = first coordinate of R x R, b = 3, with the identity as (exact) inner solver *)
Lemma C17_example_l :
  exists (A : linop (Prod_IPS R_IPS R_IPS) R_IPS) (cg : (R_IPS -> R_IPS) -> R_IPS -> R_IPS),
    forall x : Prod_IPS R_IPS R_IPS,
      A x = fst x /\
      A (ladj A (cg (fun v => A (ladj A v)) (A x [-] (3 : R_IPS)))) = A x [-] (3 : R_IPS).
Proof.
  unshelve eexists.
  { unshelve refine (mkLinop (Prod_IPS R_IPS R_IPS) R_IPS (fun x => fst x) (fun y => (y, 0)) _ _ _).
    - intros [a b] [c d]; reflexivity.
    - intros k [a b]; reflexivity.
    - intros [a b] y; simpl. ring. }
  exists (fun _ v => v). intros [a b]. split; reflexivity.
Qed.

(** ** Circular Huber *)
Definition hubercirc_fun {E : IPS} (alpha : R) : efun E :=
  etot (fun x => if Rle_dec (norm x) alpha then norm2 x / (2 * alpha) else norm x - alpha / 2).

Lemma hubercirc_call_eq {E : IPS} alpha (x : E) :
  hubercirc_call alpha x = eval (hubercirc_fun alpha) x.
Proof.
  unfold hubercirc_call; simpl. rewrite <- norm_sq.
  destruct (Rleb_spec (norm x) alpha) as [[H ->]|[H ->]]; destruct (Rle_dec (norm x) alpha); try lra.
Qed.

Lemma hubercirc_prox_spec {E : IPS} alpha tau (x : E) : 0 < alpha -> 0 < tau ->
  is_prox (hubercirc_fun alpha) tau x ((1 - tau / Rmax (norm x) (tau + alpha)) [*] x).
Proof.
  intros Ha Ht. apply subgrad_prox; auto. split; [exact I|]. intros y _.
  pose proof (norm_nonneg x) as Hx0. pose proof (norm_nonneg y) as Hy0.
  destruct (Rle_dec (norm x) (tau + alpha)) as [H|H].
  - rewrite Rmax_right by auto.
    set (k := 1 - tau / (tau + alpha)).
    assert (Hk : k = alpha / (tau + alpha)) by (unfold k; field; lra).
    assert (Hk0 : 0 < k) by (rewrite Hk; apply Rdiv_lt_0_compat; lra).
    set (p := k [*] x).
    assert (Hpn : norm p <= alpha).
    { unfold p. rewrite norm_scal, Rabs_pos_eq by lra. rewrite Hk.
      apply Rmult_le_reg_r with (tau + alpha); [lra|]. 
      replace (alpha / (tau + alpha) * norm x * (tau + alpha)) with (alpha * norm x) by (field; lra). nra. }
    replace (/ tau [*] (x [-] p)) with (/ alpha [*] p).
    2:{ unfold p. rewrite Hk. vfield. repeat split; lra. }
    pose proof (norm_nonneg p) as Hp0.
    pose proof (CS p y) as Hcs.
    rewrite inner_scal_l, inner_sub_r. fold (norm2 p).
    cbn [eval hubercirc_fun etot]. destruct (Rle_dec (norm p) alpha) as [_|]; [|lra].
    rewrite <- !norm_sq.
    set (q := norm p) in *. set (m := norm y) in *.
    assert (Hia : 0 < / alpha) by (apply Rinv_0_lt_compat; auto).
    destruct (Rle_dec m alpha).
    + apply Rmult_le_reg_r with (2 * alpha); [lra|].
      replace ((q * q / (2 * alpha) + / alpha * (<< p, y >> - q * q)) * (2 * alpha))
        with (2 * << p, y >> - q * q) by (field; lra).
      replace (m * m / (2 * alpha) * (2 * alpha)) with (m * m) by (field; lra). pose proof (pow2_ge_0 (m - q)). lra.
    + apply Rmult_le_reg_r with (2 * alpha); [lra|].
      replace ((q * q / (2 * alpha) + / alpha * (<< p, y >> - q * q)) * (2 * alpha))
        with (2 * << p, y >> - q * q) by (field; lra).
      assert (0 <= (alpha - q) * (2 * m - alpha - q)) by (apply Rmult_le_pos; lra). nra.
  - rewrite Rmax_left by lra. assert (Hn : 0 < norm x) by lra.
    set (k := 1 - tau / norm x).
    assert (Hk0 : 0 < k).
    { unfold k. apply Rmult_lt_reg_r with (norm x); auto.
      replace ((1 - tau / norm x) * norm x) with (norm x - tau) by (field; lra). lra. }
    assert (Hpn : norm (k [*] x) = norm x - tau).
    { rewrite norm_scal, Rabs_pos_eq by lra. unfold k. field. lra. }
    replace (/ tau [*] (x [-] k [*] x)) with (/ norm x [*] x) by (unfold k; vfield; split; lra).
    cbn [eval hubercirc_fun etot]. rewrite Hpn.
    destruct (Rle_dec (norm x - tau) alpha); [lra|].
    rewrite inner_scal_l, inner_sub_r, inner_scal_r. fold (norm2 x). rewrite <- (norm_sq x).
    replace (/ norm x * (<< x, y >> - k * (norm x * norm x))) with (<< x, y >> / norm x - (norm x - tau))
      by (unfold k; field; lra).
    assert (Hu : << x, y >> / norm x <= norm y).
    { apply Rmult_le_reg_r with (norm x); auto. unfold Rdiv. rewrite Rmult_assoc, Rinv_l by lra.
      pose proof (CS x y). lra. }
    destruct (Rle_dec (norm y) alpha); [|lra].
    rewrite <- norm_sq.
    assert (0 <= (norm y - alpha) ^ 2 / (2 * alpha)).
    { apply Rmult_le_pos; [apply pow2_ge_0 | left; apply Rinv_0_lt_compat; lra]. }
    replace ((norm y - alpha) ^ 2 / (2 * alpha)) with (norm y * norm y / (2 * alpha) - norm y + alpha / 2) in H0
      by (field; lra). lra.
Qed.

(*! C20_hubercircular_prox : HuberCircular(alpha), alpha > 0: call is the norm-based Huber function and
   prox its exact proximal map *)
Lemma hubercircular_prox : forall (E : IPS) (fuel : nat) (alpha : R), 0 < alpha ->
  let h := etot (fun x : E => if Rle_dec (norm x) alpha then norm2 x / (2 * alpha)
                              else norm x - alpha / 2) in
  impl_prox (obj (S fuel) (hubercirc_body alpha)) h /\
  impl_call (obj (S fuel) (hubercirc_body alpha)) h.
Proof.
  intros E fuel alpha Ha h; split.
  - intros x tau Ht; simpl. rewrite check_tau_pos by auto. rewrite pydiv_ok.
    + simpl. eexists; split; [reflexivity|]. apply hubercirc_prox_spec; auto.
    + pose proof (Rmax_r (norm x) (tau + alpha)). lra.
  - intros x _. simpl. unfold d_call; simpl. rewrite hubercirc_call_eq. reflexivity.
Qed.

(** ** Quadratic *)

(** The inner solver solved the system it was given. *)
Definition exact_solve {E : IPS} (M : E -> E) (y x : E) : Prop := M x = y.

(*! C18_quadratic_prox : for Op symmetric positive semidefinite (or absent), every b, c and every warm-start
   state, whenever the inner linear solve is exact the result of prox minimises
   x'Op x/2 + b'x + c + |y-x|^2/(2 tau), the function that call evaluates *)
Lemma quadratic_prox : forall (E : IPS) div lsqr (Op : option (linop E E)) ob c expl warm x0 x tau,
  0 < tau ->
  (forall A, Op = Some A -> sym_psd A) ->
  (forall M y, M = (fun v => v [+] tau [*] match Op with Some A => A v | None => vzero end) ->
     M (div M y) = y /\ forall w, M (lsqr M y w) = y) ->
  let q := quad_init Op ob c expl warm in
  exists x0' p, quad_prox div lsqr q x0 x tau = (x0', Ok p) /\
    is_prox (etot (quad_call q)) tau x p.
Proof.
  intros E div lsqr Op ob c expl warm x0 x tau Ht Hop Hsolve q.
  unfold quad_prox. destruct (Rleb_spec tau 0) as [[? ?]|[_ ->]]; [lra|].
  unfold q, quad_init, quad_call; simpl.
  assert (Hlin : forall (b : E) (A : linop E E) p, sym_psd A ->
     p [+] tau [*] A p = x [-] tau [*] b ->
     is_prox (etot (fun x => << x, A x >> / 2 + << b, x >> + c)) tau x p).
  { intros b A p [Hs Hp] Heq. apply subgrad_prox; auto. split; [exact I|]. intros y _; simpl.
    replace (/ tau [*] (x [-] p)) with (A p [+] b).
    2:{ replace x with (x [-] tau [*] b [+] tau [*] b) by vring. rewrite <- Heq. vfield. lra. }
    pose proof (Hp (y [-] p)) as H. rewrite lapp_sub in H.
    pose proof (Hs y p) as H1. pose proof (inner_sym (A y) p) as H2.
    pose proof (inner_sym (A p) y) as H3. pose proof (inner_sym (A p) p) as H4.
    rewrite !inner_sub_l, !inner_sub_r in H.
    rewrite inner_add_l, !inner_sub_r. lra. }
  destruct Op as [A|].
  - assert (Hb : exists b, match ob with Some b => Some b | None => Some vzero end = Some b /\
                 (forall b', ob = Some b' -> b' = b)).
    { destruct ob as [b|]; [exists b | exists vzero]; split; auto; intros b' Hb'; congruence. }
    destruct Hb as [b [Hb _]].
    replace (match ob with Some _ => ob | None => Some vzero end) with (Some b)
      by (rewrite <- Hb; destruct ob; reflexivity).
    eexists _, _; split; [reflexivity|].
    specialize (Hsolve _ (x [-] tau [*] b) eq_refl). destruct Hsolve as [Hd Hl].
    destruct expl; apply Hlin; auto.
  - destruct ob as [b|].
    + eexists _, _; split; [reflexivity|]. apply subgrad_prox; auto. split; [exact I|].
      intros y _; simpl. replace (/ tau [*] (x [-] (x [-] tau [*] b))) with b by (vfield; lra).
      rewrite !inner_sub_r. lra.
    + eexists _, _; split; [reflexivity|]. apply subgrad_prox; auto. split; [exact I|].
      intros y _; simpl. rewrite vsub_diag, vscal_zero, inner_zero_l. lra.
Qed.

Lemma A_bounded_quad {E : IPS} (A : linop E E) (C : R) (x h g : E) (b : E) c :
  (forall v, << v, A v >> <= C * norm2 v /\ - C * norm2 v <= << v, A v >>) ->
  (forall v, << x, A v >> + << v, A x >> + 2 * << b, v >> = 2 * << g, v >>) ->
  Rabs ((<< x [+] h, A (x [+] h) >> / 2 + << b, x [+] h >> + c) - (<< x, A x >> / 2 + << b, x >> + c) - << g, h >>)
   <= C / 2 * norm2 h.
Proof.
  intros H1 H2. specialize (H2 h). specialize (H1 h).
  rewrite lapp_add. rewrite !inner_add_l, !inner_add_r. apply Rabs_le. lra.
Qed.

(*! C18_quadratic_grad : for a bounded symmetric Op (any matrix is bounded), grad is the gradient of call *)
Lemma quadratic_grad : forall (E : IPS) (Op : option (linop E E)) ob c expl warm (C : R),
  (forall A, Op = Some A -> (forall x y, << A x, y >> = << x, A y >>) /\
     forall v, << v, A v >> <= C * norm2 v /\ - C * norm2 v <= << v, A v >>) ->
  let q := quad_init Op ob c expl warm in
  forall x, is_grad (quad_call q) x (quad_grad q x).
Proof.
  intros E Op ob c expl warm C HA q x.
  assert (Hq : forall f (g : E), (exists C, forall h, Rabs (f (x [+] h) - f x - << g, h >>) <= C / 2 * norm2 h) ->
     is_grad f x g).
  { intros f g [C' HC] eps He. exists (2 * eps / (Rabs C' + 1)).
    pose proof (Rabs_pos C'). split; [apply Rdiv_lt_0_compat; lra|]. intros h Hh.
    eapply Rle_trans; [apply HC|]. rewrite <- norm_sq. pose proof (norm_nonneg h).
    apply Rle_trans with ((Rabs C' + 1) / 2 * (norm h * norm h)).
    - apply Rmult_le_compat_r; [nra|]. pose proof (Rle_abs C'). lra.
    - apply Rle_trans with ((Rabs C' + 1) / 2 * (2 * eps / (Rabs C' + 1) * norm h)).
      + apply Rmult_le_compat_l; [lra|]. apply Rmult_le_compat_r; auto.
      + apply Req_le. field. lra. }
  unfold q, quad_init, quad_call, quad_grad; simpl.
  destruct Op as [A|]; destruct ob as [b|]; apply Hq.
  - destruct (HA A eq_refl) as [Hs Hb]. exists C. intros h.
    apply (A_bounded_quad A C x h _ b c Hb). intros v. rewrite inner_add_l.
    rewrite <- (Hs x v), (inner_sym v (A x)). ring.
  - destruct (HA A eq_refl) as [Hs Hb]. exists C. intros h.
    apply (A_bounded_quad A C x h _ vzero c Hb). intros v. rewrite inner_add_l, inner_zero_l.
    rewrite <- (Hs x v), (inner_sym v (A x)). ring.
  - exists 0. intros h. rewrite inner_add_r. apply Rabs_le; lra.
  - exists 0. intros h. rewrite inner_zero_l. apply Rabs_le; lra.
Qed.

Definition rot : linop (Prod_IPS R_IPS R_IPS) (Prod_IPS R_IPS R_IPS).
Proof.
  refine (mkLinop (Prod_IPS R_IPS R_IPS) (Prod_IPS R_IPS R_IPS)
    (fun x => (snd x, - fst x)) (fun y => (- snd y, fst y)) _ _ _).
  - intros [a b] [c d]; simpl; f_equal; ring.
  - intros k [a b]; simpl; f_equal; ring.
  - intros [a b] [c d]; simpl; ring.
Defined.

(*! C18_nonsymmetric_refuted : for a non-symmetric Op (rotation by 90 degrees, whose quadratic form is
   identically 0) the value is constant, yet grad is not 0 and prox moves the point although
   its inner solve is exact *)
Lemma quadratic_nonsymmetric :
  exists (A : linop (Prod_IPS R_IPS R_IPS) (Prod_IPS R_IPS R_IPS)) x p
         (div : (Prod_IPS R_IPS R_IPS -> Prod_IPS R_IPS R_IPS) -> Prod_IPS R_IPS R_IPS -> Prod_IPS R_IPS R_IPS),
    let q := quad_init (Some A) None 0 true false in
    (forall v, quad_call q v = 0) /\
    ~ is_grad (quad_call q) x (quad_grad q x) /\
    quad_prox div (fun _ y _ => y) q None x 1 = (None, Ok p) /\
    p [+] 1 [*] A p = x [-] 1 [*] vzero /\ ~ is_prox (etot (quad_call q)) 1 x p.
Proof.
  exists rot, (1, 0), (1 / 2, 1 / 2), (fun _ _ => (1 / 2, 1 / 2)).
  assert (Hz : forall v, quad_call (quad_init (Some rot) None 0 true false) v = 0).
  { intros [a b]; unfold quad_call, quad_init; simpl. field. }
  split; [exact Hz|]. split; [|split; [|split]].
  - intros H. destruct (H (1 / 2) ltac:(lra)) as [d [Hd Hb]].
    set (t := Rmin d 1).
    assert (Ht : 0 < t) by (unfold t; apply Rmin_glb_lt; lra).
    assert (Htd : t <= d) by apply Rmin_l.
    assert (Hnt : norm ((0, t) : Prod_IPS R_IPS R_IPS) = t).
    { unfold norm, norm2; simpl. replace (0 * 0 + t * t) with (t * t) by ring. apply sqrt_square; lra. }
    specialize (Hb ((0, t) : Prod_IPS R_IPS R_IPS)). rewrite Hnt in Hb. specialize (Hb Htd).
    rewrite !Hz in Hb. unfold quad_grad, quad_init in Hb; simpl in Hb.
    replace (0 - 0 - ((0 + 0) * 0 + (- (1) + 0) * t)) with t in Hb by ring.
    rewrite Rabs_pos_eq in Hb by lra. lra.
  - unfold quad_prox. destruct (Rleb_spec 1 0) as [[? ?]|[_ ->]]; [lra|]. reflexivity.
  - unfold vsub; simpl. f_equal; field.
  - intros [_ H]. specialize (H (1, 0) I). cbn [eval etot] in H. rewrite !Hz in H.
    unfold norm2, vsub in H; simpl in H. lra.
Qed.

(*!ex C18_example : Op = 3*identity on any space is symmetric psd and bounded by 3, and dividing by
   (1 + 3 tau) is an exact inner solver *)
Lemma C18_example_l : forall (E : IPS) tau, 0 < tau ->
  sym_psd (scal_linop E 3) /\
  (forall v, << v, scal_linop E 3 v >> <= 3 * norm2 v /\ - 3 * norm2 v <= << v, scal_linop E 3 v >>) /\
  forall y : E, let p := / (1 + 3 * tau) [*] y in p [+] tau [*] scal_linop E 3 p = y.
Proof.
  intros E tau Ht. split; [|split].
  - split; intros; simpl.
    + rewrite inner_scal_l, inner_scal_r; auto.
    + rewrite inner_scal_r. pose proof (norm2_nonneg x). unfold norm2 in *. lra.
  - intros v; simpl. rewrite inner_scal_r. fold (norm2 v). pose proof (norm2_nonneg v). lra.
  - intros y p. unfold p; simpl. vfield. lra.
Qed.

(** ** Orthogonal *)
Lemma tight_frame {E F : IPS} (Q : linop E F) alpha :
  0 < alpha -> (forall y, Q (ladj Q y) = alpha [*] y) ->
  (forall y, norm2 (ladj Q y) = alpha * norm2 y) /\
  (forall v, norm2 (Q v) <= alpha * norm2 v).
Proof.
  intros Ha HQ.
  assert (H1 : forall y, norm2 (ladj Q y) = alpha * norm2 y).
  { intro y. unfold norm2. rewrite ladj_spec', HQ, inner_scal_r. reflexivity. }
  split; auto. intro v.
  pose proof (norm2_nonneg (alpha [*] v [-] ladj Q (Q v))) as H.
  rewrite norm2_sub, norm2_scal, H1, inner_scal_l, <- ladj_spec in H. fold (norm2 (Q v)) in H.
  assert (0 <= alpha * (alpha * norm2 v - norm2 (Q v))) by lra.
  apply Rmult_le_reg_l with alpha; auto. lra.
Qed.

(*! C21_orthogonal_partial_mode : partial=True and Q Q^T = alpha I (alpha > 0): prox is the exact prox of
   x -> f(Qx+b), for every f (convex or not) with an exact prox, every b *)
Lemma orthogonal_partial_mode : forall (E F : IPS) (fuel : nat) (f : Op F) (h : efun F)
    (Q : linop E F) (b : F) (alpha : R),
  0 < alpha -> (forall y, Q (ladj Q y) = alpha [*] y) -> impl_prox f h ->
  let g := obj (S fuel) (orth_body f Q true b alpha) in
  impl_prox g (epre h (fun x => Q x [+] b)) /\
  (impl_call f h -> impl_call g (epre h (fun x => Q x [+] b))).
Proof.
  intros E F fuel f h Q b alpha Ha HQ Hf g. split.
  - intros x tau Ht. unfold g; simpl. rewrite check_tau_pos by auto.
    assert (Hat : 0 < alpha * tau) by nra.
    destruct (Hf (Q x [+] b) (alpha * tau) Hat) as [p [-> [Hd Hm]]]. simpl.
    eexists; split; [reflexivity|]. destruct (tight_frame Q alpha Ha HQ) as [T1 T2].
    set (z := 1 / alpha [*] (alpha [*] x [-] ladj Q (Q x) [+] ladj Q (p [-] b))).
    assert (Hz : Q z [+] b = p).
    { unfold z. rewrite lapp_scal, lapp_add, lapp_sub, lapp_scal, !HQ. vfield. lra. }
    assert (Hzx : z [-] x = / alpha [*] ladj Q (p [-] (Q x [+] b))).
    { unfold z. rewrite ladj_sub, !ladj_sub, ladj_add. vfield. lra. }
    split; simpl.
    + rewrite Hz; auto.
    + intros y Hy. rewrite Hz. specialize (Hm _ Hy).
      rewrite Hzx, norm2_scal, T1.
      pose proof (T2 (y [-] x)) as H2.
      replace (Q (y [-] x)) with (Q y [+] b [-] (Q x [+] b)) in H2 by (rewrite lapp_sub; vring).
      set (N1 := norm2 (p [-] (Q x [+] b))) in *. set (N2 := norm2 (Q y [+] b [-] (Q x [+] b))) in *.
      replace (/ (2 * tau) * (/ alpha * / alpha * (alpha * N1))) with (/ (2 * (alpha * tau)) * N1) by (field; lra).
      assert (/ (2 * (alpha * tau)) * N2 <= / (2 * tau) * norm2 (y [-] x)).
      { replace (/ (2 * tau) * norm2 (y [-] x)) with (/ (2 * (alpha * tau)) * (alpha * norm2 (y [-] x))) by (field; lra).
        apply Rmult_le_compat_l; auto. left; apply Rinv_0_lt_compat; lra. }
      lra.
  - intros Hc x Hx. apply Hc; auto.
Qed.

(*! C21_orthogonal_full_mode : partial=False and Q Q^T = Q^T Q = I: exact prox of x -> f(Qx+b), whatever
   alpha is *)
Lemma orthogonal_full_mode : forall (E F : IPS) (fuel : nat) (f : Op F) (h : efun F)
    (Q : linop E F) (b : F) (alpha : R),
  (forall y, Q (ladj Q y) = y) -> (forall x, ladj Q (Q x) = x) -> impl_prox f h ->
  impl_prox (obj (S fuel) (orth_body f Q false b alpha)) (epre h (fun x => Q x [+] b)).
Proof.
  intros E F fuel f h Q b alpha HQ1 HQ2 Hf x tau Ht. simpl. rewrite check_tau_pos by auto.
  destruct (Hf (Q x [+] b) tau Ht) as [p [-> [Hd Hm]]]. simpl.
  eexists; split; [reflexivity|].
  assert (Hz : Q (ladj Q (p [-] b)) [+] b = p) by (rewrite HQ1; vring).
  assert (Hiso : forall v, norm2 (Q v) = norm2 v).
  { intro v. unfold norm2. rewrite ladj_spec, HQ2. reflexivity. }
  split; simpl; [rewrite Hz; auto|]. intros y Hy. rewrite Hz. specialize (Hm _ Hy).
  rewrite <- (Hiso (y [-] x)), <- (Hiso (ladj Q (p [-] b) [-] x)).
  replace (Q (y [-] x)) with (Q y [+] b [-] (Q x [+] b)) by (rewrite lapp_sub; vring).
  replace (Q (ladj Q (p [-] b) [-] x)) with (p [-] (Q x [+] b)) by (rewrite lapp_sub, HQ1; vring).
  exact Hm.
Qed.

(*!ex C21_example : Q = 2*identity satisfies Q Q^T = 4 I, and -identity is fully orthogonal *)
Lemma C21_example_l : forall (E : IPS),
  (forall y, scal_linop E 2 (ladj (scal_linop E 2) y) = 4 [*] y) /\
  (forall y, scal_linop E (-1) (ladj (scal_linop E (-1)) y) = y) /\
  (forall y, ladj (scal_linop E (-1)) (scal_linop E (-1) y) = y).
Proof. intros E; repeat split; intro y; simpl; vring. Qed.

Lemma R_norm (a : R) : norm (a : R_IPS) = Rabs a.
Proof. unfold norm, norm2; simpl. rewrite <- (sqrt_square (Rabs a)) by apply Rabs_pos. f_equal. rewrite <- Rabs_mult, Rabs_pos_eq; nra. Qed.

(*!ex C12_example : on the real line: prox of 2|.| at 5 with step 1 is 3; the ball of radius 1 around 0
   sends 4 to 1 *)
Lemma C12_example_l :
  o_prox (obj 1 (euclid_body (E:=R_IPS) 2)) (5 : R_IPS) 1 = Ok (3 : R_IPS) /\
  o_prox (obj 1 (ball_body (0 : R_IPS) 1)) (4 : R_IPS) 1 = Ok (1 : R_IPS).
Proof.
  split; simpl; rewrite check_tau_pos by lra.
  - rewrite R_norm, Rabs_pos_eq, Rmax_left by lra. rewrite pydiv_ok by lra. simpl. f_equal. field.
  - unfold ball_proj. replace ((4 : R_IPS) [-] (0 : R_IPS)) with (4 : R_IPS) by (unfold vsub; simpl; ring).
    rewrite R_norm, Rabs_pos_eq, Rmax_left by lra. rewrite pydiv_ok by lra. simpl. f_equal. field.
Qed.

(*!ex C16_example : the half line {2 x <= 4} sends 7 to 2 *)
Lemma C16_example_l :
  (2 : R_IPS) <> vzero /\ o_prox (obj 1 (halfspace_body (2 : R_IPS) 4)) (7 : R_IPS) 1 = Ok (2 : R_IPS).
Proof.
  split; [simpl; lra|]. simpl. rewrite check_tau_pos by lra. unfold halfspace_proj; simpl.
  destruct (Rleb_spec (2 * 7) 4) as [[? ?]|[_ ->]]; [lra|]. rewrite pydiv_ok by lra. simpl. f_equal.
  unfold vsub; simpl. field.
Qed.

(*!ex C20_example : HuberCircular(1) at 3 with step 1 gives 2 *)
Lemma C20_example_l :
  o_prox (obj 1 (hubercirc_body (E:=R_IPS) 1)) (3 : R_IPS) 1 = Ok (2 : R_IPS).
Proof.
  simpl. rewrite check_tau_pos by lra. rewrite R_norm, Rabs_pos_eq, Rmax_left by lra.
  rewrite pydiv_ok by lra. simpl. f_equal. field.
Qed.
