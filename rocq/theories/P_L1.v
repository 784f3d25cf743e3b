(** * Proofs about Box, L1, L21 and L21_plus_L1 (M_L1.v) *)
From Verif Require Import Base Space Spec ConvexFacts Sep M_ProxOp SpecOps P_ProxOp M_Norms P_Norms M_L1.
From Coq Require Import Psatz.
From Verif Require Export S_L1.
Open Scope result_scope.

(** ** Specifications *)

(** {z : |z_i| <= w_i for all i}. *)
Definition wlinf_ball {n} (w : nlist R n) (z : Vec n) : Prop :=
  Forall2 (fun s a => Rabs a <= s) (proj1_sig w) (proj1_sig (z : nlist R n)).

(** ** Scalars *)
Lemma sgn_pos a : 0 < a -> sgn a = 1.
Proof. intro H; unfold sgn. destruct (Rltb_spec a 0) as [[? ->]|[? ->]]; [lra|].
  destruct (Rltb_spec 0 a) as [[? ->]|[? ->]]; lra. Qed.
Lemma sgn_neg a : a < 0 -> sgn a = -1.
Proof. intro H; unfold sgn. destruct (Rltb_spec a 0) as [[? ->]|[? ->]]; lra. Qed.
Lemma sgn_0 : sgn 0 = 0.
Proof. unfold sgn. destruct (Rltb_spec 0 0) as [[? ->]|[? ->]]; [lra|]. reflexivity. Qed.
Lemma sgn_abs a : sgn a * Rabs a = a.
Proof. destruct (Rtotal_order a 0) as [H|[->|H]].
  - rewrite sgn_neg, Rabs_left by lra; ring.
  - rewrite sgn_0; ring.
  - rewrite sgn_pos, Rabs_right by lra; ring. Qed.

Lemma soft_cases t a : 0 <= t ->
  (t < a /\ soft t a = a - t) \/ (a < - t /\ soft t a = a + t) \/ (- t <= a <= t /\ soft t a = 0).
Proof.
  intro Ht. unfold soft.
  destruct (Rlt_dec t a); [left; split; auto|destruct (Rlt_dec a (- t)); [right; left; split; auto | right; right; split; [lra|]]].
  - rewrite sgn_pos, Rabs_right, Rmax_left by lra; ring.
  - rewrite sgn_neg, Rabs_left, Rmax_left by lra; ring.
  - rewrite Rmax_right; [ring|]. unfold Rabs; destruct (Rcase_abs a); lra.
Qed.

Lemma wabs_subgrad (w g q u : R) : Rabs u <= w -> u * (q - g) = w * Rabs (q - g) ->
  is_subgrad (E:=R_IPS) (etot (E:=R_IPS) (fun a : R => w * Rabs (a - g))) q u.
Proof.
  intros H1 H2. split; [exact I|]. intros y _. rewrite Rsub. simpl.
  replace (u * (y - q)) with (u * (y - g) - u * (q - g)) by ring. rewrite H2.
  assert (u * (y - g) <= w * Rabs (y - g)); [|lra].
  eapply Rle_trans; [apply Rle_abs|]. rewrite Rabs_mult. apply Rmult_le_compat_r; [apply Rabs_pos|auto].
Qed.

Lemma soft_prox w g tau (x : R) : 0 <= w -> 0 < tau ->
  is_prox (E:=R_IPS) (etot (E:=R_IPS) (fun a : R => w * Rabs (a - g))) tau x (soft (tau * w) (x - g) + g).
Proof.
  intros Hw Ht. assert (Htw : 0 <= tau * w) by nra.
  apply subgrad_prox; auto. rewrite Rsub. simpl.
  replace (x - (soft (tau * w) (x - g) + g)) with ((x - g) - soft (tau * w) (x - g)) by ring.
  set (d := x - g). apply wabs_subgrad.
  - rewrite Rabs_mult, (Rabs_pos_eq (/ tau)) by (left; apply Rinv_0_lt_compat; auto).
    apply (Rmult_le_reg_l tau); auto. rewrite <- Rmult_assoc, Rinv_r, Rmult_1_l by lra.
    destruct (soft_cases (tau * w) d Htw) as [[H ->]|[[H ->]|[H ->]]].
    + replace (d - (d - tau * w)) with (tau * w) by ring. rewrite Rabs_pos_eq; lra.
    + replace (d - (d + tau * w)) with (- (tau * w)) by ring. rewrite Rabs_Ropp, Rabs_pos_eq; lra.
    + apply Rabs_le; lra.
  - replace (soft (tau * w) d + g - g) with (soft (tau * w) d) by ring.
    destruct (soft_cases (tau * w) d Htw) as [[H ->]|[[H ->]|[H ->]]].
    + rewrite Rabs_right by lra. field; lra.
    + rewrite Rabs_left by lra. field; lra.
    + rewrite Rabs_R0; ring.
Qed.

Lemma wabs_convex w g : 0 <= w -> convex (E:=R_IPS) (etot (E:=R_IPS) (fun a : R => w * Rabs (a - g))).
Proof.
  intros Hw x y t _ _ Ht; simpl; split; auto.
  replace ((1 - t) * x + t * y - g) with ((1 - t) * (x - g) + t * (y - g)) by ring.
  pose proof (Rabs_triang ((1 - t) * (x - g)) (t * (y - g))) as H.
  rewrite !Rabs_mult, (Rabs_pos_eq t), (Rabs_pos_eq (1 - t)) in H by lra. nra.
Qed.

Lemma wabs_conj w g : 0 <= w ->
  is_conj (E:=R_IPS) (etot (E:=R_IPS) (fun a : R => w * Rabs (a - g)))
    (mkEfun (E:=R_IPS) (fun z : R => Rabs z <= w) (fun z : R => z * g)).
Proof.
  intro Hw. split; [exists 0; exact I|]. intro z.
  assert (Hb : Rabs z <= w -> forall y, z * y - w * Rabs (y - g) <= z * g).
  { intros Hz y. assert (z * (y - g) <= w * Rabs (y - g)); [|lra].
    eapply Rle_trans; [apply Rle_abs|]. rewrite Rabs_mult. apply Rmult_le_compat_r; [apply Rabs_pos|auto]. }
  simpl. split; [split|].
  - intros Hz. exists (z * g). intros y _. apply Hb; auto.
  - intros [M HM]. destruct (Rle_dec (Rabs z) w) as [H|H]; auto. exfalso.
    assert (Hp : 0 < Rabs z - w) by lra.
    set (k := (Rabs (M - z * g) + 1) / (Rabs z - w)).
    assert (Hk : 0 < k) by (apply Rdiv_lt_0_compat; auto; pose proof (Rabs_pos (M - z * g)); lra).
    specialize (HM (g + k * sgn z) I).
    assert (Hs : Rabs (sgn z) = 1).
    { destruct (Rtotal_order z 0) as [Hz|[->|Hz]].
      - rewrite sgn_neg by auto. rewrite Rabs_left; lra.
      - rewrite Rabs_R0 in Hp; lra.
      - rewrite sgn_pos by auto. apply Rabs_R1. }
    replace (g + k * sgn z - g) with (k * sgn z) in HM by ring.
    rewrite Rabs_mult, Hs, (Rabs_pos_eq k) in HM by lra.
    assert (Hzs : z * sgn z = Rabs z).
    { destruct (Rtotal_order z 0) as [Hz|[->|Hz]].
      - rewrite sgn_neg, Rabs_left by auto; ring.
      - rewrite sgn_0, Rabs_R0; ring.
      - rewrite sgn_pos, Rabs_right by lra; ring. }
    assert (k * (Rabs z - w) = Rabs (M - z * g) + 1) by (unfold k; field; lra).
    pose proof (Rle_abs (M - z * g)). nra.
  - intro Hz. split.
    + intros r (y & _ & ->). apply Hb; auto.
    + intros b Hbb. apply Hbb. exists g. split; auto. replace (g - g) with 0 by ring. rewrite Rabs_R0. ring.
Qed.

(** ** From scalars to arrays *)
Definition wphi (wg : R * R) : efun R_IPS := etot (E:=R_IPS) (fun a : R => fst wg * Rabs (a - snd wg)).
Definition wphis (wg : R * R) : efun R_IPS := mkEfun (E:=R_IPS) (fun z : R => Rabs z <= fst wg) (fun z : R => z * snd wg).

Lemma wl1_sep_list (w g x : list R) : length w = length g -> length x = length g ->
  sep_val (map wphi (combine w g)) (x : list R_IPS) =
  Rsum (map2 (fun s a => s * Rabs a) w (lsub (E:=R_IPS) x g)).
Proof.
  revert g x; induction w as [|s w IH]; intros [|b g] [|a x] H1 H2; simpl in *; try discriminate; auto.
  rewrite IH by lia. unfold lsub; simpl. replace (a + -1 * b) with (a - b) by ring. reflexivity.
Qed.

Lemma wl1_sep {n} (w : nlist R n) (g x : Vec n) :
  eval (esep (map wphi (combine (proj1_sig w) (proj1_sig (g : nlist R n)))) n) x = wl1 w g x.
Proof.
  unfold wl1. rewrite Vec_vsub. destruct w as [w Hw], g as [g Hg], x as [x Hx]; simpl.
  apply wl1_sep_list; [exact (eq_trans Hw (eq_sym Hg)) | exact (eq_trans Hx (eq_sym Hg))].
Qed.

Lemma wl1_dom {n} (w : nlist R n) (g x : Vec n) :
  edom (esep (map wphi (combine (proj1_sig w) (proj1_sig (g : nlist R n)))) n) x.
Proof.
  destruct x as [x Hx]; simpl. clear. revert x.
  induction (combine (proj1_sig w) (proj1_sig (g : nlist R n))) as [|a l IH]; intros [|b x]; simpl; auto.
Qed.

Lemma wphi_ok {n} (w : nlist R n) (g : Vec n) : nonneg_list w ->
  Forall (fun wg => 0 <= fst wg) (combine (proj1_sig w) (proj1_sig (g : nlist R n))).
Proof.
  destruct w as [w Hw], g as [g Hg]; unfold nonneg_list; simpl. clear.
  revert g; induction w as [|s w IH]; intros [|b g] H; simpl; try constructor; inversion H; subst; auto.
Qed.

Lemma wl1_convex {n} (w : nlist R n) (g : Vec n) : nonneg_list w -> convex (etot (wl1 w g)).
Proof.
  intro Hw. apply (convex_ext (esep (map wphi (combine (proj1_sig w) (proj1_sig (g : nlist R n)))) n)).
  - intro y; split; simpl; auto. intros _. apply (wl1_dom w g y).
  - intros y _. simpl. apply (wl1_sep w g y).
  - apply sep_convex. apply Forall_map. eapply Forall_impl; [|apply wphi_ok; auto].
    intros a Ha. apply wabs_convex; auto.
Qed.

Lemma Forall2_map_diag {A B C} (P : B -> C -> Prop) (f : A -> B) (g : A -> C) l :
  Forall (fun a => P (f a) (g a)) l -> Forall2 P (map f l) (map g l).
Proof. induction 1; simpl; constructor; auto. Qed.

Lemma wl1_conj {n} (w : nlist R n) (g : Vec n) : nonneg_list w ->
  is_conj (etot (wl1 w g)) (mkEfun (wlinf_ball w) (fun z => << z, g >>)).
Proof.
  intro Hw. set (c := combine (proj1_sig w) (proj1_sig (g : nlist R n))).
  apply (is_conj_ext (esep (map wphi c) n) _ (esep (map wphis c) n)).
  - intro y; split; simpl; auto. intros _. apply (wl1_dom w g y).
  - intros y _. simpl. apply (wl1_sep w g y).
  - intro z. unfold wlinf_ball, c. destruct w as [w Hwl], g as [g Hg], z as [z Hz]; simpl. clear Hw c.
    assert (H1 : length w = length z) by exact (eq_trans Hwl (eq_sym Hz)). assert (H2 : length g = length z) by exact (eq_trans Hg (eq_sym Hz)). clear Hwl Hg Hz.
    revert w g H1 H2; induction z as [|a z IH]; intros [|s w] [|b g] H1 H2; simpl in *; try discriminate.
    + split; auto.
    + rewrite IH by lia. split; [intros [? ?]; constructor; auto | intro F; inversion F; auto].
  - intros z _. unfold c. destruct w as [w Hwl], g as [g Hg], z as [z Hz]; simpl. clear Hw c.
    assert (H1 : length w = length z) by exact (eq_trans Hwl (eq_sym Hz)). assert (H2 : length g = length z) by exact (eq_trans Hg (eq_sym Hz)). clear Hwl Hg Hz.
    revert w g H1 H2; induction z as [|a z IH]; intros [|s w] [|b g] H1 H2; simpl in *; try discriminate; auto.
    rewrite IH by lia. reflexivity.
  - apply sep_conj.
    + unfold c. rewrite map_length, combine_length, (proj2_sig w), (proj2_sig (g : nlist R n)). lia.
    + apply Forall2_map_diag. eapply Forall_impl; [|apply wphi_ok; auto]. intros a Ha. apply wabs_conj; auto.
Qed.

Lemma vzip_sub_add_list tau (w x g : list R) : length w = length x -> length g = length x ->
  Forall (fun s => 0 <= s) w -> 0 < tau ->
  pw3 (fun f x p => is_prox f tau x p) (map wphi (combine w g)) (x : list R_IPS)
    (map2 Rplus (map2 (fun s a => soft (tau * s) a) w (lsub (E:=R_IPS) x g)) g).
Proof.
  revert w g; induction x as [|a x IH]; intros [|s w] [|b g] H1 H2 Hw Ht; simpl in *; try discriminate; constructor.
  - inversion Hw; subst. replace (a + -1 * b) with (a - b) by ring. apply soft_prox; auto.
  - inversion Hw; subst. apply IH; auto; lia.
Qed.

Lemma wl1_prox {n} (w : nlist R n) (g x : Vec n) tau : nonneg_list w -> 0 < tau ->
  is_prox (etot (wl1 w g)) tau x ((vzip (fun s a => soft (tau * s) a) w (x [-] g) : Vec n) [+] g).
Proof.
  intros Hw Ht.
  apply (is_prox_ext (esep (map wphi (combine (proj1_sig w) (proj1_sig (g : nlist R n)))) n)).
  - intro y; split; simpl; auto. intros _. apply (wl1_dom w g y).
  - intros y _. simpl. apply (wl1_sep w g y).
  - apply sep_prox. pose proof (Vec_vsub x g) as Hs. set (d := x [-] g) in *. clearbody d.
    destruct w as [w Hwl], g as [g Hg], x as [x Hx], d as [d Hd]. simpl in *. subst d.
    apply vzip_sub_add_list; auto; [exact (eq_trans Hwl (eq_sym Hx)) | exact (eq_trans Hg (eq_sym Hx))].
Qed.

(** ** C11 *)

Lemma l1_prox_ok {n} (sig : nat -> nlist R n) g count (x : Vec n) tau : 0 < tau ->
  l1_prox sig g count x tau =
  (S count, Ok ((vzip (fun s a => soft (tau * s) a) (sig (S count)) (x [-] gvec g) : Vec n) [+] gvec g)).
Proof.
  intro Ht. unfold l1_prox. destruct (Rleb_spec tau 0) as [[? _]|[_ ->]]; [lra|].
  destruct g as [g|]; cbn [gvec]; auto. rewrite vsub_0_r, vadd_0_r. reflexivity.
Qed.

(*! C11_prox_exact : L1.prox(x, tau) for tau > 0 is the exact proximal point of sum_i w_i |y_i - g_i|, for
   every size, every x, every g (absent = 0), every counter state and every non-negative per-entry weights
   (scalar sigma = equal weights; callable sigma = the weights of that call) *)
Lemma C11_prox_exact_l : forall n (sig : nat -> nlist R n) (g : option (Vec n)) count (x : Vec n) tau,
  nonneg_list (sig (S count)) -> 0 < tau ->
  exists p, snd (l1_prox sig g count x tau) = Ok p /\
    is_prox (etot (wl1 (sig (S count)) (gvec g))) tau x p.
Proof.
  intros n sig g count x tau Hw Ht. rewrite l1_prox_ok by auto. eexists; split; [reflexivity|].
  apply wl1_prox; auto.
Qed.

(*! C11_call : the value returned by L1's call is that weighted norm, with the weights of the current counter *)
Lemma C11_call_l : forall n (sig : nat -> nlist R n) (g : option (Vec n)) count (x : Vec n),
  l1_call sig g count x = wl1 (sig count) (gvec g) x.
Proof. intros. unfold l1_call, wl1, gvec. destruct g; auto. rewrite vsub_0_r. auto. Qed.

Lemma Rsum_map_scal s l : Rsum (map (fun a => s * a) l) = s * Rsum l.
Proof. induction l; simpl; [ring|]. rewrite IHl; ring. Qed.

Lemma Rsum_map2_repeat s l : Rsum (map2 (fun s a => s * Rabs a) (repeat s (length l)) l) = s * Rsum (map Rabs l).
Proof. induction l as [|a l IH]; simpl; [ring|]. rewrite IH; ring. Qed.

(*! C11_call_literal : the numpy expression in the code gives the weighted norm for a scalar sigma on a vector,
   and for one sigma per column on a matrix (columns listed one after the other) *)
Lemma C11_call_literal_l :
  (forall s x, l1_call_1d [s] x = Rsum (map2 (fun s a => s * Rabs a) (repeat s (length x)) x)) /\
  (forall sigma cols, length sigma = length cols ->
     l1_call_columns sigma cols =
     Rsum (map2 (fun s a => s * Rabs a) (concat (map2 (fun s c => repeat s (length c)) sigma cols)) (concat cols))).
Proof.
  split.
  - intros s x. unfold l1_call_1d; simpl. rewrite Rsum_map2_repeat; ring.
  - intros sigma cols. revert sigma; induction cols as [|c cols IH]; intros [|s sigma] H; simpl in *; try discriminate; auto.
    unfold l1_call_columns in *; simpl. rewrite IH by lia.
    assert (Ha : forall (a1 b1 a2 b2 : list R), length a1 = length b1 ->
      map2 (fun s a => s * Rabs a) (a1 ++ a2) (b1 ++ b2) = map2 (fun s a => s * Rabs a) a1 b1 ++ map2 (fun s a => s * Rabs a) a2 b2).
    { clear. induction a1; intros [|b b1] a2 b2 Hl; simpl in *; try discriminate; auto. rewrite IHa1 by lia; auto. }
    rewrite Ha, Rsum_app, Rsum_map2_repeat by (rewrite repeat_length; auto). reflexivity.
Qed.

(*! C11_call_array_refuted : for a 1-D x and an array sigma of per-entry weights the value returned by call is
   (sum sigma)(sum |x|), which is not the weighted norm whose prox the same object computes *)
Lemma C11_call_array_refuted_l :
  exists (w x : list R), length w = length x /\
    l1_call_1d w x <> Rsum (map2 (fun s a => s * Rabs a) w x).
Proof.
  exists [1; 2], [1; 1]. split; auto. unfold l1_call_1d; simpl. rewrite Rabs_R1. lra.
Qed.

Lemma clip_box_proj (lu : bounds) (a : R) : bounds_ok lu ->
  is_proj (E:=R_IPS) (within lu) a (clip lu a).
Proof.
  intro Hok. destruct lu as [lo hi].
  apply (vi_proj (E:=R_IPS)); unfold within, clip; simpl.
  - split; intros c Hc; subst; simpl.
    + destruct hi as [u|]; [|apply Rmax_r]. specialize (Hok c u eq_refl).
      apply Rmin_glb; auto. apply Rmax_r.
    + apply Rmin_r.
  - intros y [H1 H2]. unfold vsub; simpl.
    destruct lo as [l|], hi as [u|];
      try specialize (H1 _ eq_refl); try specialize (H2 _ eq_refl); try specialize (Hok _ _ eq_refl);
      unfold Rmax, Rmin; repeat destruct (Rle_dec _ _); nra.
Qed.

Lemma box_dom {n} (lu : nlist bounds n) (y : Vec n) :
  edom (esep (map (fun b => indic (E:=R_IPS) (within b)) (proj1_sig lu)) n) y <-> box_set lu y.
Proof.
  unfold box_set. destruct lu as [lu Hl], y as [y Hy]; simpl.
  rewrite sep_dom_app by (rewrite map_length; congruence).
  assert (H : length lu = length y) by congruence. clear Hl Hy.
  revert y H; induction lu as [|b lu IH]; intros [|a y] H; simpl in *; try discriminate.
  - split; constructor.
  - split; intro F; inversion F; subst; constructor; auto; apply IH; auto.
Qed.
Lemma box_val {n} (lu : nlist bounds n) (y : Vec n) :
  eval (esep (map (fun b => indic (E:=R_IPS) (within b)) (proj1_sig lu)) n) y = 0.
Proof.
  destruct lu as [lu Hl], y as [y Hy]; simpl. clear. revert y; induction lu as [|b lu IH]; intros [|a y]; simpl; auto.
  rewrite IH; ring.
Qed.

Lemma box_proj_exact {n} (lu : nlist bounds n) (x : Vec n) : Forall bounds_ok (proj1_sig lu) ->
  is_proj (box_set lu) x (vzip clip lu x).
Proof.
  intros Hok. apply (proj_prox (E:=Vec n) _ 1); [lra|].
  apply (is_prox_ext (E:=Vec n) (esep (map (fun b => indic (E:=R_IPS) (within b)) (proj1_sig lu)) n)).
  - intro y. simpl. apply (box_dom lu y).
  - intros y _. apply box_val.
  - apply sep_prox. simpl proj1_sig at 3. apply pw3_map2.
    + rewrite (proj2_sig lu). symmetry. apply (proj2_sig (x : nlist R n)).
    + intros b a Hb _. apply proj_prox; [lra|]. apply clip_box_proj.
      rewrite Forall_forall in Hok; auto.
Qed.

Lemma wlinf_is_box {n} (w : nlist R n) (z : Vec n) (lu : nlist bounds n) :
  proj1_sig lu = map (fun s => (Some (- s), Some s)) (proj1_sig w) -> box_set lu z <-> wlinf_ball w z.
Proof.
  unfold box_set, wlinf_ball. destruct lu as [lu Hlu], w as [w Hw], z as [z Hz]; simpl. intros ->. clear.
  revert z; induction w as [|s w IH]; intros [|a z]; simpl; split; intro F; inversion F; subst; constructor; try (apply IH; auto).
  - destruct H2 as [H1 H2]; simpl in *. apply Rabs_le. split; [apply H1 | apply H2]; auto.
  - split; simpl; intros c [= <-]; revert H2; unfold Rabs; destruct (Rcase_abs a); lra.
Qed.

Lemma dual_box {n} (w : nlist R n) (x : Vec n) : nonneg_list w ->
  is_proj (wlinf_ball w) x (vzip (fun s a => clip (Some (- s), Some s) a) w x).
Proof.
  intro Hw. set (lu := exist (fun l => length l = n) (map (fun s => (Some (- s), Some s)) (proj1_sig w))
     (eq_trans (map_length _ _) (proj2_sig w)) : nlist bounds n).
  apply (is_proj_ext (box_set lu)); [intro z; apply wlinf_is_box; reflexivity|].
  replace (vzip (fun s a => clip (Some (- s), Some s) a) w x) with (vzip clip lu x).
  - apply box_proj_exact. simpl. apply Forall_map. eapply Forall_impl; [|exact Hw].
    intros s Hs l u [= <- <-]. simpl in Hs. lra.
  - apply nlist_eq; simpl. destruct w as [w ?], x as [x ?]; simpl. clear.
    revert x; induction w as [|s w IH]; intros [|a x]; simpl; auto. f_equal; auto.
Qed.

(*! C11_dual_exact : for a sigma that does not depend on the counter, proxdual is the exact proximal point of the
   convex conjugate, and that conjugate is <z,g> on the box |z_i| <= w_i (both with and without g) *)
Lemma C11_dual_exact_l : forall n (w : nlist R n) (g : option (Vec n)) count (x : Vec n) tau,
  nonneg_list w -> 0 < tau ->
  is_conj (etot (wl1 w (gvec g))) (mkEfun (wlinf_ball w) (fun z => << z, gvec g >>)) /\
  exists p, snd (l1_proxdual (fun _ => w) g count x tau) = Ok p /\
    is_prox (mkEfun (wlinf_ball w) (fun z => << z, gvec g >>)) tau x p.
Proof.
  intros n w g count x tau Hw Ht. split; [apply wl1_conj; auto|].
  unfold l1_proxdual. destruct (Rleb_spec tau 0) as [[? _]|[_ ->]]; [lra|].
  destruct g as [g|].
  - rewrite l1_prox_ok by (apply Rdiv_lt_0_compat; lra). cbn [snd rmap bind]. eexists; split; [reflexivity|].
    match goal with |- is_prox _ _ _ (_ [-] tau [*] ?q0) => set (q := q0) end.
    assert (Hq : is_prox (etot (wl1 w g)) (1 / tau) (/ tau [*] x) q) by (apply wl1_prox; auto; apply Rdiv_lt_0_compat; lra).
    apply (moreau_decomposition _ _ _ _ _ (wl1_convex w g Hw) (wl1_conj w g Hw)) in Hq; [|apply Rdiv_lt_0_compat; lra].
    replace (/ (1 / tau)) with tau in Hq by (field; lra).
    replace (tau [*] (/ tau [*] x)) with x in Hq by (vfield; lra).
    replace (x [-] tau [*] q) with (tau [*] (/ tau [*] x [-] q)) by (vfield; lra). exact Hq.
  - simpl. eexists; split; [reflexivity|].
    apply (is_prox_ext (E:=Vec n) (indic (wlinf_ball w))).
    + intro y; simpl; tauto.
    + intros y _. symmetry. exact (inner_zero_r (E:=Vec n) y).
    + apply proj_prox; auto. apply dual_box; auto.
Qed.

(*! C11_moreau : x = prox(x, tau) + tau * proxdual(x/tau, 1/tau) for every x and tau > 0, any two counter states
   (sigma not callable) *)
Lemma C11_moreau_l : forall n (w : nlist R n) (g : option (Vec n)) c1 c2 (x : Vec n) tau,
  nonneg_list w -> 0 < tau ->
  exists p d, snd (l1_prox (fun _ => w) g c1 x tau) = Ok p /\
    snd (l1_proxdual (fun _ => w) g c2 (/ tau [*] x) (1 / tau)) = Ok d /\
    x = p [+] tau [*] d.
Proof.
  intros n w g c1 c2 x tau Hw Ht.
  destruct (C11_prox_exact_l n (fun _ => w) g c1 x tau Hw Ht) as [p [Hp Hpp]].
  assert (Hti : 0 < 1 / tau) by (apply Rdiv_lt_0_compat; lra).
  destruct (C11_dual_exact_l n w g c2 (/ tau [*] x) (1 / tau) Hw Hti) as [Hc [d [Hd Hdd]]].
  exists p, d. repeat split; auto.
  pose proof (moreau_decomposition _ _ _ _ _ (wl1_convex w (gvec g) Hw) Hc Ht Hpp) as H.
  replace (/ tau) with (1 / tau) in H at 1 by (field; lra).
  rewrite (prox_unique _ _ _ _ _ (conj_convex _ _ Hc) Hti Hdd H). vfield; lra.
Qed.

(*! C11_callable_dual_refuted : with a callable sigma (and no g) proxdual keeps the box built from sigma(0) for
   ever: the Moreau identity fails after any prox call as soon as sigma(k) differs from sigma(0) *)
Lemma C11_callable_dual_refuted_l :
  exists (sig : nat -> nlist R 1), (forall k, nonneg_list (sig k)) /\
  exists (x p d : Vec 1),
    snd (l1_prox sig None 0 x 1) = Ok p /\
    snd (l1_proxdual sig None (fst (l1_prox sig None 0 x 1)) (/ 1 [*] x) (1 / 1)) = Ok d /\
    x <> p [+] 1 [*] d.
Proof.
  exists (fun k => nl [match k with O => 1 | _ => 2 end]). split.
  { intros k; unfold nonneg_list; simpl. repeat constructor. destruct k; lra. }
  exists (nl [3]). rewrite l1_prox_ok by lra. simpl fst. simpl snd.
  unfold l1_proxdual. destruct (Rleb_spec (1 / 1) 0) as [[? _]|[_ ->]]; [lra|]. simpl snd.
  eexists; eexists; split; [reflexivity|split; [reflexivity|]].
  intro H. apply (f_equal (fun v : nlist R 1 => hd 0 (proj1_sig v))) in H. simpl in H.
  revert H. unfold clip; simpl.
  replace (3 + -1 * 0) with 3 by ring.
  destruct (soft_cases (1 * 2) 3 ltac:(lra)) as [[_ ->]|[[? _]|[? _]]]; [|lra|lra].
  rewrite (Rmax_left _ (-1)) by lra. rewrite Rmin_right by lra. lra.
Qed.

(** Complex entries. *)
Lemma csoft_prox sigma tau (z : C_IPS) : 0 <= sigma -> 0 < tau ->
  is_prox (norm_fun sigma) tau z (csoft (tau * sigma) z).
Proof.
  intros Hs Ht. destruct (Req_dec sigma 0) as [->|Hne].
  - rewrite Rmult_0_r. assert (Hz : csoft 0 z = z).
    { unfold csoft. destruct (Reqb_spec (norm z) 0) as [[H ->]|[H ->]].
      - apply norm_eq0 in H. subst z. rewrite norm_zero, Rmax_right by lra. reflexivity.
      - rewrite Rmax_left by (pose proof (norm_nonneg z); lra). replace ((norm z - 0) / norm z) with 1 by (field; auto).
        apply vscal_1. }
    rewrite Hz. split; [exact I|]. intros y _. cbn [eval norm_fun etot]. rewrite vsub_diag, norm2_zero.
    pose proof (norm2_nonneg (y [-] z)). assert (0 < / (2 * tau)) by (apply Rinv_0_lt_compat; lra). nra.
  - assert (Hp : 0 < sigma) by lra. assert (Hts : 0 < tau * sigma) by nra.
    replace (csoft (tau * sigma) z) with ((1 - tau * sigma / Rmax (norm z) (tau * sigma)) [*] z); [apply euclid_prox_spec; auto|].
    unfold csoft. pose proof (norm_nonneg z). destruct (Reqb_spec (norm z) 0) as [[Hn ->]|[Hn ->]].
    + apply norm_eq0 in Hn. subst z. rewrite norm_zero, !Rmax_right by lra. rewrite vscal_zero. reflexivity.
    + f_equal. destruct (Rle_dec (norm z) (tau * sigma)).
      * rewrite !Rmax_right by lra. field. split; lra.
      * rewrite !Rmax_left by lra. field; lra.
Qed.

(*! C11_complex : on complex arrays L1.prox is the exact proximal point of sigma * sum_i |z_i - g_i| (modulus),
   for every sigma >= 0, tau > 0 and size *)
Lemma C11_complex_l : forall n sigma (g : option (Pow C_IPS n)) (x : Pow C_IPS n) tau,
  0 <= sigma -> 0 < tau ->
  exists p, l1_prox_complex sigma g x tau = Ok p /\
    is_prox (etot (fun z : Pow C_IPS n => Rsum (map (fun c : C_IPS => sigma * norm c)
       (proj1_sig (match g with Some g => z [-] g | None => z end : nlist C_IPS n))))) tau x p.
Proof.
  intros n sigma g x tau Hs Ht.
  assert (H0 : forall x : Pow C_IPS n, is_prox (etot (fun z : Pow C_IPS n => Rsum (map (fun c : C_IPS => sigma * norm c) (proj1_sig (z : nlist C_IPS n)))))
     tau x (powmap (csoft (tau * sigma)) x)).
  { clear x; intros x. apply (is_prox_ext (esep (repeat (norm_fun sigma) n) n)).
    - intros [y Hy]; split; simpl; auto. intros _. clear.
      revert y; induction n; intros [|a y]; simpl; auto.
    - intros [y Hy] _. simpl. clear -Hy. subst n.
      induction y as [|a y IH]; [reflexivity|]. exact (f_equal2 Rplus eq_refl IH).
    - apply sep_prox. destruct x as [x Hx]. simpl. subst n. apply pw3_map. intros b _. apply csoft_prox; auto. }
  unfold l1_prox_complex. rewrite check_tau_pos by auto. eexists; split; [reflexivity|].
  destruct g as [g|]; [|apply H0].
  specialize (H0 (x [-] g)). destruct H0 as [_ H]. split; [exact I|]. intros y _. specialize (H (y [-] g) I). cbn [eval etot] in *.
  set (p := powmap _ _) in *.
  replace (p [+] g [-] x) with (p [-] (x [-] g)) by vring.
  replace (p [+] g [-] g) with p by vring.
  replace (y [-] x) with (y [-] g [-] (x [-] g)) by vring. exact H.
Qed.

(** ** C33, C01: the call counter *)

Lemma l1_session_count {n} (sig : nat -> nlist R n) g h c :
  fst (l1_session sig g c h) = (c + total (counted g) h)%nat.
Proof.
  revert c; induction h as [|a h IH]; intro c; simpl; [lia|].
  destruct (l1_step sig g c a) as [c1 o] eqn:E.
  assert (Hc : c1 = (c + counted g a)%nat).
  { destruct a as [x tau|x tau|x]; simpl in *.
    - unfold l1_prox in E. destruct (Rleb tau 0); [|destruct g]; simpl in E; injection E as <- _; lia.
    - unfold l1_proxdual in E. destruct (Rleb_spec tau 0) as [[H Hr]|[H Hr]]; rewrite Hr in *.
      + injection E as <- _. destruct g; lia.
      + destruct g as [g|].
        * rewrite l1_prox_ok in E by (apply Rdiv_lt_0_compat; lra). injection E as <- _. lia.
        * injection E as <- _. lia.
    - injection E as <- _. lia. }
  specialize (IH c1). destruct (l1_session sig g c1 h) as [c' os]; simpl in *. lia.
Qed.

(*! C33_history : what the code does for every history of calls on one L1 object: after any sequence of prox,
   proxdual and value calls the next prox call with tau > 0 is exact for sigma(1 + number of earlier prox
   attempts, rejected ones included, plus earlier accepted proxdual calls when g is given) *)
Lemma C33_history_l : forall n (sig : nat -> nlist R n) (g : option (Vec n)) h (x : Vec n) tau,
  (forall k, nonneg_list (sig k)) -> 0 < tau ->
  exists p, snd (l1_prox sig g (fst (l1_session sig g 0 h)) x tau) = Ok p /\
    is_prox (etot (wl1 (sig (1 + total (counted g) h)%nat) (gvec g))) tau x p.
Proof.
  intros n sig g h x tau Hs Ht. rewrite l1_session_count.
  destruct (C11_prox_exact_l n sig g (0 + total (counted g) h) x tau (Hs _) Ht) as [p Hp].
  exists p. exact Hp.
Qed.

(*! C33_offset_refuted : for no offset c does the k-th successful prox call use sigma(k+c): a rejected call shifts the
   index.  The witness is sigma(k) = k on vectors of one entry *)
Lemma C33_offset_l :
  exists (sig : nat -> nlist R 1), (forall k, nonneg_list (sig k)) /\
  forall c, ~ (forall h (x : Vec 1) tau, 0 < tau ->
     exists p, snd (l1_prox sig None (fst (l1_session sig None 0 h)) x tau) = Ok p /\
       is_prox (etot (wl1 (sig (total is_success h + c)%nat) vzero)) tau x p).
Proof.
  exists (fun k => nl [INR k]). split.
  { intros k; unfold nonneg_list; simpl. constructor; [apply pos_INR|constructor]. }
  intros c H.
  set (sig := fun k => nl [INR k]) in *.
  assert (Hval : forall k (x : R) , INR k <= x ->
    proj1_sig ((vzip (fun s a => soft (1 * s) a) (sig k) ((nl [x] : Vec 1) [-] vzero) : Vec 1) [+] vzero : nlist R 1) = [x - INR k]).
  { intros k x Hk. rewrite vsub_0_r, vadd_0_r. simpl.
    pose proof (pos_INR k). destruct (soft_cases (1 * INR k) x ltac:(lra)) as [[Hc ->]|[[Hc ->]|[Hc ->]]]; f_equal; lra. }
  assert (Hk : forall h k, k = (1 + total (counted (n:=1) None) h)%nat -> k = (total is_success h + c)%nat).
  { intros h k ->. set (k := (1 + total (counted None) h)%nat). set (k' := (total is_success h + c)%nat).
    set (x := INR k + INR k'). pose proof (pos_INR k). pose proof (pos_INR k').
    destruct (H h (nl [x]) 1 ltac:(lra)) as [p [Hp Hpp]].
    rewrite l1_session_count, l1_prox_ok in Hp by lra. simpl snd in Hp. injection Hp as <-.
    assert (Hw : nonneg_list (sig k')) by (unfold nonneg_list; simpl; constructor; auto).
    pose proof (wl1_prox (sig k') vzero (nl [x]) 1 Hw ltac:(lra)) as Hq.
    assert (H01 : 0 < 1) by lra. pose proof (prox_unique _ _ _ _ _ (wl1_convex _ _ Hw) H01 Hpp Hq) as He.
    apply (f_equal (fun v : nlist R 1 => proj1_sig v)) in He.
    pose proof (Hval k x ltac:(unfold x; lra)) as E1. pose proof (Hval k' x ltac:(unfold x; lra)) as E2.
    pose proof (eq_trans (eq_sym E1) (eq_trans He E2)) as E3.
    assert (E4 : x - INR k = x - INR k') by exact (f_equal (hd 0) E3). clear - E4. apply INR_eq. lra. }
  assert (c = 1%nat) by (specialize (Hk [] 1%nat eq_refl); simpl in Hk; lia). subst c.
  specialize (Hk [L1Prox (vzero : Vec 1) 0] 2%nat eq_refl). simpl in Hk.
  destruct (Rleb_spec 0 0) as [[_ Hr]|[? _]]; [|lra]. rewrite Hr in Hk. simpl in Hk. lia.
Qed.

(*! C33_indexing_refuted : the documented indexing (k-th successful prox call, k from 0, uses sigma(k)) is false
   of the code already for the first call *)
Lemma C33_indexing_refuted_l :
  exists (sig : nat -> nlist R 1), (forall k, nonneg_list (sig k)) /\
  ~ (forall h (x : Vec 1) tau, 0 < tau ->
     exists p, snd (l1_prox sig None (fst (l1_session sig None 0 h)) x tau) = Ok p /\
       is_prox (etot (wl1 (sig (total is_success h)) vzero)) tau x p).
Proof.
  destruct C33_offset_l as [sig [H1 H2]]. exists sig. split; auto. intro H. apply (H2 0%nat).
  intros h x tau Ht. rewrite Nat.add_0_r. auto.
Qed.

(*! C01_rejected_counted_refuted : a prox call rejected for tau <= 0 still advances the operator's call counter *)
Lemma C01_rejected_counted_refuted_l : forall n (sig : nat -> nlist R n) g count (x : Vec n) tau, tau <= 0 ->
  l1_prox sig g count x tau = (S count, Err ValueError).
Proof. intros. unfold l1_prox. destruct (Rleb_spec tau 0) as [[? ->]|[? _]]; [auto|lra]. Qed.

(*!ex C33_example : two prox calls on a one-entry array with sigma(k) = k+1: they soft-threshold by 2 and by 3 *)
Lemma C33_example_l :
  let sig := fun k => nl [INR k + 1] in
  let x := nl [10] in
  (forall k, nonneg_list (sig k)) /\
  exists p q, snd (l1_prox sig None 0 x 1) = Ok p /\
    snd (l1_prox sig None (fst (l1_prox sig None 0 x 1)) x 1) = Ok q /\
    proj1_sig (p : nlist R 1) = [8] /\ proj1_sig (q : nlist R 1) = [7].
Proof.
  intros sig x. split.
  { intros k; unfold nonneg_list; simpl. constructor; [pose proof (pos_INR k); lra|constructor]. }
  rewrite !l1_prox_ok by lra. simpl fst. simpl snd. eexists; eexists.
  split; [reflexivity|split; [reflexivity|]]. simpl. split; f_equal.
  - destruct (soft_cases (1 * (1 + 1)) (10 + -1 * 0) ltac:(lra)) as [[_ ->]|[[? _]|[? _]]]; lra.
  - destruct (soft_cases (1 * (1 + 1 + 1)) (10 + -1 * 0) ltac:(lra)) as [[_ ->]|[[? _]|[? _]]]; lra.
Qed.

(*!ex C11_example : weights (1,2), x = (3,-4), g = (0,1), tau = 1: the prox is (2,-2) *)
Lemma C11_example_l :
  let w := nl [1; 2] in
  let x := nl [3; -4] in
  let g := nl [0; 1] in
  nonneg_list w /\ exists p, snd (l1_prox (fun _ => w) (Some g) 0 x 1) = Ok p /\ proj1_sig (p : nlist R 2) = [2; -2].
Proof.
  intros w x g. split; [unfold nonneg_list; simpl; repeat constructor; lra|].
  rewrite l1_prox_ok by lra. simpl snd. eexists; split; [reflexivity|]. simpl.
  destruct (soft_cases (1 * 1) (3 + -1 * 0) ltac:(lra)) as [[_ ->]|[[? _]|[? _]]]; [|lra|lra].
  destruct (soft_cases (1 * 2) (-4 + -1 * 1) ltac:(lra)) as [[? _]|[[_ ->]|[? _]]]; [lra| |lra].
  repeat f_equal; lra.
Qed.

(** ** C15 *)
Lemma in_bounds_iff lu a : in_bounds lu a = true <-> within lu a.
Proof.
  unfold in_bounds, within. destruct lu as [lo hi]; simpl. rewrite andb_true_iff. split.
  - intros [H1 H2]; split; intros c ->; [apply Rleb_true in H1 | apply Rleb_true in H2]; auto.
  - intros [H1 H2]; split; [destruct lo|destruct hi]; auto; apply Rleb_true; auto.
Qed.

Lemma box_call {n} fuel (lu : nlist bounds n) (x : Vec n) :
  exists b, o_call (obj fuel (box_body lu)) x = Ok (VBool b) /\ (b = true <-> box_set lu x).
Proof.
  simpl. unfold d_call; simpl. eexists; split; [reflexivity|].
  unfold box_set. destruct lu as [lu Hl], x as [x Hx]; simpl.
  assert (H : length lu = length x) by congruence. clear Hl Hx.
  revert x H; induction lu as [|b lu IH]; intros [|a x] H; simpl in *; try discriminate.
  - split; auto.
  - rewrite andb_true_iff, in_bounds_iff, IH by lia.
    split; [intros [? ?]; constructor; auto | intro F; inversion F; auto].
Qed.

(*! C15_box : for bounds with lower <= upper entrywise (either may be absent), Box.prox returns for every tau > 0
   the Euclidean projection on the box; Box's call is exactly membership, and the result is a member *)
Lemma C15_box_l : forall n fuel (lu : nlist bounds n), Forall bounds_ok (proj1_sig lu) ->
  (forall x, exists b, o_call (obj (S fuel) (box_body lu)) x = Ok (VBool b) /\ (b = true <-> box_set lu x)) /\
  (forall (x : Vec n) tau, 0 < tau -> exists p, o_prox (obj (S fuel) (box_body lu)) x tau = Ok p /\
     is_proj (box_set lu) x p /\ o_call (obj (S fuel) (box_body lu)) p = Ok (VBool true)).
Proof.
  intros n fuel lu Hok. split; [intro x; apply box_call|].
  intros x tau Ht. simpl. rewrite check_tau_pos by auto. eexists; split; [reflexivity|].
  pose proof (box_proj_exact lu x Hok) as Hp. split; auto.
  destruct (box_call fuel lu (vzip clip lu x)) as [b [H1 H2]]. simpl in H1. rewrite H1.
  destruct Hp as [Hp _]. apply H2 in Hp. subst; auto.
Qed.

(*! C15_idempotent : projecting twice is projecting once, and points of the box are returned unchanged *)
Lemma C15_idempotent_l : forall n fuel (lu : nlist bounds n) (x : Vec n) t1 t2 p,
  Forall bounds_ok (proj1_sig lu) -> 0 < t1 -> 0 < t2 ->
  (o_prox (obj (S fuel) (box_body lu)) x t1 = Ok p -> o_prox (obj (S fuel) (box_body lu)) p t2 = Ok p) /\
  (box_set lu x -> o_prox (obj (S fuel) (box_body lu)) x t1 = Ok x).
Proof.
  intros n fuel lu x t1 t2 p Hok H1 H2.
  assert (Hid : forall (x : Vec n) t, 0 < t -> box_set lu x -> o_prox (obj (S fuel) (box_body lu)) x t = Ok x).
  { intros y t Ht Hy. destruct (C15_box_l n fuel lu Hok) as [_ H]. destruct (H y t Ht) as [q [Hq [Hqq _]]].
    rewrite Hq. f_equal. eapply proj_of_mem; eauto. }
  split; [|apply Hid; auto]. intro Hp. apply Hid; auto.
  destruct (C15_box_l n fuel lu Hok) as [_ H]. destruct (H x t1 H1) as [q [Hq [[Hqq _] _]]].
  rewrite Hp in Hq. injection Hq as ->. auto.
Qed.

(*! C15_crossed_refuted : without lower <= upper the result is still returned silently (the upper bound) and is
   rejected by the operator's own call *)
Lemma C15_crossed_refuted_l : forall fuel (l u : R), u < l -> forall (x : Vec 1) tau, 0 < tau ->
  let o := obj (S fuel) (box_body (nl [(Some l, Some u)] : nlist bounds 1)) in
  exists p, o_prox o x tau = Ok p /\ o_call o p = Ok (VBool false).
Proof.
  intros fuel l u Hlu x tau Ht o. unfold o; simpl. rewrite check_tau_pos by auto. eexists; split; [reflexivity|].
  unfold d_call; simpl. destruct x as [[|a [|b x]] Hx]; simpl in *; try discriminate.
  unfold in_bounds, clip; simpl.
  rewrite Rmin_right by (pose proof (Rmax_r a l); lra).
  destruct (Rleb_spec l u) as [[? _]|[_ ->]]; [lra|]. reflexivity.
Qed.

(*!ex C15_example : bounds [0,1] and [2,inf): (5, 0) is projected on (1, 2) *)
Lemma C15_example_l :
  let lu := nl [(Some 0, Some 1); (Some 2, None)] : nlist bounds 2 in
  Forall bounds_ok (proj1_sig lu) /\
  exists p, o_prox (obj 1 (box_body lu)) (nl [5; 0]) 1 = Ok p /\ proj1_sig (p : nlist R 2) = [1; 2].
Proof.
  simpl. split; [constructor; [|constructor; [|constructor]]; intros l u H; try discriminate; injection H as <- <-; lra|].
  rewrite check_tau_pos by lra. eexists; split; [reflexivity|]. simpl. unfold clip; simpl.
  rewrite Rmax_left, Rmin_right, Rmax_right by lra. reflexivity.
Qed.
