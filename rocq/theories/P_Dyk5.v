(** * Dykstra's iterations converge whenever the functions (sets) have a common point (M_Dyk.v) *)
From Coq Require Import Psatz.
From Verif Require Import Base Space Spec SpecOps ConvexFacts VSum MatFacts M_ProxOp M_Norms M_Loop LoopFacts LoopFacts2 SeqConv M_PG M_Multi M_Dyk P_PG3 P_Norms P_Split2 P_Multi P_Dyk P_Dyk2 P_Dyk3 P_Dyk4 P_Proj S_Seq Compact Fejer IterMath3 DykMath P_Iter.
Open Scope result_scope.
Open Scope R_scope.

(** ** lower semicontinuity *)
Lemma lsc_scal {E : IPS} s (f : efun E) : 0 < s -> lsc f -> lsc (escal s f).
Proof.
  intros Hs Hf u l c Hu Hk. destruct (Hf u l (c / s) Hu) as [H1 H2].
  - intro k. destruct (Hk k) as [Ha Hb]. split; [exact Ha|]. cbn [eval escal] in Hb. apply (Rmult_le_reg_l s); auto. replace (s * (c / s)) with c by (field; lra). exact Hb.
  - split; [exact H1|]. cbn [eval escal]. apply (Rmult_le_compat_l s) in H2; [|lra]. replace (s * (c / s)) with c in H2 by (field; lra). exact H2.
Qed.
Lemma lsc_closed {E : IPS} (C : E -> Prop) : (forall x, exists p, is_proj C x p) -> lsc (indic C).
Proof.
  intros HP u l c Hu Hk. assert (HC : C l).
  { destruct (HP l) as [p [Hp Hmin]]. assert (Hz : p = l); [|rewrite <- Hz; exact Hp]. apply vsub_eq, norm_eq0. apply Rle_antisym; [|apply norm_nonneg]. apply Rnot_lt_le. intro Hlt.
    destruct (Hu _ Hlt) as [N HN]. specialize (HN N (le_n N)). pose proof (Hmin (u N) (proj1 (Hk N))) as H1. lra. }
  split; [exact HC|]. destruct (Hk 0%nat) as [_ H]. exact H.
Qed.

(** ** cyclic sweeps of proxes *)
Definition fcyc {E : IPS} (m : nat) (f : nat -> efun E) (x0 : E) (U Z : nat -> nat -> E) : Prop :=
  U 0%nat 0%nat = x0 /\ (forall i, (i < m)%nat -> Z 0%nat i = vzero) /\ forall k,
    (forall i, (i < m)%nat -> is_prox (f i) 1 (U k i [+] Z k i) (U k (S i)) /\ Z (S k) i = Z k i [+] U k i [-] U k (S i)) /\ U (S k) 0%nat = U k m.
Section Cyc.
Context {E : IPS} (HB : bw E) (m : nat) (f : nat -> efun E) (x0 : E) (U Z : nat -> nat -> E).
Hypothesis Hf : forall i, (i < m)%nat -> convex (f i).
Hypothesis Hl : forall i, (i < m)%nat -> lsc (f i).
Hypothesis HD : fcyc m f x0 U Z.

Lemma fcyc_inv k : U k 0%nat [+] VS m (Z k) = x0.
Proof.
  destruct HD as [H0 [H1 H]]. induction k as [|k IH].
  - rewrite H0. rewrite (VS_ext m _ (fun _ => vzero)) by auto. rewrite VS_zero. vring.
  - destruct (H k) as [Hk1 Hk2]. rewrite Hk2. rewrite (VS_ext m _ (fun i => Z k i [+] (U k i [-] U k (S i)))).
    + rewrite VS_add, VS_telescope. rewrite <- IH. vring.
    + intros i Hi. destruct (Hk1 i Hi) as [_ ->]. vring.
Qed.
Lemma fcyc_sub k i : (i < m)%nat -> is_subgrad (f i) (U k (S i)) (Z (S k) i).
Proof.
  intro Hi. destruct HD as [_ [_ H]]. destruct (H k) as [Hk _]. destruct (Hk i Hi) as [H1 H2]. apply prox_subgrad in H1; [|auto|lra].
  replace (Z (S k) i) with (/ 1 [*] (U k i [+] Z k i [-] U k (S i))); [exact H1|]. rewrite H2, Rinv_1. vring.
Qed.
Definition fmove k := RS m (fun j => norm (U k (S j) [-] U k j)).
Definition fmove2 k := RS m (fun j => norm2 (U k (S j) [-] U k j)).
Definition fgap p k i := << Z (S k) i, U k (S i) [-] p >> - eval (f i) (U k (S i)) + eval (f i) p.
Lemma fcyc_sweep p k i : (i <= m)%nat -> RS i (fun j => fgap p (S k) j - fgap p k j + / 2 * norm2 (U (S k) (S j) [-] U (S k) j)) + / 2 * norm2 (U (S k) i [-] p) <= / 2 * norm2 (U (S k) 0%nat [-] p).
Proof.
  induction i as [|i IH]; intro Hi; cbn [RS]; [lra|]. specialize (IH ltac:(lia)). destruct (fcyc_sub k i ltac:(lia)) as [_ H1]. specialize (H1 (U (S k) (S i)) (proj1 (fcyc_sub (S k) i ltac:(lia)))).
  destruct HD as [_ [_ H]]. destruct (H (S k)) as [Hk _]. destruct (Hk i ltac:(lia)) as [_ H2]. set (W := RS i _) in *. unfold fgap. rewrite H2.
  assert (EI : << Z (S k) i [+] U (S k) i [-] U (S k) (S i), U (S k) (S i) [-] p >> - << Z (S k) i, U k (S i) [-] p >> + / 2 * norm2 (U (S k) (S i) [-] U (S k) i) + / 2 * norm2 (U (S k) (S i) [-] p) =
     << Z (S k) i, U (S k) (S i) [-] U k (S i) >> + / 2 * norm2 (U (S k) i [-] p)) by (unfold norm2; iexp; field).
  lra.
Qed.
Lemma fcyc_drop p k : / 2 * norm2 (U (S (S k)) 0%nat [-] p) + RS m (fgap p (S k)) + / 2 * fmove2 (S k) <= / 2 * norm2 (U (S k) 0%nat [-] p) + RS m (fgap p k).
Proof.
  pose proof (fcyc_sweep p k m ltac:(lia)) as H. rewrite RS_add, RS_sub, RS_scal in H. unfold fmove2. destruct HD as [_ [_ HH]]. destruct (HH (S k)) as [_ ->]. lra.
Qed.
Lemma norm_path (h : nat -> E) i n : (i <= n)%nat -> norm (h i [-] h n) <= RS n (fun j => norm (h (S j) [-] h j)).
Proof.
  induction n as [|n IH]; intro Hi; [replace i with 0%nat by lia; rewrite vsub_diag, norm_zero; simpl; lra|]. cbn [RS]. destruct (Nat.eq_dec i (S n)) as [->|].
  - rewrite vsub_diag, norm_zero. pose proof (norm_nonneg (h (S n) [-] h n)). assert (0 <= RS n (fun j => norm (h (S j) [-] h j))) by (apply RS_nonneg; intros; apply norm_nonneg). lra.
  - specialize (IH ltac:(lia)). replace (h i [-] h (S n)) with ((h i [-] h n) [+] (h n [-] h (S n))) by vring. eapply Rle_trans; [apply norm_triangle|]. rewrite (norm_sub_sym (h n)). lra.
Qed.

Lemma fcyc_cv : (exists p, forall i, (i < m)%nat -> edom (f i) p) -> exists l, is_prox (esum m f) 1 x0 l /\ vcv (fun k => U k 0%nat) l.
Proof.
  intros [p0 Hp0]. set (x := fun k => U (S k) 0%nat). set (a := fun k i => U k (S i)). set (u := fun k i => Z (S k) i).
  assert (Hgap : forall p k i, (i < m)%nat -> edom (f i) p -> 0 <= fgap p k i).
  { intros p k i Hi Hp. destruct (fcyc_sub k i Hi) as [_ H]. specialize (H p Hp). unfold fgap. rewrite inner_sub_r in *. lra. }
  assert (Hm2 : forall k, 0 <= fmove2 k) by (intro; apply RS_nonneg; intros; apply norm2_nonneg).
  set (Q0 := / 2 * norm2 (U 1%nat 0%nat [-] p0) + RS m (fgap p0 0%nat)).
  assert (Hsm : forall n, RS n (fun k => / 2 * fmove2 (S k)) + (/ 2 * norm2 (U (S n) 0%nat [-] p0) + RS m (fgap p0 n)) <= Q0).
  { induction n as [|n IH]; cbn [RS]; [unfold Q0; lra|]. pose proof (fcyc_drop p0 n). lra. }
  assert (Hs2 : forall n, RS n fmove2 <= fmove2 0%nat + 2 * Q0).
  { assert (HQ0 : 0 <= Q0). { unfold Q0. pose proof (norm2_nonneg (U 1%nat 0%nat [-] p0)). assert (0 <= RS m (fgap p0 0%nat)) by (apply RS_nonneg; auto). lra. }
    intros [|n]; [simpl; pose proof (Hm2 0%nat); lra|]. rewrite RS_shift. specialize (Hsm n). rewrite RS_scal in Hsm. pose proof (norm2_nonneg (U (S n) 0%nat [-] p0)). assert (0 <= RS m (fgap p0 n)) by (apply RS_nonneg; auto). lra. }
  destruct (engine HB m f (fun _ => 1) x0 x a u fmove (INR m * (fmove2 0%nat + 2 * Q0))) as (l & Hp & Hc).
  - intros; lra.
  - exact Hl.
  - intros k i Hi. apply fcyc_sub; auto.
  - intro k. unfold x, u. rewrite <- (fcyc_inv (S k)). rewrite (VS_ext m _ (Z (S k))) by (intros; vring). vring.
  - intro k. apply RS_nonneg. intros; apply norm_nonneg.
  - intro n. apply Rle_trans with (INR m * RS n fmove2); [|apply Rmult_le_compat_l; [apply pos_INR|apply Hs2]]. rewrite <- RS_scal. apply RS_le. intros k _. unfold fmove, fmove2. eapply Rle_trans; [apply RS_jensen|].
    apply Rmult_le_compat_l; [apply pos_INR|]. apply RS_le. intros j _. rewrite norm_sq. lra.
  - intros k i Hi. unfold u. destruct HD as [_ [H1 H]]. clear - H1 H Hi. induction k as [|k IH].
    + destruct (H 0%nat) as [Hk _]. destruct (Hk i Hi) as [_ ->]. rewrite H1 by auto. cbn [RS]. rewrite Rplus_0_l. unfold fmove. replace (vzero [+] U 0%nat i [-] U 0%nat (S i)) with (U 0%nat i [-] U 0%nat (S i)) by vring. rewrite norm_sub_sym.
      apply (RS_le_one m (fun j => norm (U 0%nat (S j) [-] U 0%nat j))); auto. intros; apply norm_nonneg.
    + destruct (H (S k)) as [Hk _]. destruct (Hk i Hi) as [_ ->]. change (RS (S (S k)) fmove) with (RS (S k) fmove + fmove (S k)). replace (Z (S k) i [+] U (S k) i [-] U (S k) (S i)) with (Z (S k) i [+] (U (S k) i [-] U (S k) (S i))) by vring.
      eapply Rle_trans; [apply norm_triangle|]. apply Rplus_le_compat; [exact IH|]. rewrite norm_sub_sym. unfold fmove. apply (RS_le_one m (fun j => norm (U (S k) (S j) [-] U (S k) j))); auto. intros; apply norm_nonneg.
  - intros k i Hi. unfold a, x. destruct HD as [_ [_ H]]. destruct (H k) as [_ ->]. apply norm_path. lia.
  - intros p k Hp. unfold Qgap. change (bgap f a u p) with (fgap p). unfold x. pose proof (fcyc_drop p k) as H. pose proof (Hm2 (S k)).
    rewrite (RS_ext m (fun i => 1 * fgap p (S k) i) (fgap p (S k))) by (intros; ring). rewrite (RS_ext m (fun i => 1 * fgap p k i) (fgap p k)) by (intros; ring). lra.
  - eauto.
  - exists l. split; [|apply vcv_unshift; exact Hc]. destruct Hp as [H1 H2]. split; [exact H1|]. intros y Hy. specialize (H2 y Hy). cbn [eval esum escal] in *. assert (E1 : forall v, RS m (fun i => 1 * eval (f i) v) = RS m (fun i => eval (f i) v)) by (intro v; apply RS_ext; intros; ring). rewrite !E1 in H2. exact H2.
Qed.
End Cyc.

Lemma prox_step1 {E : IPS} (f : efun E) tau x p : 0 < tau -> (is_prox f tau x p <-> is_prox (escal tau f) 1 x p).
Proof.
  intro Ht. unfold is_prox, is_min. cbn [edom eval escal]. split; intros [H1 H2]; (split; [exact H1|]); intros y Hy; specialize (H2 y Hy); cbn [edom eval escal] in *.
  - apply (Rmult_le_compat_l tau) in H2; [|lra]. match type of H2 with ?a <= ?b => match goal with |- ?c <= ?d => replace c with a by (field; lra); replace d with b by (field; lra) end end. exact H2.
  - apply (Rmult_le_reg_l tau); [exact Ht|]. match type of H2 with ?a <= ?b => match goal with |- ?c <= ?d => replace c with a by (field; lra); replace d with b by (field; lra) end end. exact H2.
Qed.

(** ** the two-operator loop *)
Lemma dyk2_cv {E : IPS} (HB : bw E) (f g : efun E) tau x0 xs ys ps qs : convex f -> convex g -> lsc f -> lsc g -> 0 < tau -> dykstra_seq f g tau x0 xs ys ps qs -> (exists p, edom f p /\ edom g p) ->
  exists l, is_prox (eadd f g) tau x0 l /\ vcv xs l.
Proof.
  intros Cf Cg Lf Lg Ht [H0 [H1 [H2 H]]] [p [P1 P2]].
  destruct (fcyc_cv HB 2 (fun i => match i with O => escal tau f | _ => escal tau g end) x0 (fun k i => match i with O => xs k | 1%nat => ys (S k) | _ => xs (S k) end) (fun k i => match i with O => ps k | _ => qs k end)) as (l & Hp & Hc).
  - intros [|i] _; apply convex_scal; auto; lra.
  - intros [|i] _; apply lsc_scal; auto.
  - split; [exact H0|]. split; [intros [|i] _; auto|]. intro k. split; [|reflexivity]. destruct (H k) as (K1 & K2 & K3 & K4). intros [|[|i]] Hi; [| |lia].
    + split; [apply (prox_step1 f); auto|exact K2].
    + split; [apply (prox_step1 g); auto|exact K4].
  - exists p. intros [|i] _; auto.
  - exists l. split; [|exact Hc]. apply prox_step1; auto. destruct Hp as [D V]. split.
    + split; [apply (D 0%nat ltac:(lia))|apply (D 1%nat ltac:(lia))].
    + intros y [Y1 Y2]. specialize (V y). cbn [edom eval esum escal eadd RS] in *. assert (Hd : forall i, (i < 2)%nat -> edom (match i with O => escal tau f | S _ => escal tau g end) y) by (intros [|i] _; auto). specialize (V Hd). lra.
Qed.

(*! C35_sum_converges : Sum of two operators implementing the prox of convex lower semicontinuous f and g that are finite at a common
   point, in finite dimension, with tol = 0: the prox of f + g at x0 exists and the results of Sum.prox for niter = 0, 1, 2, ... converge
   to it, for every x0 and tau > 0 (no condition on subgradients) *)
Lemma C35_sum_converges_l : forall (E : IPS) (a b : Op E) f g x0 tau weights orig, bw E -> impl_prox a f -> impl_prox b g -> convex f -> convex g -> lsc f -> lsc g -> 0 < tau ->
  (exists p, edom f p /\ edom g p) ->
  exists xs z, (forall amax niter, (forall w, 0 <= amax w) -> exists o, sum_init [a; b] weights niter 0 false orig = Ok o /\ sum_prox amax o x0 tau = (o, Ok (xs niter))) /\
    is_prox (eadd f g) tau x0 z /\ vcv xs z.
Proof.
  intros E a b f g x0 tau weights orig HB Ha Hb Hf Hg Lf Lg Ht Hp.
  destruct (dyk2_run E (fun v => o_prox a v tau) (fun v => o_prox b v tau) f g tau x0 (impl_step a f tau Ha Ht) (impl_step b g tau Hb Ht)) as [xs [ys [ps [qs [HD HR]]]]].
  destruct (dyk2_cv HB f g tau x0 xs ys ps qs Hf Hg Lf Lg Ht HD Hp) as (z & Hz & Hc). exists xs, z. split; [|auto].
  intros amax niter Hm. destruct (HR amax niter 0) as [k [E1 Hk]]. destruct (sum_two amax a b weights niter 0 orig) as [o [Eo Ho]]. exists o. split; auto. rewrite Ho by auto. rewrite E1.
  replace k with niter; auto. symmetry. apply (stops_never _ _ _ Hk). intros j [H _]. specialize (Hm (xs j [-] xs (j - 1)%nat)). lra.
Qed.

(*! C35_two_sets_converge : GenericIntersectionProx of two projections on convex sets with a common point, in finite dimension, with
   tol = 0: the results for niter = 0, 1, 2, ... converge to the projection of x0 on the intersection, for every x0 *)
Lemma C35_two_sets_converge_l : forall (E : IPS) (p1 p2 : E -> result E) C1 C2 x0 tau, bw E -> proj_impl p1 C1 -> proj_impl p2 C2 -> convex_set C1 -> convex_set C2 -> 0 < tau ->
  (exists w, C1 w /\ C2 w) ->
  exists xs z, (forall amax niter, (forall w, 0 <= amax w) -> gi_prox amax [p1; p2] niter 0 false x0 tau = Ok (xs niter)) /\ is_proj (fun w => C1 w /\ C2 w) x0 z /\ vcv xs z.
Proof.
  intros E p1 p2 C1 C2 x0 tau HB H1 H2 K1 K2 Ht Hw. destruct (dyk2_run E p1 p2 (indic C1) (indic C2) 1 x0 (proj_step _ _ H1) (proj_step _ _ H2)) as [xs' [ys' [ps' [qs' [HD' HR]]]]].
  destruct (dyk2_cv HB (indic C1) (indic C2) 1 x0 xs' ys' ps' qs') as (z & Hz & Hc); auto; try lra.
  { apply indic_convex; auto. } { apply indic_convex; auto. }
  { apply lsc_closed. intro v. destruct (H1 v) as (y & _ & Hy). eauto. } { apply lsc_closed. intro v. destruct (H2 v) as (y & _ & Hy). eauto. }
  exists xs', z. split; [|split; [|exact Hc]].
  - intros amax niter Hm. destruct (HR amax niter 0) as [k [E1 Hk]]. unfold gi_prox, gi_proj. cbn [length select_impl bind]. destruct (Rleb_spec tau 0) as [[? _]|[_ ->]]; [lra|]. rewrite E1. do 2 f_equal.
    apply (stops_never _ _ _ Hk). intros j [H _]. specialize (Hm (xs' j [-] xs' (j - 1)%nat)). lra.
  - apply (proj_prox (fun w => C1 w /\ C2 w) 1); [lra|]. destruct Hz as [D V]. split; [exact D|]. intros y Hy. specialize (V y Hy). cbn [eval eadd indic] in *. lra.
Qed.

(*! C35_cyclic_converges : GenericIntersectionProx of three or more projections on convex sets (or two with use_parallel) with a common
   point, in finite dimension, with tol = 0: the results for niter = 0, 1, 2, ... converge to the projection of x0 on the intersection,
   for every x0 (Boyle and Dykstra's theorem) *)
Lemma C35_cyclic_converges_l : forall (E : IPS) (projs : list (E -> result E)) (C : nat -> E -> Prop) x0 tau par, bw E -> let m := length projs in
  0 < tau -> (2 < m)%nat \/ (m = 2%nat /\ par = true) -> (forall i p, nth_error projs i = Some p -> proj_impl p (C i)) -> (forall i, (i < m)%nat -> convex_set (C i)) ->
  (exists w, forall i, (i < m)%nat -> C i w) ->
  exists us z, (forall amax niter, gi_prox amax projs niter 0 par x0 tau = Ok (us niter)) /\ is_proj (fun w => forall i, (i < m)%nat -> C i w) x0 z /\ vcv us z.
Proof.
  intros E projs C x0 tau par HB m Ht HL HP HC Hw. assert (Hm : (0 < m)%nat) by lia.
  assert (Hex : forall i v, (i < m)%nat -> exists p, is_proj (C i) v p).
  { intros i v Hi. destruct (nth_error projs i) as [p|] eqn:Ei; [|apply nth_error_None in Ei; unfold m in Hi; lia]. destruct (HP i p Ei v) as (y & _ & Hy). eauto. }
  destruct (cyc_run projs C x0 Hm HP) as [U [Z [HD HR]]]. fold m in HD, HR.
  destruct (fcyc_cv HB m (fun i => indic (C i)) x0 U Z) as (z & Hz & Hc); auto.
  { intros i Hi. apply indic_convex; auto. }
  { intros i Hi. apply lsc_closed. intro v. apply Hex; auto. }
  { destruct HD as [D0 [D1 D2]]. split; auto. split; auto. intro k. destruct (D2 k) as [K1 K2]. split; auto. intros i Hi. destruct (K1 i Hi) as [K3 K4]. split; auto. apply proj_prox; auto. lra. }
  exists (fun k => U k 0%nat), z. split; [|split; [|exact Hc]].
  - intros amax niter. destruct (HR amax niter 0) as [k [E1 Hk]]. rewrite gi_more by auto. rewrite E1. do 2 f_equal. apply (stops_never _ _ _ Hk). intros j [H _]. lra.
  - apply (proj_prox (fun w => forall i, (i < m)%nat -> C i w) 1); [lra|]. destruct Hz as [D V]. split; [exact D|]. intros y Hy. specialize (V y Hy).
    assert (E0 : forall v, eval (esum m (fun i => indic (C i))) v = 0) by (intro v; cbn [eval esum indic]; apply RS_zero). rewrite !E0 in V. cbn [eval indic]. lra.
Qed.

(** ** the parallel loop of Sum *)
Section Par.
Context {E : IPS} (HB : bw E) (m : nat) (f : nat -> efun E) (w t : nat -> R) (x0 : E) (xs : nat -> E) (zs ps : nat -> nat -> E).
Hypothesis Hf : forall i, (i < m)%nat -> convex (f i).
Hypothesis Hl : forall i, (i < m)%nat -> lsc (f i).
Hypothesis Hw : forall i, (i < m)%nat -> 0 < w i.
Hypothesis HW : RS m w = 1.
Hypothesis Ht : forall i, (i < m)%nat -> 0 < t i.
Hypothesis HD : par_seq m f w t x0 xs zs ps.

Definition pu k i := zs k i [-] ps k i.
Definition pgap p k i := << pu k i, ps k i [-] p >> - t i * eval (f i) (ps k i) + t i * eval (f i) p.
Definition pmove k := RS m (fun i => norm (xs k [-] ps k i) + norm (ps k i [-] xs (S k))).
Definition pmove2 k := RS m (fun i => w i * (norm2 (xs k [-] ps k i) + norm2 (ps k i [-] xs (S k)))).
Lemma par_sub k i : (i < m)%nat -> is_subgrad (escal (t i) (f i)) (ps k i) (pu k i).
Proof.
  intro Hi. pose proof HD as [_ [_ H]]. destruct (H k) as [Hk _]. destruct (Hk i Hi) as [H1 _]. apply prox_subgrad in H1; auto. specialize (Ht i Hi). apply (subgrad_scal (t i)) in H1; [|lra].
  unfold pu. replace (zs k i [-] ps k i) with (t i [*] (/ t i [*] (zs k i [-] ps k i))) by (vfield; lra). exact H1.
Qed.
Lemma par_u_step k i : (i < m)%nat -> pu (S k) i = pu k i [+] (xs (S k) [-] ps (S k) i).
Proof. intro Hi. pose proof HD as [_ [_ H]]. destruct (H k) as [Hk _]. destruct (Hk i Hi) as [_ H2]. unfold pu. rewrite H2. vring. Qed.
Lemma par_drop p k : / 2 * norm2 (xs (S (S k)) [-] p) + RS m (fun i => w i * pgap p (S k) i) + / 2 * pmove2 (S k) <= / 2 * norm2 (xs (S k) [-] p) + RS m (fun i => w i * pgap p k i).
Proof.
  set (X := xs (S k)). set (X' := xs (S (S k))).
  assert (HI : forall i, (i < m)%nat -> w i * pgap p (S k) i + / 2 * (w i * (norm2 (X [-] ps (S k) i) + norm2 (ps (S k) i [-] X'))) + / 2 * (w i * norm2 (X' [-] p)) + << w i [*] ps (S k) i [-] w i [*] X', X' [-] p >> <= w i * pgap p k i + / 2 * (w i * norm2 (X [-] p))).
  { intros i Hi. destruct (par_sub k i Hi) as [_ H1]. specialize (H1 (ps (S k) i) (proj1 (par_sub (S k) i Hi))). cbn [eval escal] in H1. unfold pgap. rewrite (par_u_step k i Hi). fold X.
    assert (EI : << pu k i [+] (X [-] ps (S k) i), ps (S k) i [-] p >> + / 2 * (norm2 (X [-] ps (S k) i) + norm2 (ps (S k) i [-] X')) + / 2 * norm2 (X' [-] p) + << ps (S k) i [-] X', X' [-] p >> =
       << pu k i, ps k i [-] p >> + << pu k i, ps (S k) i [-] ps k i >> + / 2 * norm2 (X [-] p)) by (unfold norm2; iexp; field).
    specialize (Hw i Hi). replace (<< w i [*] ps (S k) i [-] w i [*] X', X' [-] p >>) with (w i * << ps (S k) i [-] X', X' [-] p >>) by iring.
    match goal with |- ?a <= ?b => apply Rle_trans with (w i * (<< pu k i [+] (X [-] ps (S k) i), ps (S k) i [-] p >> + / 2 * (norm2 (X [-] ps (S k) i) + norm2 (ps (S k) i [-] X')) + / 2 * norm2 (X' [-] p) + << ps (S k) i [-] X', X' [-] p >> - t i * eval (f i) (ps (S k) i) + t i * eval (f i) p)); [right; ring|] end.
    rewrite EI. match goal with |- _ <= ?b => apply Rle_trans with (w i * (<< pu k i, ps k i [-] p >> - t i * eval (f i) (ps k i) + t i * eval (f i) p + / 2 * norm2 (X [-] p))); [apply Rmult_le_compat_l; lra|right; ring] end. }
  assert (HS := RS_le m _ _ HI). rewrite !RS_add, !RS_scal, !RS_scal_r, HW in HS. rewrite <- inner_VS_l, VS_sub, VS_wconst, HW in HS.
  pose proof HD as [_ [_ H]]. destruct (H (S k)) as [_ Hx]. fold X' in Hx. rewrite <- Hx in HS. replace (<< X' [-] 1 [*] X', X' [-] p >>) with 0 in HS by iring. unfold pmove2. fold X X'. lra.
Qed.

Lemma par_cv : (exists p, forall i, (i < m)%nat -> edom (f i) p) -> exists l, is_prox (esum m (fun i => escal (w i * t i) (f i))) 1 x0 l /\ vcv xs l.
Proof.
  intros [p0 Hp0].
  assert (Hgap : forall p k i, (i < m)%nat -> edom (f i) p -> 0 <= pgap p k i).
  { intros p k i Hi Hp. destruct (par_sub k i Hi) as [_ H]. specialize (H p Hp). cbn [eval escal] in H. unfold pgap. rewrite inner_sub_r in *. lra. }
  assert (Hg0 : forall k, 0 <= RS m (fun i => w i * pgap p0 k i)) by (intro k; apply RS_nonneg; intros i Hi; apply Rmult_le_pos; [left; auto|apply Hgap; auto]).
  assert (Hm2 : forall k, 0 <= pmove2 k) by (intro; apply RS_nonneg; intros i Hi; apply Rmult_le_pos; [left; auto|apply Rplus_le_le_0_compat; apply norm2_nonneg]).
  set (Q0 := / 2 * norm2 (xs 1%nat [-] p0) + RS m (fun i => w i * pgap p0 0%nat i)).
  assert (Hsm : forall n, RS n (fun k => / 2 * pmove2 (S k)) + (/ 2 * norm2 (xs (S n) [-] p0) + RS m (fun i => w i * pgap p0 n i)) <= Q0).
  { induction n as [|n IH]; cbn [RS]; [unfold Q0; lra|]. pose proof (par_drop p0 n). lra. }
  assert (Hs2 : forall n, RS n pmove2 <= pmove2 0%nat + 2 * Q0).
  { assert (HQ0 : 0 <= Q0) by (unfold Q0; pose proof (norm2_nonneg (xs 1%nat [-] p0)); pose proof (Hg0 0%nat); lra).
    intros [|n]; [simpl; pose proof (Hm2 0%nat); lra|]. rewrite RS_shift. specialize (Hsm n). rewrite RS_scal in Hsm. pose proof (norm2_nonneg (xs (S n) [-] p0)). pose proof (Hg0 n). lra. }
  set (cw := RS m (fun i => / w i)). assert (Hcw : 0 <= cw) by (apply RS_nonneg; intros i Hi; left; apply Rinv_0_lt_compat; auto).
  destruct (engine HB m (fun i => escal (t i) (f i)) w x0 (fun k => xs (S k)) ps pu pmove (INR m * (2 * cw) * (pmove2 0%nat + 2 * Q0))) as (l & Hp & Hc).
  - exact Hw.
  - intros i Hi. apply lsc_scal; auto.
  - apply par_sub.
  - intro k. pose proof (par_inv m f w t x0 xs zs ps HW HD k) as HI. pose proof HD as [_ [_ H]]. destruct (H k) as [_ Hx]. rewrite Hx, <- HI, <- VS_sub. apply VS_ext. intros i Hi. unfold pu. vring.
  - intro k. apply RS_nonneg. intros i Hi. apply Rplus_le_le_0_compat; apply norm_nonneg.
  - intro n. apply Rle_trans with (INR m * (2 * cw) * RS n pmove2); [|apply Rmult_le_compat_l; [apply Rmult_le_pos; [apply pos_INR|lra]|apply Hs2]]. rewrite <- RS_scal. apply RS_le. intros k _. unfold pmove. eapply Rle_trans; [apply RS_jensen|].
    rewrite Rmult_assoc. apply Rmult_le_compat_l; [apply pos_INR|]. unfold pmove2. rewrite <- RS_scal. apply RS_le. intros i Hi. set (n1 := norm (xs k [-] ps k i)). set (n2 := norm (ps k i [-] xs (S k))).
    rewrite <- (norm_sq (xs k [-] ps k i)), <- (norm_sq (ps k i [-] xs (S k))). fold n1 n2. assert (H1 : (n1 + n2) * (n1 + n2) <= 2 * (n1 * n1 + n2 * n2)) by (pose proof (Rle_0_sqr (n1 - n2)); unfold Rsqr in *; lra).
    eapply Rle_trans; [exact H1|]. assert (H2 : 1 <= cw * w i). { specialize (Hw i Hi) as Hwi. apply (Rmult_le_reg_r (/ w i)); [apply Rinv_0_lt_compat; auto|]. rewrite Rmult_1_l, Rmult_assoc, Rinv_r, Rmult_1_r by lra.
      apply (RS_le_one m (fun i => / w i)); auto. intros j Hj. left. apply Rinv_0_lt_compat; auto. }
    replace (2 * cw * (w i * (n1 * n1 + n2 * n2))) with ((cw * w i) * (2 * (n1 * n1 + n2 * n2))) by ring. rewrite <- (Rmult_1_l (2 * (n1 * n1 + n2 * n2))) at 1. apply Rmult_le_compat_r; [|exact H2].
    pose proof (Rle_0_sqr n1). pose proof (Rle_0_sqr n2). unfold Rsqr in *. lra.
  - assert (H1 : forall k i, (i < m)%nat -> norm (xs k [-] ps k i) <= pmove k).
    { intros k i Hi. eapply Rle_trans; [|apply (RS_le_one m (fun i => norm (xs k [-] ps k i) + norm (ps k i [-] xs (S k))) i); auto]; [pose proof (norm_nonneg (ps k i [-] xs (S k))); lra|intros; apply Rplus_le_le_0_compat; apply norm_nonneg]. }
    intros k i Hi. induction k as [|k IH].
    + cbn [RS]. rewrite Rplus_0_l. unfold pu. pose proof HD as [D0 [D1 _]]. rewrite D1 by auto. rewrite <- D0. auto.
    + rewrite par_u_step by auto. change (RS (S (S k)) pmove) with (RS (S k) pmove + pmove (S k)). eapply Rle_trans; [apply norm_triangle|]. apply Rplus_le_compat; auto.
  - intros k i Hi. eapply Rle_trans; [|apply (RS_le_one m (fun i => norm (xs k [-] ps k i) + norm (ps k i [-] xs (S k))) i); auto]; [pose proof (norm_nonneg (xs k [-] ps k i)); lra|intros; apply Rplus_le_le_0_compat; apply norm_nonneg].
  - intros p k Hp. unfold Qgap. change (bgap (fun i => escal (t i) (f i)) ps pu p) with (pgap p). pose proof (par_drop p k). pose proof (Hm2 (S k)). lra.
  - eauto.
  - exists l. split; [|apply vcv_unshift; exact Hc]. destruct Hp as [H1 H2]. split; [exact H1|]. intros y Hy. specialize (H2 y Hy). cbn [eval esum escal] in *.
    assert (E1 : forall v, RS m (fun i => w i * (t i * eval (f i) v)) = RS m (fun i => w i * t i * eval (f i) v)) by (intro v; apply RS_ext; intros; ring). rewrite !E1 in H2. exact H2.
Qed.
End Par.

(*! C36_parallel_converges : Sum of m convex lower semicontinuous functions that are finite at a common point, computed in parallel with any
   positive weights and either step rule, in finite dimension, with tol = 0: the prox of sum_i c_i f_i at x0 (c_i as in C36_recursion)
   exists and the results of Sum.prox for niter = 0, 1, 2, ... converge to it (no condition on subgradients) *)
Lemma C36_parallel_converges_l : forall (E : IPS) (os : list (Op E)) (f : nat -> efun E) x0 tau weights par orig, bw E -> let m := List.length os in let w := the_weights weights m in
  (2 < m)%nat \/ (m = 2%nat /\ par = true) -> weights_ok w m -> 0 < tau -> impl_all os f -> (forall i, (i < m)%nat -> convex (f i)) -> (forall i, (i < m)%nat -> lsc (f i)) ->
  (exists p, forall i, (i < m)%nat -> edom (f i) p) ->
  exists xs z, (forall amax niter, (forall v, 0 <= amax v) -> exists o, sum_init os weights niter 0 par orig = Ok o /\ snd (sum_prox amax o x0 tau) = Ok (xs niter)) /\
    is_prox (esum m (fun i => escal (coef orig tau w i) (f i))) 1 x0 z /\ vcv xs z.
Proof.
  intros E os f x0 tau weights par orig HB m w HL HO Ht Hf Hc Hl Hp. assert (Hm : (0 < m)%nat) by lia.
  assert (HwP : forall i, (i < m)%nat -> 0 < nweight w i) by (intros i Hi; apply Rdiv_lt_0_compat; [apply HO; auto|apply (weights_sum_pos w m); auto]).
  assert (HtP : forall i, (i < m)%nat -> 0 < step_of orig tau w i) by (intros i Hi; apply (step_pos orig tau w m); auto).
  destruct (par_all E os f x0 tau weights par orig HL HO Ht Hf) as [xs [zs [ps [HD HR]]]]. fold m w in HD.
  destruct (par_cv HB m f (nweight w) (step_of orig tau w) x0 xs zs ps Hc Hl HwP (RS_nweight w m Hm HO) HtP HD Hp) as (z & Hz & Hv). exists xs, z. split; [|split; [|exact Hv]].
  - intros amax niter Ha. destruct (HR amax niter 0) as [o [k [E1 [E2 Hk]]]]. exists o. split; auto. rewrite E2. do 2 f_equal. apply (stops_never _ _ _ Hk). intros j H. specialize (Ha (xs j [-] xs (j - 1)%nat)). lra.
  - destruct Hz as [D V]. split; [exact D|]. intros y Hy. specialize (V y Hy).
    assert (EV : forall v, RS m (fun i => eval (escal (nweight w i * step_of orig tau w i) (f i)) v) = RS m (fun i => eval (escal (coef orig tau w i) (f i)) v)).
    { intro v. apply RS_ext. intros i Hi. cbn [eval escal]. rewrite (coef_eq orig tau w m) by auto. reflexivity. }
    cbn [eval esum] in *. rewrite <- !EV. exact V.
Qed.

(** ** examples *)
Definition plane : IPS := Prod_IPS R_IPS R_IPS.
Definition pt (a b : R) : plane := ((a : R_IPS), (b : R_IPS)).
Definition disc_proj (v : plane) : plane := (1 / Rmax (norm v) 1) [*] v.
Definition disc (v : plane) : Prop := norm v <= 1.
Lemma disc_exact : proj_impl (fun v => Ok (disc_proj v)) disc.
Proof.
  intro v. exists (disc_proj v). split; auto. pose proof (ball_proj_spec (vzero : plane) 1 v ltac:(lra)) as H. rewrite vsub_0_r, vadd_0_l in H. destruct H as [H1 H2]; [eapply Rlt_le_trans; [apply Rlt_0_1|apply Rmax_r]|].
  unfold ball in *. rewrite vsub_0_r in H1. split; [exact H1|]. intros y Hy. apply H2. rewrite vsub_0_r. exact Hy.
Qed.
Lemma disc_convex : convex_set disc.
Proof.
  intros x y t Hx Hy Ht. unfold disc in *. eapply Rle_trans; [apply norm_triangle|]. rewrite !norm_scal, !Rabs_right by lra. assert (t * norm y <= t * 1) by (apply Rmult_le_compat_l; lra). assert ((1 - t) * norm x <= (1 - t) * 1) by (apply Rmult_le_compat_l; lra). lra.
Qed.

(*!ex C35_touching_example : the unit disc and the half-plane x >= 1, which touch at the single point (1, 0): the hypotheses of C35_two_sets_converge hold for the input (1, 1)
   whose projection is (1, 0), although (1, 1) - (1, 0) is not a sum of outward normals there (so C35_intersection_converges says nothing) *)
Lemma C35_touching_example_l : let v := pt (-1) 0 in bw plane /\ proj_impl (fun w => Ok (disc_proj w)) disc /\ proj_impl (fun w => Ok (half_proj v (-1) w)) (half v (-1)) /\ convex_set disc /\ convex_set (half v (-1)) /\
  disc (pt 1 0) /\ half v (-1) (pt 1 0) /\ is_proj (fun w => disc w /\ half v (-1) w) (pt 1 1) (pt 1 0) /\
  ~ (exists a b, normal disc (pt 1 0) a /\ normal (half v (-1)) (pt 1 0) b /\ pt 1 1 [-] pt 1 0 = a [+] b).
Proof.
  intro v. assert (Hn : forall a b, norm2 (pt a b) = a * a + b * b) by (intros; unfold norm2; cbn; ring).
  assert (Hd : forall a b, a * a + b * b <= 1 -> disc (pt a b)) by (intros a b H; unfold disc; apply Rsqr_incr_0_var; [unfold Rsqr; rewrite norm_sq, Hn; lra|lra]).
  assert (Hd' : forall a b, disc (pt a b) -> a * a + b * b <= 1) by (intros a b H; unfold disc in H; rewrite <- Hn, <- norm_sq; pose proof (norm_nonneg (pt a b)); nra).
  assert (D1 : disc (pt 1 0)) by (apply Hd; lra). assert (H1 : half v (-1) (pt 1 0)) by (unfold half; cbn; lra).
  split; [apply bw_prod; apply bw_R|]. split; [apply disc_exact|]. split; [apply half_exact; unfold v; rewrite Hn; lra|]. split; [apply disc_convex|]. split; [apply half_convex|]. split; [exact D1|]. split; [exact H1|]. split.
  - apply vi_proj; [auto|]. intros [a b] [Ha Hb]. apply (Hd' a b) in Ha. unfold half in Hb. cbn in Hb |- *. assert (b = 0) by nra. subst b. lra.
  - intros ([a1 a2] & [b1 b2] & [_ Ha] & [_ Hb] & HE). assert (E2 : (1 : R) - 0 = a2 + b2) by (cbn in HE; injection HE; intros; lra).
    pose proof (Hb (pt 1 1)) as Hb1. pose proof (Hb (pt 1 (-1))) as Hb2. unfold half in Hb1, Hb2. cbn in Hb1, Hb2.
    assert (b2 = 0) by (apply Rle_antisym; [assert (-1 * 1 + 0 * 1 <= -1) as H by lra; specialize (Hb1 H); lra|assert (-1 * 1 + 0 * -1 <= -1) as H by lra; specialize (Hb2 H); lra]).
    assert (Ha2 : a2 = 1) by lra. clear Hb Hb1 Hb2 HE E2. subst b2 a2.
    assert (HT : forall t, 0 < t -> t <= 1 -> 1 <= a1 * t).
    { intros t Ht Ht1. assert (Hp : 0 < 1 + t * t) by nra. pose proof (Ha (pt ((1 - t * t) / (1 + t * t)) (2 * t / (1 + t * t)))) as H.
      assert (HD : disc (pt ((1 - t * t) / (1 + t * t)) (2 * t / (1 + t * t)))) by (apply Hd; right; field; lra). specialize (H HD). cbn in H.
      match type of H with ?q <= 0 => assert (EQ : q = 2 * t / (1 + t * t) * (1 - a1 * t)) by (field; lra); rewrite EQ in H end.
      destruct (Rle_lt_dec 1 (a1 * t)); auto. exfalso. assert (0 < 2 * t / (1 + t * t) * (1 - a1 * t)) by (apply Rmult_lt_0_compat; [apply Rdiv_lt_0_compat; lra|lra]). lra. }
    pose proof (HT 1 Rlt_0_1 (Rle_refl 1)) as H11. assert (Hi : / (2 * a1) <= 1) by (rewrite <- Rinv_1; apply Rinv_le_contravar; lra). pose proof (HT (/ (2 * a1)) ltac:(apply Rinv_0_lt_compat; lra) Hi) as H12.
    replace (a1 * / (2 * a1)) with (/ 2) in H12 by (field; lra). lra.
Qed.

Lemma norm_Rabs (v : R_IPS) : norm v = Rabs v. Proof. unfold norm, norm2; simpl. apply sqrt_Rsqr_abs. Qed.
(*!ex C36_converges_example : three operators (x^2/2, x^2/2 and x^2/2) with the weights (1/4, 1/4, 1/2), tau = 1 and either step rule meet the hypotheses of C36_parallel_converges *)
Lemma C36_converges_example_l : let os := [quad1 1; quad1 1; quad1 1] in let q := etot (E:=R_IPS) (fun x : R_IPS => 1 / 2 * (x * x)) in let w := the_weights (ListWeights [1/4; 1/4; 1/2]) 3 in
  bw R_IPS /\ weights_ok w 3 /\ impl_all os (fun _ => q) /\ convex q /\ lsc q /\ edom q (0 : R).
Proof.
  intros os q w. split; [apply bw_R|]. split; [split; [reflexivity|intros i Hi; destruct i as [|[|[|i]]]; cbn; [lra|lra|lra|lia]]|].
  split; [intros i o Ho; destruct i as [|[|[|i]]]; cbn in Ho; [| | |destruct i; discriminate]; injection Ho as <-; apply quad1_prox; lra|].
  split; [intros x y s _ _ Hs; cbn; split; auto; assert (0 <= s * (1 - s) * ((x - y) * (x - y))) by (apply Rmult_le_pos; [nra|apply (Rle_0_sqr (x - y))]); lra|].
  split; [|exact I]. intros u l c Hu Hb. split; [exact I|]. cbn. destruct (Rle_lt_dec (1 / 2 * (l * l)) c) as [H|H]; auto. exfalso.
  assert (H2 : 0 < (1 / 2 * (l * l) - c) / (1 + Rabs l)) by (apply Rdiv_lt_0_compat; [lra|pose proof (Rabs_pos l); lra]).
  set (e := (1 / 2 * (l * l) - c) / (1 + Rabs l)) in *. assert (He : e * (1 + Rabs l) = 1 / 2 * (l * l) - c) by (unfold e; field; pose proof (Rabs_pos l); lra).
  destruct (Hu e H2) as [N HN]. specialize (HN N (le_n N)). destruct (Hb N) as [_ HbN]. cbn in HbN. 
  rewrite norm_Rabs in HN. assert (HR : Rabs (u N - l) < e) by (cbn in HN; replace (u N - l) with (u N + - l) by ring; first [exact HN|replace (u N + - l) with (u N - l) by ring; exact HN|replace (u N + - l) with (u N + -1 * l) by ring; exact HN]). pose proof (Rabs_pos l). assert (Rabs (l * (u N - l)) <= Rabs l * e) by (rewrite Rabs_mult; apply Rmult_le_compat_l; lra).
  pose proof (Rle_abs (- (l * (u N - l)))) as H3. rewrite Rabs_Ropp in H3. pose proof (Rle_0_sqr (u N - l)) as H4. unfold Rsqr in H4. nra.
Qed.
