(** * Proofs about the intersection of m sets (M_Dyk.v, cyclic Dykstra) and the choice by arity *)
From Coq Require Import Psatz Classical.
From Verif Require Import Base Space Spec SpecOps ConvexFacts VSum MatFacts M_ProxOp M_Norms M_Loop LoopFacts LoopFacts2 SeqConv M_PG M_Multi M_Dyk P_Multi P_Dyk P_Dyk2 P_Proj.
From Verif Require Export S_Dyk3.
Open Scope result_scope.
Open Scope R_scope.

(** ** Specification: the documented recursion (GenericIntersection.py:50-58); U k i is u_i of sweep k *)

Section Math.
Context {E : IPS} (m : nat) (C : nat -> E -> Prop) (x0 : E) (U Z : nat -> nat -> E).
Hypothesis HC : forall i, (i < m)%nat -> convex_set (C i).
Hypothesis HD : cyclic_seq m C x0 U Z.

Lemma VS_telescope (h : nat -> E) n : VS n (fun i => h i [-] h (S i)) = h 0%nat [-] h n.
Proof. induction n as [|n IH]; cbn [VS]; [vring|]. rewrite IH. vring. Qed.
Lemma cyc_inv k : U k 0%nat [+] VS m (Z k) = x0.
Proof.
  destruct HD as [H0 [H1 H]]. induction k as [|k IH].
  - rewrite H0. rewrite (VS_ext m _ (fun _ => vzero)) by auto. rewrite VS_zero. vring.
  - destruct (H k) as [Hk1 Hk2]. rewrite Hk2. rewrite (VS_ext m _ (fun i => Z k i [+] (U k i [-] U k (S i)))).
    + rewrite VS_add, VS_telescope. rewrite <- IH. vring.
    + intros i Hi. destruct (Hk1 i Hi) as [_ ->]. vring.
Qed.
Lemma cyc_normal k i c : (i < m)%nat -> C i c -> << Z (S k) i, c [-] U k (S i) >> <= 0.
Proof.
  intros Hi Hc. destruct HD as [_ [_ H]]. destruct (H k) as [Hk _]. destruct (Hk i Hi) as [H1 H2].
  pose proof (proj_vi (C i) _ _ (HC i Hi) H1 c Hc) as HV. replace (Z (S k) i) with (U k i [+] Z k i [-] U k (S i)) by (rewrite H2; vring). exact HV.
Qed.
Lemma cyc_agree k : (forall i, (i < m)%nat -> U k (S i) = U k m) -> is_proj (fun v => forall i, (i < m)%nat -> C i v) x0 (U k m).
Proof.
  intro HA. apply vi_proj.
  - intros i Hi. rewrite <- (HA i Hi). destruct HD as [_ [_ H]]. destruct (H k) as [Hk _]. apply (Hk i Hi).
  - intros y Hy. assert (EX : x0 [-] U k m = VS m (Z (S k))). { rewrite <- (cyc_inv (S k)). destruct HD as [_ [_ H]]. destruct (H k) as [_ ->]. vring. }
    rewrite EX, inner_VS_l. rewrite <- (RS_zero m). apply RS_le. intros i Hi. rewrite <- (HA i Hi). apply cyc_normal; auto.
Qed.
(** value of the support function of C i at Z k i *)
Definition cval k i : R := match k with O => 0 | S k => << Z (S k) i, U k (S i) >> end.
Lemma cval_ub k i c : (i < m)%nat -> C i c -> << Z k i, c >> <= cval k i.
Proof.
  intros Hi Hc. destruct k as [|k]; simpl; [destruct HD as [_ [H _]]; rewrite H, inner_zero_l by auto; lra|]. pose proof (cyc_normal k i c Hi Hc) as H. rewrite inner_sub_r in H. lra.
Qed.
Lemma cyc_sweep k i : (i <= m)%nat -> RS i (fun j => cval (S k) j - cval k j + / 2 * norm2 (U k (S j) [-] U k j)) + / 2 * norm2 (U k i) <= / 2 * norm2 (U k 0%nat).
Proof.
  induction i as [|i IH]; intro Hi; cbn [RS]; [lra|]. specialize (IH ltac:(lia)). destruct HD as [_ [_ H]]. destruct (H k) as [Hk _]. destruct (Hk i ltac:(lia)) as [[H1 _] H2].
  pose proof (cval_ub k i (U k (S i)) ltac:(lia) H1) as HB. change (cval (S k) i) with (<< Z (S k) i, U k (S i) >>). rewrite H2.
  assert (EI : << Z k i [+] U k i [-] U k (S i), U k (S i) >> + / 2 * norm2 (U k (S i) [-] U k i) + / 2 * norm2 (U k (S i)) = << Z k i, U k (S i) >> + / 2 * norm2 (U k i)) by (unfold norm2; iexp; field).
  lra.
Qed.
Definition cphi k := RS m (cval k) + / 2 * norm2 (U k 0%nat).
Definition cmove k := RS m (fun j => norm2 (U k (S j) [-] U k j)).
Lemma cyc_descent k : cphi (S k) + / 2 * cmove k <= cphi k.
Proof.
  pose proof (cyc_sweep k m ltac:(lia)) as H. rewrite RS_add, RS_sub, RS_scal in H. unfold cphi, cmove. destruct HD as [_ [_ HH]]. destruct (HH k) as [_ ->]. lra.
Qed.
Lemma cphi_lower k z : (forall i, (i < m)%nat -> C i z) -> << x0, z >> - / 2 * norm2 z <= cphi k.
Proof.
  intro Hz. unfold cphi. assert (H : RS m (fun i => << Z k i, z >>) <= RS m (cval k)) by (apply RS_le; intros i Hi; apply cval_ub; auto).
  rewrite <- inner_VS_l in H. rewrite <- (cyc_inv k) at 1. pose proof (norm2_nonneg (U k 0%nat [-] z)) as Hn.
  replace (norm2 (U k 0%nat [-] z)) with (norm2 (U k 0%nat) + norm2 z - 2 * << U k 0%nat, z >>) in Hn by iring. rewrite inner_add_l. lra.
Qed.
(** the squared moves of all projections together never exceed |x0 - z|^2 *)
Lemma cyc_summable z n : (forall i, (i < m)%nat -> C i z) -> RS n cmove <= norm2 (x0 [-] z).
Proof.
  intro Hz. assert (HS : RS n (fun k => / 2 * cmove k) + cphi n <= cphi 0).
  { induction n as [|n IH]; cbn [RS]; [lra|]. pose proof (cyc_descent n). lra. }
  pose proof (cphi_lower n z Hz) as HL. assert (E0 : cphi 0 = / 2 * norm2 x0).
  { unfold cphi. simpl cval. rewrite RS_zero. destruct HD as [-> _]. lra. }
  rewrite RS_scal in HS. replace (norm2 (x0 [-] z)) with (norm2 x0 + norm2 z - 2 * << x0, z >>) by iring. lra.
Qed.
Lemma norm_telescope (h : nat -> E) d i n : (forall j, (j < n)%nat -> norm (h (S j) [-] h j) < d) -> (i <= n)%nat -> norm (h n [-] h i) <= INR (n - i) * d.
Proof.
  induction n as [|n IH]; intros H Hi.
  - replace i with 0%nat by lia. rewrite vsub_diag, norm_zero. simpl. lra.
  - destruct (Nat.eq_dec i (S n)) as [->|]; [rewrite vsub_diag, norm_zero, Nat.sub_diag; simpl; lra|].
    replace (S n - i)%nat with (S (n - i)) by lia. rewrite S_INR. replace (h (S n) [-] h i) with ((h (S n) [-] h n) [+] (h n [-] h i)) by vring.
    eapply Rle_trans; [apply norm_triangle|]. pose proof (H n ltac:(lia)). specialize (IH (fun j Hj => H j ltac:(lia)) ltac:(lia)). lra.
Qed.
End Math.

(** ** the loop computes that recursion *)
Section Run.
Context {E : IPS}.
Lemma lset_length {A} (l : list A) i a : (i < length l)%nat -> length (lset l i a) = length l.
Proof. intro H. unfold lset. rewrite app_length, firstn_length. cbn [length]. rewrite skipn_length. lia. Qed.
Lemma nth_lset {A} (l : list A) i a d j : (i < length l)%nat -> nth j (lset l i a) d = if Nat.eqb j i then a else nth j l d.
Proof.
  intro H. unfold lset. destruct (Nat.eqb_spec j i) as [->|Hne].
  - rewrite app_nth2 by (rewrite firstn_length; lia). rewrite firstn_length. replace (i - Nat.min i (length l))%nat with 0%nat by lia. reflexivity.
  - destruct (Nat.lt_ge_cases j i) as [Hj|Hj].
    + rewrite app_nth1 by (rewrite firstn_length; lia). rewrite <- (firstn_skipn i l) at 2. rewrite app_nth1 by (rewrite firstn_length; lia). reflexivity.
    + rewrite app_nth2 by (rewrite firstn_length; lia). rewrite firstn_length. replace (j - Nat.min i (length l))%nat with (S (j - S i)) by lia. cbn [nth].
      rewrite <- (firstn_skipn (S i) l) at 2. rewrite app_nth2 by (rewrite firstn_length; lia). rewrite firstn_length. f_equal. lia.
Qed.
Lemma nth_repeat_lt {A} (a : A) n i d : (i < n)%nat -> nth i (repeat a n) d = a.
Proof. revert i. induction n as [|n IH]; intros i Hi; [lia|]. destruct i as [|i]; simpl; [reflexivity|apply IH; lia]. Qed.
(** u after i projections of a sweep *)
Fixpoint useq (T : nat -> E -> E) (u : E) (z : list E) (i : nat) : E := match i with O => u | S i => T i (useq T u z i [+] nth i z vzero) end.
Lemma sweep_spec (T : nat -> E -> E) u z m : forall projs i prev zs c, (i + length projs = m)%nat -> (0 < m)%nat ->
  (forall j p, nth_error projs j = Some p -> forall v, p v = Ok (T (i + j)%nat v)) ->
  length prev = m -> length zs = m -> length z = m -> c = useq T u z i ->
  (forall j, (j < i)%nat -> nth j prev vzero = useq T u z (S j)) -> (forall j, (i <= j < m)%nat -> nth j prev vzero = u) ->
  (forall j, (j < m)%nat -> nth j zs vzero = if Nat.ltb j i then nth j z vzero [+] useq T u z j [-] useq T u z (S j) else nth j z vzero) ->
  exists s, sweep projs i (CY c prev zs) = Ok s /\ c_u s = useq T u z m /\ length (c_prev s) = m /\ length (c_z s) = m /\
    (forall j, (j < m)%nat -> nth j (c_prev s) vzero = useq T u z (S j)) /\
    (forall j, (j < m)%nat -> nth j (c_z s) vzero = nth j z vzero [+] useq T u z j [-] useq T u z (S j)).
Proof.
  induction projs as [|p projs IH]; intros i prev zs c Hm H0 HT Hp Hz Hz0 Hc Hpv Hpv2 Hzs; cbn [sweep].
  - simpl in Hm. replace i with m in * by lia. eexists. split; [reflexivity|]. cbn [c_u c_prev c_z]. split; auto. split; auto. split; auto. split; auto.
    intros j Hj. rewrite Hzs by auto. destruct (Nat.ltb_spec j m); [reflexivity|lia].
  - simpl in Hm. cbn [c_prev c_z].
    assert (Hb : last_of prev i = useq T u z i). { unfold last_of. destruct i as [|i]; [rewrite Hpv2 by lia; reflexivity|apply Hpv; lia]. }
    assert (Hzi : nth i zs vzero = nth i z vzero) by (rewrite Hzs by lia; rewrite Nat.ltb_irrefl; reflexivity).
    rewrite Hb, Hzi. rewrite (HT 0%nat p eq_refl). rewrite Nat.add_0_r. cbn [bind].
    change (T i (useq T u z i [+] nth i z vzero)) with (useq T u z (S i)).
    apply (IH (S i)); try (rewrite lset_length by lia); auto; try lia.
    + intros j q Hq v. replace (S i + j)%nat with (i + S j)%nat by lia. apply (HT (S j)). exact Hq.
    + intros j Hj. rewrite nth_lset by lia. destruct (Nat.eqb_spec j i) as [->|]; [reflexivity|apply Hpv; lia].
    + intros j Hj. rewrite nth_lset by lia. destruct (Nat.eqb_spec j i) as [->|]; [lia|apply Hpv2; lia].
    + intros j Hj. rewrite nth_lset by lia. destruct (Nat.eqb_spec j i) as [->|].
      * destruct (Nat.ltb_spec i (S i)); [reflexivity|lia].
      * rewrite Hzs by auto. destruct (Nat.ltb_spec j i), (Nat.ltb_spec j (S i)); auto; lia.
Qed.
Lemma amax_rows_lt (amax : E -> R) l tol : 0 < tol -> (amax_rows amax l < tol <-> forall v, In v l -> amax v < tol).
Proof.
  intro Ht. unfold amax_rows. induction l as [|a l IH]; simpl; [split; [intros; contradiction|auto]|]. split.
  - intros H v [->|Hv]; [eapply Rle_lt_trans; [apply Rmax_l|exact H]|]. apply IH; auto. eapply Rle_lt_trans; [apply Rmax_r|exact H].
  - intro H. apply Rmax_lub_lt; auto. apply IH; auto.
Qed.
Lemma cyc_run (projs : list (E -> result E)) (C : nat -> E -> Prop) x0 : (0 < length projs)%nat ->
  (forall i p, nth_error projs i = Some p -> proj_impl p (C i)) ->
  exists U Z, cyclic_seq (length projs) C x0 U Z /\
    forall amax niter tol, exists k, cyclic_dykstra amax x0 projs niter tol = Ok (U k 0%nat) /\ stops_when (cyc_small amax tol (length projs) U) niter k.
Proof.
  intros H0 HP. set (m := length projs) in *.
  set (T := fun i v => match nth_error projs i with Some p => match p v with Ok y => y | Err _ => v end | None => v end).
  assert (HT : forall j p, nth_error projs j = Some p -> forall v, p v = Ok (T j v)).
  { intros j p Hj v. destruct (HP j p Hj v) as [y [E1 _]]. unfold T. rewrite Hj, E1. reflexivity. }
  assert (HPr : forall i v, (i < m)%nat -> is_proj (C i) v (T i v)).
  { intros i v Hi. destruct (nth_error projs i) as [p|] eqn:Ei; [|apply nth_error_None in Ei; unfold m in Hi; lia].
    destruct (HP i p Ei v) as [y [E1 H1]]. rewrite (HT i p Ei v) in E1. apply Ok_inj in E1. rewrite E1. exact H1. }
  set (stp := fun s : E * list E => (useq T (fst s) (snd s) m, map (fun j => nth j (snd s) vzero [+] useq T (fst s) (snd s) j [-] useq T (fst s) (snd s) (S j)) (seq 0 m))).
  set (st := fun k => Base.iter k stp (x0, repeat vzero m)).
  assert (SS : forall k, st (S k) = stp (st k)) by (intro k; apply iter_S_out).
  assert (HL : forall k, length (snd (st k)) = m). { intros [|k]; [apply repeat_length|]. rewrite SS. cbn [stp snd]. rewrite map_length, seq_length. reflexivity. }
  exists (fun k i => useq T (fst (st k)) (snd (st k)) i), (fun k i => nth i (snd (st k)) vzero). split.
  - split; [reflexivity|]. split; [intros i Hi; apply nth_repeat|]. intro k. split.
    + intros i Hi. split; [apply HPr; auto|]. rewrite SS. unfold stp. cbn [snd]. rewrite (map_nth_lt _ (seq 0 m) i 0%nat vzero) by (rewrite seq_length; auto). rewrite seq_nth by auto. reflexivity.
    + rewrite SS. reflexivity.
  - intros amax niter tol.
    set (test := fun s : E * list E => let U i := useq T (fst s) (snd s) i in Rltb (Rmax (amax (U 0%nat [-] U m)) (amax_rows amax (map (fun j => U (S j) [-] U m) (seq 0 m)))) tol).
    destruct (loop_iter_brk (cyc_body amax projs tol) (fun s => length (snd s) = m) stp test (x0, repeat vzero m)) with (n := niter) as [k [E1 Hk]].
    + apply repeat_length.
    + intros j [u z] Hz. cbn [snd] in Hz. unfold cyc_body. cbn [fst snd]. fold m.
      destruct (sweep_spec T u z m projs 0 (repeat u m) z u) as [s [Es [Hu [Hlp [Hlz [Hpv Hzs]]]]]]; auto; try (intros; lia).
      { apply repeat_length. } { intros i Hi. apply (nth_repeat_lt u m i vzero). lia. }
      rewrite Es. cbn [bind]. split; [|unfold stp; cbn [snd]; rewrite map_length, seq_length; reflexivity].
      do 2 f_equal.
      * unfold stp. cbn [fst snd]. rewrite Hu. f_equal. apply (nth_ext _ _ vzero vzero); [rewrite map_length, seq_length; lia|]. intros i Hi. rewrite Hlz in Hi. rewrite Hzs by auto.
        rewrite (map_nth_lt _ (seq 0 m) i 0%nat vzero) by (rewrite seq_length; auto). rewrite seq_nth by auto. reflexivity.
      * unfold test. cbn [fst snd]. rewrite Hu. do 2 f_equal. f_equal. apply (nth_ext _ _ vzero vzero); [rewrite !map_length, seq_length; lia|]. intros i Hi. rewrite map_length, Hlp in Hi.
        rewrite (map_nth_lt _ (c_prev s) i vzero vzero) by lia. rewrite (map_nth_lt _ (seq 0 m) i 0%nat vzero) by (rewrite seq_length; auto). rewrite Hpv, seq_nth by auto. reflexivity.
    + exists k. unfold cyclic_dykstra. fold m. rewrite E1. split; [reflexivity|].
      assert (EQ : forall j, 0 < tol -> (test (st (j - 1)%nat) = true <-> cyc_small amax tol m (fun k i => useq T (fst (st k)) (snd (st k)) i) j)).
      { intros j Ht. unfold test. rewrite Rltb_true. unfold cyc_small. split.
        - intro H. split; auto. split; [eapply Rle_lt_trans; [apply Rmax_l|exact H]|]. intros i Hi.
          assert (H' : amax_rows amax (map (fun j0 => useq T (fst (st (j - 1)%nat)) (snd (st (j - 1)%nat)) (S j0) [-] useq T (fst (st (j - 1)%nat)) (snd (st (j - 1)%nat)) m) (seq 0 m)) < tol) by (eapply Rle_lt_trans; [apply Rmax_r|exact H]).
          apply (proj1 (amax_rows_lt amax _ tol Ht) H'). apply in_map_iff. exists i. split; auto. apply in_seq. lia.
        - intros [_ [Ha Hb]]. apply Rmax_lub_lt; auto. apply amax_rows_lt; auto. intros v Hv. apply in_map_iff in Hv as [i [<- Hi]]. apply in_seq in Hi. apply Hb. lia. }
      assert (EN : tol <= 0 -> forall s, test s = false).
      { intros Ht s. unfold test. apply Rltb_false. eapply Rle_trans; [exact Ht|]. eapply Rle_trans; [|apply Rmax_r]. unfold amax_rows. clear. induction (map _ _); simpl; [lra|]. eapply Rle_trans; [apply IHl|apply Rmax_r]. }
      destruct Hk as [Hk1 [Hk2 Hk3]]. split; [exact Hk1|]. destruct (Rlt_le_dec 0 tol) as [Ht|Ht].
      * split; [intros j Hj HQ; apply (Hk2 j Hj), EQ; auto|]. destruct Hk3 as [->|[H3 H4]]; [auto|right; split; auto; apply EQ; auto].
      * split; [intros j Hj [HQ _]; lra|]. destruct Hk3 as [->|[H3 H4]]; [auto|]. rewrite EN in H4 by auto. discriminate.
Qed.
End Run.

Lemma gi_more {E : IPS} amax (projs : list (E -> result E)) niter tol par x0 tau : 0 < tau -> (2 < length projs)%nat \/ (length projs = 2%nat /\ par = true) ->
  gi_prox amax projs niter tol par x0 tau = cyclic_dykstra amax x0 projs niter tol.
Proof.
  intros Ht HL. unfold gi_prox, gi_proj. destruct projs as [|p [|q [|r l]]]; simpl in HL; try (exfalso; lia).
  - destruct HL as [HL|[_ ->]]; [lia|]. cbn [length select_impl bind]. destruct (Rleb_spec tau 0) as [[? _]|[_ ->]]; [lra|reflexivity].
  - cbn [length select_impl bind]. destruct (Rleb_spec tau 0) as [[? _]|[_ ->]]; [lra|reflexivity].
Qed.

(*! C35_cyclic : GenericIntersectionProx of three or more projections on convex sets (or two with use_parallel): the sweeps follow the documented recursion,
   u + z_1 + ... + z_m equals the input before every sweep, at most niter sweeps run and the loop ends at the first one passing the test, the
   result lies in the last set, and when all iterates of the last sweep agree it is the projection of the input on the intersection *)
Lemma C35_cyclic_l : forall (E : IPS) amax (projs : list (E -> result E)) (C : nat -> E -> Prop) x0 tau par, let m := length projs in
  0 < tau -> (2 < m)%nat \/ (m = 2%nat /\ par = true) -> (forall i p, nth_error projs i = Some p -> proj_impl p (C i)) -> (forall i, (i < m)%nat -> convex_set (C i)) ->
  exists U Z, cyclic_seq m C x0 U Z /\ (forall k, U k 0%nat [+] VS m (Z k) = x0) /\
    forall niter tol, exists k, gi_prox amax projs niter tol par x0 tau = Ok (U k 0%nat) /\ stops_when (cyc_small amax tol m U) niter k /\
      ((0 < k)%nat -> C (m - 1)%nat (U k 0%nat)) /\
      ((0 < k)%nat -> (forall i, (i < m)%nat -> U (k - 1)%nat (S i) = U k 0%nat) -> is_proj (fun v => forall i, (i < m)%nat -> C i v) x0 (U k 0%nat)).
Proof.
  intros E amax projs C x0 tau par m Ht HL HP HC. assert (Hm : (0 < m)%nat) by lia.
  destruct (cyc_run projs C x0 Hm HP) as [U [Z [HD HR]]]. fold m in HD, HR. exists U, Z. split; auto. split; [intro k; apply (cyc_inv m C x0 U Z HD)|].
  intros niter tol. destruct (HR amax niter tol) as [k [E1 Hk]]. exists k. rewrite gi_more by auto. split; auto. split; auto. split.
  - intro Hk0. destruct k as [|k]; [lia|]. destruct HD as [_ [_ H]]. destruct (H k) as [H1 ->]. destruct (H1 (m - 1)%nat ltac:(lia)) as [[H2 _] _]. replace (S (m - 1)) with m in H2 by lia. exact H2.
  - intros Hk0 HA. destruct k as [|k]; [lia|]. replace (S k - 1)%nat with k in HA by lia. destruct HD as [Ha [Hb H]]. destruct (H k) as [_ EU]. rewrite EU in *.
    apply (cyc_agree m C x0 U Z); auto. split; auto.
Qed.

(*! C35_cyclic_stops : when the sets share a point and tol > 0 the loop stops by itself: some N bounds the number of sweeps whatever niter is *)
Lemma C35_cyclic_stops_l : forall (E : IPS) amax (projs : list (E -> result E)) (C : nat -> E -> Prop) x0 tau par tol, let m := length projs in
  0 < tau -> (2 < m)%nat \/ (m = 2%nat /\ par = true) -> (forall i p, nth_error projs i = Some p -> proj_impl p (C i)) -> (forall i, (i < m)%nat -> convex_set (C i)) ->
  (forall w, amax w <= norm w) -> 0 < tol -> (exists z, forall i, (i < m)%nat -> C i z) ->
  exists U Z N, cyclic_seq m C x0 U Z /\ cyc_small amax tol m U N /\ forall niter, (N <= niter)%nat -> gi_prox amax projs niter tol par x0 tau = Ok (U N 0%nat).
Proof.
  intros E amax projs C x0 tau par tol m Ht HL HP HC Hm Htol [z Hz]. assert (Hm0 : (0 < m)%nat) by lia.
  destruct (cyc_run projs C x0 Hm0 HP) as [U [Z [HD HR]]]. fold m in HD, HR.
  assert (HmR : 0 < INR m) by (apply lt_0_INR; auto). set (d := tol / (2 * INR m)). assert (Hd : 0 < d) by (apply Rdiv_lt_0_compat; lra).
  destruct (summable_vanish (cmove m U) (norm2 (x0 [-] z))) with (eps := d * d) as [M HM].
  { intro j. apply RS_nonneg. intros. apply norm2_nonneg. } { intro n. apply (cyc_summable m C x0 U Z HC HD z n Hz). } { nra. }
  assert (HQ : cyc_small amax tol m U (S M)).
  { specialize (HM M (le_n M)). assert (HN : forall j, (j < m)%nat -> norm (U M (S j) [-] U M j) < d).
    { intros j Hj. apply norm_small; auto. eapply Rle_lt_trans; [|exact HM]. unfold cmove.
      rewrite <- (RS_delta m j (fun j => norm2 (U M (S j) [-] U M j)) Hj). apply RS_le. intros i _. pose proof (norm2_nonneg (U M (S i) [-] U M i)). destruct (Nat.eqb j i); lra. }
    assert (HB : forall i, (i <= m)%nat -> norm (U M i [-] U M m) < tol).
    { intros i Hi. replace (norm (U M i [-] U M m)) with (norm (U M m [-] U M i)) by (apply norm_sub_sym). eapply Rle_lt_trans; [apply (norm_telescope (U M) d i m HN Hi)|].
      apply Rle_lt_trans with (INR m * d); [apply Rmult_le_compat_r; [lra|apply le_INR; lia]|]. unfold d. replace (INR m * (tol / (2 * INR m))) with (tol / 2) by (field; lra). lra. }
    split; auto. replace (S M - 1)%nat with M by lia. split; [|intros i Hi]; (eapply Rle_lt_trans; [apply Hm|apply HB; lia]). }
  destruct (HR amax (S M) tol) as [N [_ HN]].
  assert (HQN : cyc_small amax tol m U N). { destruct HN as [_ [_ [->|[_ H]]]]; auto. }
  assert (HN0 : (1 <= N)%nat). { destruct HN as [_ [_ [->|[H _]]]]; lia. }
  exists U, Z, N. split; auto. split; auto. intros niter Hn. rewrite gi_more by auto. destruct (HR amax niter tol) as [k [-> Hk]]. do 2 f_equal.
  pose proof (stops_when_first _ _ _ N Hk HN0 HQN) as Hle. destruct (Nat.eq_dec k N) as [|Hne]; auto. exfalso.
  destruct Hk as [Hk1 [_ [Hk3|[Hk3 Hk4]]]]; [lia|]. destruct HN as [_ [HN2 _]]. apply (HN2 k); auto. lia.
Qed.

(** ** arity *)
(*! C38_intersection_arity : GenericIntersectionProx with no projection raises ValueError, with one it returns exactly that projection, otherwise Dykstra's algorithm runs;
   a non-positive tau raises ValueError *)
Lemma C38_intersection_arity_l : forall (E : IPS) amax niter tol par (x : E) tau,
  gi_prox amax [] niter tol par x tau = Err ValueError /\
  (forall p, 0 < tau -> gi_prox amax [p] niter tol par x tau = p x) /\
  (forall p q, 0 < tau -> gi_prox amax [p; q] niter tol par x tau = if par then cyclic_dykstra amax x [p; q] niter tol else dykstra_two amax x p q niter tol) /\
  (forall p q r l, 0 < tau -> gi_prox amax (p :: q :: r :: l) niter tol par x tau = cyclic_dykstra amax x (p :: q :: r :: l) niter tol) /\
  (forall projs, tau <= 0 -> gi_prox amax projs niter tol par x tau = Err ValueError).
Proof.
  intros E amax niter tol par x tau. split; [reflexivity|]. unfold gi_prox, gi_proj.
  assert (Hp : 0 < tau -> Rleb tau 0 = false) by (intro H; destruct (Rleb_spec tau 0) as [[? _]|[_ ->]]; [lra|reflexivity]).
  split; [intros p H; cbn [length select_impl bind]; rewrite Hp by auto; reflexivity|].
  split; [intros p q H; cbn [length select_impl bind]; rewrite Hp by auto; destruct par; reflexivity|].
  split; [intros p q r l H; cbn [length select_impl bind]; rewrite Hp by auto; reflexivity|].
  intros projs H. destruct (Rleb_spec tau 0) as [[_ ->]|[? _]]; [|lra]. destruct projs as [|p [|q [|r l]]]; reflexivity.
Qed.
(*! C38_sum_arity : Sum of one operator returns exactly that operator's prox, of two runs the two-operator loop unless use_parallel, of more the parallel loop;
   weights given with no operator raise ValueError *)
Lemma C38_sum_arity_l : forall (E : IPS) amax niter tol par orig,
  (forall w, sum_init (E:=E) [] (ListWeights w) niter tol par orig = Err ValueError /\ sum_init (E:=E) [] (ArrayWeights w) niter tol par orig = Err ValueError) /\
  (forall (a : Op E) weights, exists o, sum_init [a] weights niter tol par orig = Ok o /\ forall x tau, 0 < tau -> sum_prox amax o x tau = (o, o_prox a x tau)) /\
  (forall (a b : Op E) weights, exists o, sum_init [a; b] weights niter tol false orig = Ok o /\ forall x tau, 0 < tau ->
     sum_prox amax o x tau = (o, dykstra_two amax x (fun v => o_prox a v tau) (fun v => o_prox b v tau) niter tol)) /\
  (forall (os : list (Op E)) weights o x tau, sum_init os weights niter tol par orig = Ok o -> tau <= 0 -> sum_prox amax o x tau = (o, Err ValueError)).
Proof.
  intros E amax niter tol par orig. split; [split; reflexivity|]. split; [|split].
  - intros a weights. destruct weights; eexists; (split; [reflexivity|]); intros x tau Ht; unfold sum_prox; cbn [so_impl so_ops]; (destruct (Rleb_spec tau 0) as [[? _]|[_ ->]]; [lra|reflexivity]).
  - intros a b weights. apply sum_two.
  - intros os weights o x tau _ Ht. unfold sum_prox. destruct (Rleb_spec tau 0) as [[_ ->]|[? _]]; [reflexivity|lra].
Qed.
(*! C38_empty_sum_refuted : Sum([]) without weights does not raise the documented ValueError but ZeroDivisionError, whatever the other arguments *)
Lemma C38_empty_sum_refuted_l : forall (E : IPS) niter tol par orig, sum_init (E:=E) [] NoWeights niter tol par orig = Err ZeroDivisionError.
Proof. reflexivity. Qed.

Lemma sum_call_aux {E : IPS} (x : E) : forall (os : list (Op E)) f, (forall i o, nth_error os i = Some o -> call_of o (f i)) ->
  exists vs, calls os x = Ok vs /\ (forallb (fun b => b) (bools_of vs) = true <-> edom (esum (length os) f) x) /\
    (edom (esum (length os) f) x -> Rsum (nums_of vs) = eval (esum (length os) f) x) /\ (nums_of vs <> [] <-> exists o, In o os /\ num_op o x).
Proof.
  induction os as [|o os IH]; intros f Hf.
  - exists []. split; [reflexivity|]. split; [split; auto; intros _ i Hi; simpl in Hi; lia|]. split; [reflexivity|]. split; [intros H; contradiction|intros [o [[] _]]].
  - destruct (IH (fun i => f (S i))) as [vs [E1 [H1 [H2 H3]]]]; [intros i o' Ho; apply (Hf (S i)); exact Ho|].
    assert (HE : edom (esum (length (o :: os)) f) x <-> edom (f 0%nat) x /\ edom (esum (length os) (fun i => f (S i))) x).
    { cbn [edom esum length]. split; [intro H; split; [apply H; lia|intros i Hi; apply H; lia]|intros [Ha Hb] i Hi; destruct i; auto; apply Hb; lia]. }
    assert (HV : eval (esum (length (o :: os)) f) x = eval (f 0%nat) x + eval (esum (length os) (fun i => f (S i))) x) by (cbn [eval esum length]; rewrite RS_shift; reflexivity).
    destruct (Hf 0%nat o eq_refl) as [Hb|Hn].
    + destruct (Hb x) as [Hz [b [Eb Hbb]]]. exists (VBool b :: vs). cbn [calls]. rewrite Eb. cbn [bind]. rewrite E1. split; [reflexivity|].
      cbn [bools_of nums_of flat_map app forallb]. fold (bools_of vs) (nums_of vs). rewrite HE, HV, Hz, Bool.andb_true_iff, Hbb, H1. split; [tauto|]. split; [intros [_ Hd]; rewrite H2 by auto; ring|].
      rewrite H3. split; intros [o' [Hi Ho]]; exists o'; (split; [|exact Ho]); [right; auto|]. destruct Hi as [<-|]; auto. destruct Ho as [r Ho]. congruence.
    + destruct (Hn x) as [Hd Eo]. exists (VNum (eval (f 0%nat) x) :: vs). cbn [calls]. rewrite Eo. cbn [bind]. rewrite E1. split; [reflexivity|].
      cbn [bools_of nums_of flat_map app Rsum]. fold (bools_of vs) (nums_of vs). rewrite HE, HV, H1. split; [tauto|]. split; [intros [_ Hd']; rewrite <- H2 by auto; reflexivity|].
      split; [intros _; exists o; split; [left; reflexivity|exists (eval (f 0%nat) x); exact Eo]|intros _ H; discriminate].
Qed.
(*! C38_sum_call : calling a Sum of operators whose calls give either the indicator of a set (as a Boolean) or a number: False exactly when the point is outside some set,
   otherwise the sum of all the values when at least one is a number, and True when none is *)
Lemma C38_sum_call_l : forall (E : IPS) (os : list (Op E)) f x, (forall i o, nth_error os i = Some o -> call_of o (f i)) -> let F := esum (length os) f in
  (~ edom F x -> sum_call os x = Ok (VBool false)) /\
  (edom F x -> (exists o, In o os /\ num_op o x) -> sum_call os x = Ok (VNum (eval F x))) /\
  (edom F x -> ~ (exists o, In o os /\ num_op o x) -> sum_call os x = Ok (VBool true)).
Proof.
  intros E os f x Hf F. destruct (sum_call_aux x os f Hf) as [vs [E1 [H1 [H2 H3]]]]. unfold sum_call. rewrite E1. cbn [bind]. fold F in H1, H2.
  destruct (forallb (fun b => b) (bools_of vs)) eqn:EB; cbn [negb].
  - assert (HF : edom F x) by (apply H1; reflexivity). split; [tauto|]. split; intros _ Hn.
    + apply H3 in Hn. rewrite <- H2 by auto. destruct (nums_of vs); [contradiction|reflexivity].
    + destruct (nums_of vs); [reflexivity|]. exfalso. apply Hn, H3. discriminate.
  - assert (HF : ~ edom F x) by (intro H; apply H1 in H; discriminate). split; [reflexivity|]. split; intros; contradiction.
Qed.

(** ** a concrete case: three half-lines *)
Definition line_max (b : R) (v : R_IPS) : R_IPS := Rmin v b.
Definition line_min (b : R) (v : R_IPS) : R_IPS := Rmax v b.
Definition three_lines (i : nat) : R_IPS -> Prop := match i with O => fun v : R => v <= 1 | 1%nat => fun v : R => 0 <= v | _ => fun v : R => v <= 2 end.
Lemma line_max_proj b : proj_impl (fun v => Ok (line_max b v)) (fun v : R => v <= b).
Proof.
  intro v. exists (line_max b v). split; auto. apply vi_proj; unfold line_max; [apply Rmin_r|]. intros y Hy. cbn. unfold Rmin. destruct (Rle_dec v b); nra.
Qed.
Lemma line_min_proj b : proj_impl (fun v => Ok (line_min b v)) (fun v : R => b <= v).
Proof.
  intro v. exists (line_min b v). split; auto. apply vi_proj; unfold line_min; [apply Rmax_r|]. intros y Hy. cbn. unfold Rmax. destruct (Rle_dec v b); nra.
Qed.
Lemma list3 (a b c a' b' c' : R_IPS) : a = a' -> b = b' -> c = c' -> [a; b; c] = [a'; b'; c'].
Proof. intros -> -> ->. reflexivity. Qed.
(*!ex C35_example : the half-lines x <= 1, 0 <= x and x <= 2: the hypotheses of the cyclic theorems hold, and from the input 3 two sweeps return 1 *)
Lemma C35_example_l : let projs := [(fun v => Ok (line_max 1 v)); (fun v => Ok (line_min 0 v)); (fun v => Ok (line_max 2 v))] in
  (forall i p, nth_error projs i = Some p -> proj_impl p (three_lines i)) /\ (forall i, convex_set (three_lines i)) /\ (exists z, forall i, three_lines i z) /\
  gi_prox (E:=R_IPS) Rabs projs 100 (1/10) false (3 : R_IPS) 1 = Ok 1.
Proof.
  intros projs. split; [|split; [|split]].
  - intros i p Hp. destruct i as [|[|[|i]]]; cbn in Hp; [| | |destruct i; discriminate]; injection Hp as <-; [apply line_max_proj|apply line_min_proj|apply line_max_proj].
  - intros [|[|i]] x y t Hx Hy Ht; cbn in *; nra.
  - exists (1 : R). intros [|[|i]]; cbn; lra.
  - rewrite gi_more; [|lra|left; cbn; lia]. unfold cyclic_dykstra. change 100%nat with (S (S 98)). generalize 98%nat as n. intro n. cbn [projs length repeat].
    assert (B1 : forall j, cyc_body (E:=R_IPS) Rabs projs (1/10) j (3 : R_IPS, [0 : R_IPS; 0 : R_IPS; 0 : R_IPS]) = Ok (1 : R_IPS, [2 : R_IPS; 0 : R_IPS; 0 : R_IPS], false)).
    { intro j. unfold cyc_body. cbn [projs fst snd length repeat sweep c_prev c_z last_of nth lset firstn skipn app bind Nat.sub].
      assert (V1 : line_max 1 ((3 : R_IPS) [+] (0 : R_IPS)) = 1) by (cbn; unfold line_max, Rmin; destruct (Rle_dec (3 + 0) 1); lra). rewrite V1. cbn [nth lset firstn skipn app].
      assert (V2 : line_min 0 ((1 : R_IPS) [+] (0 : R_IPS)) = 1) by (cbn; unfold line_min, Rmax; destruct (Rle_dec (1 + 0) 0); lra). rewrite V2. cbn [nth lset firstn skipn app].
      assert (V3 : line_max 2 ((1 : R_IPS) [+] (0 : R_IPS)) = 1) by (cbn; unfold line_max, Rmin; destruct (Rle_dec (1 + 0) 2); lra). rewrite V3. cbn [nth lset firstn skipn app c_u c_z].
      apply f_equal. apply f_equal2; [apply f_equal2; [reflexivity|apply list3; cbn; lra]|]. apply Rltb_false. eapply Rle_trans; [|apply Rmax_l]. cbn. rewrite Rabs_right; lra. }
    assert (B2 : forall j, cyc_body (E:=R_IPS) Rabs projs (1/10) j (1 : R_IPS, [2 : R_IPS; 0 : R_IPS; 0 : R_IPS]) = Ok (1 : R_IPS, [2 : R_IPS; 0 : R_IPS; 0 : R_IPS], true)).
    { intro j. unfold cyc_body. cbn [projs fst snd length repeat sweep c_prev c_z last_of nth lset firstn skipn app bind Nat.sub].
      assert (V1 : line_max 1 ((1 : R_IPS) [+] (2 : R_IPS)) = 1) by (cbn; unfold line_max, Rmin; destruct (Rle_dec (1 + 2) 1); lra). rewrite V1. cbn [nth lset firstn skipn app].
      assert (V2 : line_min 0 ((1 : R_IPS) [+] (0 : R_IPS)) = 1) by (cbn; unfold line_min, Rmax; destruct (Rle_dec (1 + 0) 0); lra). rewrite V2. cbn [nth lset firstn skipn app].
      assert (V3 : line_max 2 ((1 : R_IPS) [+] (0 : R_IPS)) = 1) by (cbn; unfold line_max, Rmin; destruct (Rle_dec (1 + 0) 2); lra). rewrite V3. cbn [nth lset firstn skipn app c_u c_z].
      apply f_equal. apply f_equal2; [apply f_equal2; [reflexivity|apply list3; cbn; lra]|]. apply Rltb_true. apply Rmax_lub_lt; [cbn; rewrite Rabs_right; lra|]. apply amax_rows_lt; [lra|].
      cbn [map c_prev In]. intros v [<-|[<-|[<-|[]]]]; cbn; rewrite Rabs_right; lra. }
    change (vzero : R_IPS) with (0 : R_IPS). cbn [for_loop].     fold projs. rewrite B1. cbn [bind fst snd]. rewrite B2. reflexivity.
Qed.
Definition ex_ind : Op R_IPS := mkOp (E:=R_IPS) (fun x : R => Ok (VBool (Reqb x 1))) (fun _ _ => Ok (1 : R)) (fun _ _ => Err NotImplementedError) (fun _ => Err NotImplementedError) false.
Definition ex_num : Op R_IPS := mkOp (E:=R_IPS) (fun x : R => Ok (VNum x)) (fun (x : R) t => Ok (x - t)) (fun _ _ => Err NotImplementedError) (fun _ => Ok (Some 1)) true.
(*!ex C38_example : the indicator of {1} and the identity function: at 1 the sum is the number 1, at 0 it is False *)
Lemma C38_example_l : let f := fun i : nat => match i with O => indic (E:=R_IPS) (fun x : R => x = 1) | _ => etot (E:=R_IPS) (fun x : R => x) end in
  (forall i o, nth_error [ex_ind; ex_num] i = Some o -> call_of o (f i)) /\ sum_call [ex_ind; ex_num] (1 : R_IPS) = Ok (VNum 1) /\ sum_call [ex_ind; ex_num] (0 : R_IPS) = Ok (VBool false).
Proof.
  intro f. assert (H : forall i o, nth_error [ex_ind; ex_num] i = Some o -> call_of o (f i)).
  { intros i o Ho. destruct i as [|[|i]]; cbn in Ho; [| |destruct i; discriminate]; injection Ho as <-.
    - left. intro x. split; [reflexivity|]. exists (Reqb x 1). split; [reflexivity|]. cbn. apply Reqb_true.
    - right. intro x. split; [exact I|reflexivity]. }
  split; auto. destruct (C38_sum_call_l R_IPS [ex_ind; ex_num] f (1 : R) H) as [_ [H1 _]]. destruct (C38_sum_call_l R_IPS [ex_ind; ex_num] f (0 : R) H) as [H0 _]. split.
  - rewrite H1; [do 2 f_equal; cbn; ring|intros [|[|i]] Hi; cbn; auto; cbn in Hi; lia|]. exists ex_num. split; [right; left; reflexivity|exists 1; reflexivity].
  - apply H0. intro Hd. specialize (Hd 0%nat ltac:(cbn; lia)). cbn in Hd. lra.
Qed.
