(** * Fejer monotone sequences; loops as infinite sequences; closed graph of the proximal map *)
From Coq Require Import Psatz.
From Verif Require Import Base Space Spec ConvexFacts VSum MatFacts M_ProxOp SpecOps M_Loop LoopFacts SeqConv Compact.
Open Scope result_scope.
Open Scope R_scope.

(** ** a loop whose body never breaks, for every number of iterations at once *)
Lemma loop_seq {S} (body : nat -> S -> result (S * bool)) (Inv : nat -> S -> Prop) (Rel : nat -> S -> S -> Prop) s0 :
  Inv 0%nat s0 -> (forall j s, Inv j s -> exists s', body j s = Ok (s', false) /\ Rel j s s' /\ Inv (Datatypes.S j) s') ->
  exists st : nat -> S, st 0%nat = s0 /\ (forall n, for_loop body n 0 s0 = Ok (st n, n)) /\ (forall j, Inv j (st j)) /\ forall j, Rel j (st j) (st (Datatypes.S j)).
Proof.
  intros H0 Hb. set (st := fix st n := match n with O => s0 | Datatypes.S m => match body m (st m) with Ok p => fst p | Err _ => st m end end).
  assert (HI : forall j, Inv j (st j)). { induction j as [|j IH]; [exact H0|]. cbn [st]. destruct (Hb j (st j) IH) as (s' & -> & _ & H). exact H. }
  assert (HS : forall j, body j (st j) = Ok (st (Datatypes.S j), false)). { intro j. cbn [st]. destruct (Hb j (st j) (HI j)) as (s' & -> & _ & _). reflexivity. }
  exists st. split; [reflexivity|]. split; [|split; [exact HI|]].
  - assert (G : forall m i, for_loop body m i (st i) = Ok (st (i + m)%nat, (i + m)%nat)).
    { induction m as [|m IH]; intro i; cbn [for_loop]; [rewrite Nat.add_0_r; reflexivity|]. rewrite HS. cbn [bind fst snd]. rewrite IH. replace (Datatypes.S i + m)%nat with (i + Datatypes.S m)%nat by lia. reflexivity. }
    intro n. exact (G n 0%nat).
  - intro j. destruct (Hb j (st j) (HI j)) as (s' & E1 & H & _). rewrite HS in E1. replace (st (Datatypes.S j)) with s' by congruence. exact H.
Qed.
Lemma trace_seq {S X} (st : nat -> S) (gettr : S -> list X) (entry : nat -> X) :
  gettr (st 0%nat) = [] -> (forall j, gettr (st (Datatypes.S j)) = gettr (st j) ++ [entry j]) -> forall n, gettr (st n) = map entry (seq 0 n).
Proof. intros H0 HS n. induction n as [|n IH]; [exact H0|]. rewrite HS, IH, seq_S, map_app. reflexivity. Qed.

(** ** convergence *)
Lemma Un_cv_const c : Un_cv (fun _ => c) c.
Proof. intros eps He. exists 0%nat. intros. unfold R_dist. rewrite Rminus_eq_0, Rabs_R0. exact He. Qed.
Lemma Un_cv_ext u v l : (forall k, u k = v k) -> Un_cv u l -> Un_cv v l.
Proof. intros H Hu eps He. destruct (Hu eps He) as [N HN]. exists N. intros k Hk. rewrite <- H. auto. Qed.
Lemma dec_sub (V : nat -> R) phi : (forall k, V (S k) <= V k) -> (forall k, 0 <= V k) -> strict_inc phi -> Un_cv (fun k => V (phi k)) 0 -> Un_cv V 0.
Proof.
  intros Hd Hp Hs Hv eps He. destruct (Hv eps He) as [N HN]. exists (phi N). intros k Hk. specialize (HN N ltac:(lia)). unfold R_dist in *. rewrite Rminus_0_r in *.
  rewrite Rabs_right in * by (apply Rle_ge; auto). eapply Rle_lt_trans; [|exact HN].
  assert (G : forall a b, (a <= b)%nat -> V b <= V a). { intros a b Hab. induction Hab as [|b Hab IH]; [lra|]. specialize (Hd b). lra. }
  apply G. exact Hk.
Qed.
Lemma Un_cv_squeeze u v : (forall k, 0 <= u k <= v k) -> Un_cv v 0 -> Un_cv u 0.
Proof.
  intros H Hv eps He. destruct (Hv eps He) as [N HN]. exists N. intros k Hk. specialize (HN k Hk). specialize (H k). unfold R_dist in *. rewrite Rminus_0_r in *.
  rewrite Rabs_right in * by lra. lra.
Qed.
Lemma vanish_cv a : (forall j, 0 <= a j) -> (forall eps, 0 < eps -> exists N, forall n, (N <= n)%nat -> a n < eps) -> Un_cv a 0.
Proof. intros Ha H eps He. destruct (H eps He) as [N HN]. exists N. intros n Hn. unfold R_dist. rewrite Rminus_0_r, Rabs_right by (apply Rle_ge; auto). apply HN. exact Hn. Qed.
(** telescoping: a non-negative potential that decreases by a_k makes a_k vanish *)
Lemma drop_vanish (V a : nat -> R) c : 0 < c -> (forall k, 0 <= V k) -> (forall k, 0 <= a k) -> (forall k, V (S k) + c * a k <= V k) -> Un_cv a 0.
Proof.
  intros Hc HV Ha Hd. apply vanish_cv; [exact Ha|]. apply (summable_vanish a (V 0%nat / c)); [exact Ha|]. intro n.
  assert (G : V n + c * RS n a <= V 0%nat). { induction n as [|n IH]; [cbn [RS]; lra|]. cbn [RS]. specialize (Hd n). lra. }
  specialize (HV n). apply (Rmult_le_reg_l c); [exact Hc|]. unfold Rdiv. replace (c * (V 0%nat * / c)) with (V 0%nat) by (field; lra). lra.
Qed.
Lemma dec_le (V : nat -> R) : (forall k, V (S k) <= V k) -> forall k, V k <= V 0%nat.
Proof. intros H k. induction k as [|k IH]; [lra|]. specialize (H k). lra. Qed.
Section V.
Context {E : IPS}.
Implicit Types (u : nat -> E) (l : E).
Lemma vcv_iff2 u l : vcv u l <-> Un_cv (fun k => norm2 (u k [-] l)) 0.
Proof.
  split; intros H eps He.
  - destruct (H (Rmin eps 1)) as [N HN]; [apply Rmin_glb_lt; lra|]. exists N. intros k Hk. specialize (HN k Hk). unfold R_dist. rewrite Rminus_0_r, Rabs_right by (apply Rle_ge, norm2_nonneg).
    rewrite <- norm_sq. pose proof (norm_nonneg (u k [-] l)). pose proof (Rmin_l eps 1). pose proof (Rmin_r eps 1).
    apply Rle_lt_trans with (norm (u k [-] l) * 1); [apply Rmult_le_compat_l; lra|lra].
  - destruct (H (eps * eps)) as [N HN]; [nra|]. exists N. intros k Hk. specialize (HN k Hk). unfold R_dist in HN. rewrite Rminus_0_r, Rabs_right in HN by (apply Rle_ge, norm2_nonneg). apply norm_small; assumption.
Qed.
Lemma vcv_sub u l phi : strict_inc phi -> vcv u l -> vcv (fun k => u (phi k)) l.
Proof. intros Hs H eps He. destruct (H eps He) as [N HN]. exists N. intros k Hk. apply HN. pose proof (strict_inc_ge phi Hs k). lia. Qed.
Lemma vcv_shift u l : vcv u l -> vcv (fun k => u (S k)) l.
Proof. intro H. apply (vcv_sub u l S); [intro k; lia|exact H]. Qed.
Lemma vcv_unshift u l : vcv (fun k => u (S k)) l -> vcv u l.
Proof. intros H eps He. destruct (H eps He) as [N HN]. exists (S N). intros k Hk. destruct k as [|k]; [lia|]. apply HN. lia. Qed.
Lemma vcv_const l : vcv (fun _ => l) l.
Proof. intros eps He. exists 0%nat. intros. rewrite vsub_diag. unfold norm. rewrite norm2_zero, sqrt_0. exact He. Qed.
Lemma vcv_ext u v l : (forall k, u k = v k) -> vcv u l -> vcv v l.
Proof. intros H Hu eps He. destruct (Hu eps He) as [N HN]. exists N. intros k Hk. rewrite <- H. auto. Qed.
Lemma vcv_add u v l m : vcv u l -> vcv v m -> vcv (fun k => u k [+] v k) (l [+] m).
Proof.
  intros Hu Hv eps He. destruct (Hu (eps / 2) ltac:(lra)) as [N1 H1]. destruct (Hv (eps / 2) ltac:(lra)) as [N2 H2]. exists (Nat.max N1 N2). intros k Hk.
  specialize (H1 k ltac:(lia)). specialize (H2 k ltac:(lia)). replace (u k [+] v k [-] (l [+] m)) with ((u k [-] l) [+] (v k [-] m)) by vring.
  pose proof (norm_triangle (u k [-] l) (v k [-] m)). lra.
Qed.
Lemma norm_scal (c : R) (x : E) : norm (c [*] x) = Rabs c * norm x.
Proof.
  unfold norm. rewrite norm2_scal. replace (c * c) with (Rabs c * Rabs c) by (rewrite <- Rabs_mult; apply Rabs_right; nra).
  rewrite sqrt_mult; [|pose proof (Rabs_pos c); nra|apply norm2_nonneg]. rewrite sqrt_square by apply Rabs_pos. reflexivity.
Qed.
Lemma vcv_scal c u l : vcv u l -> vcv (fun k => c [*] u k) (c [*] l).
Proof.
  intro H. apply (vcv_map (fun x : E => c [*] x) (Rabs c + 1)); [pose proof (Rabs_pos c); lra| |exact H]. intros v w.
  replace (c [*] v [-] c [*] w) with (c [*] (v [-] w)) by vring. rewrite norm_scal. pose proof (norm_nonneg (v [-] w)). lra.
Qed.
Lemma vcv_minus u v l m : vcv u l -> vcv v m -> vcv (fun k => u k [-] v k) (l [-] m).
Proof.
  intros Hu Hv. apply (vcv_ext (fun k => u k [+] (-1) [*] v k)); [intro k; vring|]. replace (l [-] m) with (l [+] (-1) [*] m) by vring. apply vcv_add; [exact Hu|]. apply vcv_scal. exact Hv.
Qed.
(** two sequences whose difference vanishes have the same limit *)
Lemma vcv_close u v l : vcv u l -> Un_cv (fun k => norm2 (v k [-] u k)) 0 -> vcv v l.
Proof.
  intros Hu Hd. assert (Hz : vcv (fun k => v k [-] u k) vzero). { apply vcv_iff2. eapply Un_cv_ext; [|exact Hd]. intro k. cbn beta. f_equal. vring. }
  apply (vcv_ext (fun k => u k [+] (v k [-] u k))); [intro k; vring|]. replace l with (l [+] vzero) by vring. apply vcv_add; assumption.
Qed.
Lemma vcv_nonexp {F : IPS} (T : E -> F) u l : (forall v w, norm (T v [-] T w) <= norm (v [-] w)) -> vcv u l -> vcv (fun k => T (u k)) (T l).
Proof. intros HT H. apply (vcv_map T 1); [lra| |exact H]. intros v w. rewrite Rmult_1_l. apply HT. Qed.

(** closed graph of the proximal map *)
Lemma prox_limit (f : efun E) tau u v l m : convex f -> 0 < tau -> (exists p, is_prox f tau l p) -> (forall k : nat, is_prox f tau (u k) (v k)) -> vcv u l -> vcv v m -> is_prox f tau l m.
Proof.
  intros Hc Ht [p Hp] Hk Hu Hv. replace m with p; [exact Hp|]. eapply vcv_unique; [|exact Hv].
  intros eps He. destruct (Hu eps He) as [N HN]. exists N. intros k Hkn. eapply Rle_lt_trans; [|apply (HN k Hkn)]. exact (prox_nonexp f tau (u k) l (v k) p Hc Ht (Hk k) Hp).
Qed.
Lemma prox_continuous (f : efun E) tau u v l p : convex f -> 0 < tau -> is_prox f tau l p -> (forall k : nat, is_prox f tau (u k) (v k)) -> vcv u l -> vcv v p.
Proof.
  intros Hc Ht Hp Hk Hu eps He. destruct (Hu eps He) as [N HN]. exists N. intros k Hkn. eapply Rle_lt_trans; [|apply (HN k Hkn)]. exact (prox_nonexp f tau (u k) l (v k) p Hc Ht (Hk k) Hp).
Qed.

(** Fejer monotone sequences converge as soon as their cluster points are in the target set *)
Lemma fejer_cv u (Sol : E -> Prop) : bw E -> (exists s, Sol s) -> (forall s k, Sol s -> norm2 (u (S k) [-] s) <= norm2 (u k [-] s)) ->
  (forall l phi, strict_inc phi -> vcv (fun k => u (phi k)) l -> Sol l) -> exists l, Sol l /\ vcv u l.
Proof.
  intros HB [s Hs] Hf Hc. destruct (HB u (norm (u 0%nat [-] s) + norm s)) as (l & phi & Hi & Hl).
  { intro k. assert (H1 : norm (u k [-] s) <= norm (u 0%nat [-] s)). { apply sqrt_le_1_alt. apply (dec_le (fun k => norm2 (u k [-] s))). intro j. apply Hf. exact Hs. }
    pose proof (norm_triangle (u k [-] s) s) as H2. replace (u k [-] s [+] s) with (u k) in H2 by vring. lra. }
  exists l. assert (Sl : Sol l) by (eapply Hc; eauto). split; [exact Sl|]. apply vcv_iff2. apply (dec_sub _ phi); [intro k; apply Hf; exact Sl|intro; apply norm2_nonneg|exact Hi|].
  apply vcv_iff2 in Hl. exact Hl.
Qed.
End V.

(** ** spaces with the Bolzano-Weierstrass property *)
Lemma bw_R : bw R_IPS.
Proof.
  intros u M H. destruct (bw_real u M) as (l & phi & Hp & Hl).
  { intro k. specialize (H k). unfold norm, norm2 in H. cbn [inner R_IPS] in H. change (sqrt (Rsqr (u k)) <= M) in H. rewrite sqrt_Rsqr_abs in H. exact H. }
  exists l, phi. split; [exact Hp|]. intros eps He. destruct (Hl eps He) as [N HN]. exists N. intros k Hk. specialize (HN k Hk). unfold R_dist in HN.
  unfold norm, norm2. cbn [inner R_IPS]. change (sqrt (Rsqr ((u (phi k) : R_IPS) [-] l)) < eps). rewrite sqrt_Rsqr_abs.
  replace ((u (phi k) : R_IPS) [-] l) with (u (phi k) - l); [exact HN|]. unfold vsub. cbn [vadd vscal R_IPS]. ring.
Qed.
Lemma bw_prod (E F : IPS) : bw E -> bw F -> bw (Prod_IPS E F).
Proof.
  intros HE HF u M H.
  assert (H1 : forall k, norm (fst (u k)) <= M /\ norm (snd (u k)) <= M).
  { intro k. specialize (H k). unfold norm, norm2 in *. cbn [inner Prod_IPS] in H. pose proof (norm2_nonneg (fst (u k))). pose proof (norm2_nonneg (snd (u k))). unfold norm2 in *.
    split; (eapply Rle_trans; [|exact H]); apply sqrt_le_1_alt; lra. }
  destruct (HE (fun k => fst (u k)) M (fun k => proj1 (H1 k))) as (l & phi & Hp & Hl).
  destruct (HF (fun k => snd (u (phi k))) M (fun k => proj2 (H1 (phi k)))) as (m & psi & Hq & Hm).
  exists (l, m), (fun k => phi (psi k)). split; [apply strict_inc_comp; assumption|]. apply vcv_iff2.
  apply vcv_iff2 in Hm. apply (vcv_sub _ _ psi Hq) in Hl. apply vcv_iff2 in Hl. pose proof (CV_plus _ _ _ _ Hl Hm) as HS. rewrite Rplus_0_r in HS. exact HS.
Qed.
Lemma bw_pow (E : IPS) n : bw E -> bw (Pow E n).
Proof.
  intro HE. induction n as [|n IH].
  - intros u M _. exists (vzero : Pow E 0), (fun k => k). split; [intro k; lia|]. apply vcv_iff2. apply (Un_cv_ext (fun _ => 0)); [|apply Un_cv_const]. intro k.
    unfold norm2. cbn [inner Pow]. destruct (u k) as [l Hl]. destruct l; [reflexivity|discriminate].
  - intros u M H.
    set (hd := fun k => nth 0 (proj1_sig (u k)) (vzero : E)).
    assert (Htl : forall k, List.length (tl (proj1_sig (u k))) = n) by (intro k; destruct (u k) as [l Hl]; simpl; destruct l; simpl in *; lia).
    set (tail := fun k => exist _ (tl (proj1_sig (u k))) (Htl k) : Pow E n).
    assert (Hu : forall k, proj1_sig (u k) = hd k :: proj1_sig (tail k)) by (intro k; unfold hd, tail; simpl; destruct (u k) as [l Hl]; simpl; destruct l; [discriminate|reflexivity]).
    assert (N2 : forall k, norm2 (u k) = norm2 (hd k) + norm2 (tail k)) by (intro k; unfold norm2; cbn [inner Pow]; rewrite Hu; reflexivity).
    assert (H1 : forall k, norm (hd k) <= M /\ norm (tail k) <= M).
    { intro k. specialize (H k). unfold norm in *. rewrite N2 in H. pose proof (norm2_nonneg (hd k)). pose proof (norm2_nonneg (tail k)).
      split; (eapply Rle_trans; [|exact H]); apply sqrt_le_1_alt; lra. }
    destruct (HE hd M (fun k => proj1 (H1 k))) as (l & phi & Hp & Hl).
    destruct (IH (fun k => tail (phi k)) M (fun k => proj2 (H1 (phi k)))) as (m & psi & Hq & Hm).
    assert (Hc : List.length (l :: proj1_sig m) = S n) by (destruct m as [m0 Hm0]; simpl; lia).
    exists (exist _ (l :: proj1_sig m) Hc : Pow E (S n)), (fun k => phi (psi k)). split; [apply strict_inc_comp; assumption|]. apply vcv_iff2.
    apply vcv_iff2 in Hm. apply (vcv_sub _ _ psi Hq) in Hl. apply vcv_iff2 in Hl. pose proof (CV_plus _ _ _ _ Hl Hm) as HS. rewrite Rplus_0_r in HS. eapply Un_cv_ext; [|exact HS].
    intro k. cbn beta. unfold norm2. cbn [inner Pow vsub vadd vscal proj1_sig]. rewrite Hu. reflexivity.
Qed.
