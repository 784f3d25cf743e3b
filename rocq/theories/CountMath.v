(** * Iterations of non-expansive maps with summable errors converge *)
From Coq Require Import Psatz.
From Verif Require Import Base Space Spec ConvexFacts Smooth VSum M_ProxOp SpecOps SplitMath P_PG P_PG2 P_PG3 P_Multi3 Compact Fejer IterMath MatFacts S_Inexact InexactMath S_Count.
Open Scope R_scope.

Lemma RS_S n (e : nat -> R) : RS (S n) e = RS n e + e n.
Proof.
  revert e. induction n as [|n IH]; intro e; [rewrite RS_shift; cbn; ring|]. rewrite RS_shift, IH, (RS_shift n). ring.
Qed.
Lemma summable_tail e : summable e -> exists r, Un_cv r 0 /\ forall N, 0 <= r N /\ forall n, RS (N + n) e - RS N e <= r N.
Proof.
  intros [H0 [B HB]].
  destruct (growing_cv (fun n => RS n e)) as [l Hl].
  - intro n. rewrite RS_S. pose proof (H0 n). lra.
  - exists B. intros x [n ->]. apply HB.
  - assert (Hle : forall n, RS n e <= l). { apply growing_ineq; [intro n; rewrite RS_S; pose proof (H0 n); lra|exact Hl]. }
    exists (fun N => l - RS N e). split.
    + intros eps He. destruct (Hl eps He) as [N HN]. exists N. intros n Hn. specialize (HN n Hn). unfold R_dist in *. rewrite Rminus_0_r, Rabs_minus_sym in *. rewrite Rabs_minus_sym. exact HN.
    + intro N. split; [pose proof (Hle N); lra|]. intro n. pose proof (Hle (N + n)%nat). lra.
Qed.
Lemma summable_zero : summable (fun _ => 0).
Proof. split; [intros; lra|]. exists 0. intro n. rewrite RS_zero. lra. Qed.
Lemma summable_le e e' : (forall k, 0 <= e' k <= e k) -> summable e -> summable e'.
Proof. intros H [_ [B HB]]. split; [intro k; apply H|]. exists B. intro n. eapply Rle_trans; [|apply (HB n)]. apply RS_le. intros i _. apply H. Qed.
Lemma summable_add e e' : summable e -> summable e' -> summable (fun k => e k + e' k).
Proof. intros [H [B HB]] [H' [B' HB']]. split; [intro k; pose proof (H k); pose proof (H' k); lra|]. exists (B + B'). intro n. rewrite RS_add. pose proof (HB n). pose proof (HB' n). lra. Qed.
Lemma summable_scal c e : 0 <= c -> summable e -> summable (fun k => c * e k).
Proof. intros Hc [H [B HB]]. split; [intro k; apply Rmult_le_pos; auto|]. exists (c * B). intro n. rewrite RS_scal. apply Rmult_le_compat_l; auto. Qed.
Lemma summable_shift e : summable e -> summable (fun k => e (S k)).
Proof. intros [H [B HB]]. split; [intro k; apply H|]. exists B. intro n. pose proof (HB (S n)) as G. rewrite RS_shift in G. pose proof (H 0%nat). lra. Qed.

Section P.
Context {E : IPS} (HB : bw E).
Implicit Types (T : E -> E) (xs : nat -> E).

Definition nonexp T : Prop := forall x y, norm (T x [-] T y) <= norm (x [-] y).
Definition settles T : Prop := forall us : nat -> E, (forall k, us (S k) = T (us k)) -> exists l, T l = l /\ vcv us l.

Lemma pert_dist T xs e N : nonexp T -> (forall k, norm (xs (S k) [-] T (xs k)) <= e k) -> forall n, norm (xs (N + n)%nat [-] Nat.iter n T (xs N)) <= RS (N + n) e - RS N e.
Proof.
  intros HT He. induction n as [|n IH].
  - rewrite Nat.add_0_r. cbn [Nat.iter nat_rect]. replace (xs N [-] xs N) with (vzero : E) by vring. rewrite norm_zero. lra.
  - rewrite Nat.add_succ_r, RS_S. change (Nat.iter (S n) T (xs N)) with (T (Nat.iter n T (xs N))). pose proof (He (N + n)%nat). pose proof (HT (xs (N + n)%nat) (Nat.iter n T (xs N))).
    pose proof (tri3 (xs (S (N + n))) (T (xs (N + n)%nat)) (T (Nat.iter n T (xs N)))). lra.
Qed.

Lemma perturbed_cv T xs e : nonexp T -> settles T -> summable e -> (forall k, norm (xs (S k) [-] T (xs k)) <= e k) -> exists l, T l = l /\ vcv xs l.
Proof.
  intros HT HS He Hx. destruct (summable_tail e He) as (r & Hr & Hrt).
  assert (Hd : forall N n, norm (xs (N + n)%nat [-] Nat.iter n T (xs N)) <= r N) by (intros N n; eapply Rle_trans; [apply (pert_dist T xs e N HT Hx)|apply Hrt]).
  assert (Hl : forall N, exists lN, T lN = lN /\ vcv (fun n => Nat.iter n T (xs N)) lN) by (intro N; apply HS; intro k; reflexivity).
  assert (Hb : exists M, forall k, norm (xs k) <= M).
  { destruct (Hl 0%nat) as (l0 & F0 & _). exists (r 0%nat + norm (xs 0%nat [-] l0) + norm l0). intro n. pose proof (Hd 0%nat n) as H1. cbn [Nat.add] in H1.
    assert (H2 : norm (Nat.iter n T (xs 0%nat) [-] l0) <= norm (xs 0%nat [-] l0)).
    { clear H1. induction n as [|n IH]; [apply Rle_refl|]. change (Nat.iter (S n) T (xs 0%nat)) with (T (Nat.iter n T (xs 0%nat))). rewrite <- F0 at 1. eapply Rle_trans; [apply HT|exact IH]. }
    pose proof (tri3 (xs n) (Nat.iter n T (xs 0%nat)) l0). replace (xs n) with ((xs n [-] l0) [+] l0) at 1 by vring. pose proof (norm_triangle (xs n [-] l0) l0). lra. }
  destruct Hb as [M HM]. destruct (HB xs M HM) as (l & phi & Hphi & Hsub).
  assert (Hnear : forall N lN, T lN = lN -> vcv (fun n => Nat.iter n T (xs N)) lN -> norm (l [-] lN) <= r N).
  { intros N lN _ Hc. apply Rnot_lt_le. intro Hlt. set (g := (norm (l [-] lN) - r N) / 2). assert (Hg : 0 < g) by (unfold g; lra).
    destruct (Hsub g Hg) as [K1 HK1]. destruct (Hc g Hg) as [K2 HK2]. set (k := (K1 + N + K2)%nat). pose proof (strict_inc_ge phi Hphi k) as Hk.
    assert (Hpk : phi k = (N + (phi k - N))%nat) by (unfold k in *; lia). specialize (HK1 k ltac:(unfold k; lia)). cbv beta in HK1. specialize (HK2 (phi k - N)%nat ltac:(unfold k in *; lia)). cbv beta in HK2.
    pose proof (Hd N (phi k - N)%nat) as H3. rewrite <- Hpk in H3. pose proof (tri3 l (xs (phi k)) lN). pose proof (tri3 (xs (phi k)) (Nat.iter (phi k - N) T (xs N)) lN). rewrite (norm_sub_sym l (xs (phi k))) in *. unfold g in *. lra. }
  exists l. split.
  - cut (T l [-] l = vzero). { intro H. replace (T l) with ((T l [-] l) [+] l) by vring. rewrite H. vring. }
    apply norm_eq0. apply Rle_antisym; [|apply norm_nonneg]. apply Rnot_lt_le. intro Hlt. destruct (Hr (norm (T l [-] l) / 2) ltac:(lra)) as [N HN]. specialize (HN N (Nat.le_refl N)). unfold R_dist in HN. rewrite Rminus_0_r in HN.
    rewrite Rabs_right in HN by (apply Rle_ge, Hrt). destruct (Hl N) as (lN & FN & CN). pose proof (Hnear N lN FN CN) as H1. pose proof (HT l lN) as H2. rewrite FN in H2. pose proof (tri3 (T l) lN l). rewrite (norm_sub_sym lN l) in *. lra.
  - intros eps Heps. destruct (Hr (eps / 3) ltac:(lra)) as [N HN]. specialize (HN N (Nat.le_refl N)). unfold R_dist in HN. rewrite Rminus_0_r in HN.
    rewrite Rabs_right in HN by (apply Rle_ge, Hrt). destruct (Hl N) as (lN & FN & CN). pose proof (Hnear N lN FN CN) as H1. destruct (CN (eps / 3) ltac:(lra)) as [K HK]. exists (N + K)%nat. intros k Hk.
    specialize (HK (k - N)%nat ltac:(lia)). cbv beta in HK. pose proof (Hd N (k - N)%nat) as H3. replace (N + (k - N))%nat with k in H3 by lia.
    pose proof (tri3 (xs k) (Nat.iter (k - N) T (xs N)) l). pose proof (tri3 (Nat.iter (k - N) T (xs N)) lN l). rewrite (norm_sub_sym lN l) in *. lra.
Qed.

(** ** the maps behind the solvers *)
Lemma norm_le_of2 (a b : E) : norm2 a <= norm2 b -> norm a <= norm b.
Proof. intro H. unfold norm. apply sqrt_le_1_alt. exact H. Qed.

Lemma pg_nonexp (fv : E -> R) df L g e tau eta x p y q : smooth_convex fv df L -> 0 < L -> convex g -> 0 < e -> 0 < tau -> 0 < eta <= 2 - tau * L / 2 ->
  is_prox g (e * tau) (x [-] tau [*] df x) p -> is_prox g (e * tau) (y [-] tau [*] df y) q ->
  norm ((x [+] eta [*] (p [-] x)) [-] (y [+] eta [*] (q [-] y))) <= norm (x [-] y).
Proof.
  intros Hs HL Hg He Ht Hn Hp Hz. assert (Het : 0 < e * tau) by (apply Rmult_lt_0_compat; assumption). apply norm_le_of2.
  pose proof (prox_firm g (e * tau) _ _ _ _ Hg Het Hp Hz) as H1. pose proof (cocoercive fv df L y x HL Hs) as H2.
  set (r := (p [-] x) [-] (q [-] y)). set (w := x [-] y) in *. set (d := df x [-] df y) in *.
  replace (p [-] q) with (r [+] w) in H1 by (unfold r, w; vring). replace (x [-] tau [*] df x [-] (y [-] tau [*] df y)) with (w [-] tau [*] d) in H1 by (unfold w, d; vring).
  replace (x [+] eta [*] (p [-] x) [-] (y [+] eta [*] (q [-] y))) with (w [+] eta [*] r) by (unfold w, r; vring).
  assert (H3 : 0 <= norm2 (d [+] (L / 2) [*] r)) by apply norm2_nonneg.
  assert (E3 : norm2 (d [+] (L / 2) [*] r) = norm2 d + L * << d, r >> + L * L / 4 * norm2 r) by (unfold norm2; inner_lin_all; rewrite (inner_sym r d); field).
  assert (E1 : << r [+] w, w [-] tau [*] d >> - norm2 (r [+] w) = - norm2 r - << r, w >> - tau * << d, r >> - tau * << d, w >>) by (unfold norm2; inner_lin_all; rewrite (inner_sym r d), (inner_sym w d), (inner_sym w r); ring).
  assert (E2 : norm2 (w [+] eta [*] r) = norm2 w + 2 * eta * << r, w >> + eta * eta * norm2 r) by (unfold norm2; inner_lin_all; rewrite (inner_sym w r); ring).
  rewrite E2. rewrite E3 in H3.
  assert (K : << r, w >> <= - norm2 r + tau * L / 4 * norm2 r).
  { assert (H4 : 0 <= tau * (L * << d, w >> + L * << d, r >> + L * L / 4 * norm2 r)) by (apply Rmult_le_pos; lra).
    assert (H5 : 0 <= tau * (<< d, w >> + << d, r >> + L / 4 * norm2 r)).
    { apply (Rmult_le_reg_l L); [exact HL|]. rewrite Rmult_0_r. replace (L * (tau * (<< d, w >> + << d, r >> + L / 4 * norm2 r))) with (tau * (L * << d, w >> + L * << d, r >> + L * L / 4 * norm2 r)) by field. exact H4. }
    lra. }
  apply (Rmult_le_compat_l (2 * eta)) in K; [|lra]. assert (0 <= eta * (2 - tau * L / 2 - eta) * norm2 r). { apply Rmult_le_pos; [apply Rmult_le_pos; lra|apply norm2_nonneg]. } lra.
Qed.

(** an exact proximal map given as a function *)
Definition pmap (P : E -> E) (g : efun E) (t : R) : Prop := forall x, is_prox g t x (P x).

Lemma pg_pert (fv : E -> R) df L g e tau eta P xs er : convex (etot fv) -> 0 < L -> L_smooth fv df L -> convex g -> 0 < e -> 0 < tau -> 0 < eta < 2 - tau * L / 2 ->
  pmap P g (e * tau) -> summable er -> (forall j, norm (xs (S j) [-] (xs j [+] eta [*] (P (xs j [-] tau [*] df (xs j)) [-] xs j))) <= er j) ->
  (exists m, is_min (eadd (etot fv) (escal e g)) m) -> exists l, is_min (eadd (etot fv) (escal e g)) l /\ vcv xs l.
Proof.
  intros Hc HL Hs Hg He Ht Hn HP Her Hx Hm. pose proof (L_smooth_convex fv df L Hc Hs) as Hsc. set (T := fun x => x [+] eta [*] (P (x [-] tau [*] df x) [-] x)).
  assert (Fix : forall x, T x = x -> is_min (eadd (etot fv) (escal e g)) x).
  { intros x Fx. apply (pg_fix_min fv df L g x e tau); auto. assert (P (x [-] tau [*] df x) = x).
    { unfold T in Fx. replace (P (x [-] tau [*] df x)) with (x [+] / eta [*] ((x [+] eta [*] (P (x [-] tau [*] df x) [-] x)) [-] x)) by (vext w; field; lra). rewrite Fx. vring. }
    pose proof (HP (x [-] tau [*] df x)) as Q. rewrite H in Q. exact Q. }
  destruct (perturbed_cv T xs er) as (l & Fl & Hl); auto.
  - intros x y. apply (pg_nonexp fv df L g e tau eta); auto; lra.
  - intros us Hus. destruct (pg_cv HB fv df L g e tau eta us (fun k => P (us k [-] tau [*] df (us k)))) as (l & Hl & Hv); auto; [intro x; exists (P x); apply HP|intro j; split; [apply HP|apply Hus]|].
    exists l. split; [|exact Hv]. apply (pg_fix_min fv df L g l e tau) in Hl; auto. unfold T. rewrite (prox_unique g (e * tau) _ _ _ Hg (Rmult_lt_0_compat _ _ He Ht) (HP _) Hl). vring.
  - exists l. split; [apply Fix; exact Fl|exact Hl].
Qed.

Lemma prox_ne (g : efun E) t P : convex g -> 0 < t -> pmap P g t -> nonexp P.
Proof. intros Hg Ht HP x y. pose proof (prox_lip_convex g t Hg Ht x y (P x) (P y) (HP x) (HP y)). lra. Qed.

Lemma dr_pert f g tau eta Pf Pg xs ps ys a b : convex f -> convex g -> 0 < tau -> 0 < eta < 2 -> pmap Pf f tau -> pmap Pg g tau -> summable a -> summable b ->
  (forall j, norm (xs j [-] Pg (ys j)) <= a j /\ norm (ps j [-] Pf (2 [*] xs j [-] ys j)) <= b j /\ ys (S j) = ys j [+] eta [*] (ps j [-] xs j)) ->
  (exists x u, kkt f g x u) -> exists l u, kkt f g l u /\ vcv xs l /\ vcv ps l /\ vcv ys (l [-] tau [*] u).
Proof.
  intros Hf Hg Ht He HPf HPg Ha Hb Hr Hk. set (T := fun y => y [+] eta [*] (Pf (2 [*] Pg y [-] y) [-] Pg y)).
  assert (NT : nonexp T).
  { intros x y. unfold T. pose proof (dr_exact g f tau eta 1 1 y x (Pg y) (Pg x) (Pf (2 [*] Pg y [-] y)) (Pf (2 [*] Pg x [-] x)) (refl_lip_convex g tau Hg Ht) (refl_lip_convex f tau Hf Ht) ltac:(lra) ltac:(lra) ltac:(lra) (HPg y) (HPg x) (HPf _) (HPf _)) as H.
    rewrite (Rabs_right (1 - eta / 2)) in H by lra. lra. }
  destruct (perturbed_cv T ys (fun k => eta * (3 * a k + b k))) as (y & Fy & Hy); auto.
  - intros us Hus. destruct (dr_cv HB f g tau eta (fun k => Pg (us k)) (fun k => Pf (2 [*] Pg (us k) [-] us k)) us) as (l & u & Kl & Hlx & Hly); auto; [intro x; exists (Pf x); apply HPf|intro x; exists (Pg x); apply HPg|intro j; split; [apply HPg|split; [apply HPf|apply Hus]]|].
    exists (l [-] tau [*] u). split; [|exact Hly]. destruct (kkt_dr_fix f g tau l u Ht Kl) as [A B]. unfold T. rewrite (prox_unique g tau _ _ _ Hg Ht (HPg _) A). rewrite (prox_unique f tau _ _ _ Hf Ht (HPf _) B). vring.
  - apply summable_scal; [lra|]. apply summable_add; [|exact Hb]. apply summable_scal; [lra|exact Ha].
  - intro k. destruct (Hr k) as (A & B & ->). unfold T. replace (ys k [+] eta [*] (ps k [-] xs k) [-] (ys k [+] eta [*] (Pf (2 [*] Pg (ys k) [-] ys k) [-] Pg (ys k)))) with (eta [*] ((ps k [-] Pf (2 [*] Pg (ys k) [-] ys k)) [-] (xs k [-] Pg (ys k)))) by vring.
    rewrite norm_scal, Rabs_right by lra. apply Rmult_le_compat_l; [lra|].
    pose proof (prox_ne f tau Pf Hf Ht HPf (2 [*] xs k [-] ys k) (2 [*] Pg (ys k) [-] ys k)) as H. replace (2 [*] xs k [-] ys k [-] (2 [*] Pg (ys k) [-] ys k)) with (2 [*] (xs k [-] Pg (ys k))) in H by vring. rewrite norm_scal, (Rabs_right 2) in H by lra.
    pose proof (tri3 (ps k) (Pf (2 [*] xs k [-] ys k)) (Pf (2 [*] Pg (ys k) [-] ys k))). 
    replace ((ps k [-] Pf (2 [*] Pg (ys k) [-] ys k)) [-] (xs k [-] Pg (ys k))) with ((ps k [-] Pf (2 [*] Pg (ys k) [-] ys k)) [+] (-1) [*] (xs k [-] Pg (ys k))) by vring. eapply Rle_trans; [apply norm_triangle|]. rewrite norm_scal, (Rabs_left (-1)) by lra. lra.
  - assert (Hq : Pf (2 [*] Pg y [-] y) = Pg y). { unfold T in Fy. replace (Pf (2 [*] Pg y [-] y)) with (Pg y [+] / eta [*] ((y [+] eta [*] (Pf (2 [*] Pg y [-] y) [-] Pg y)) [-] y)) by (vext w; field; lra). rewrite Fy. vring. }
    set (x := Pg y) in *. assert (Hx : vcv xs x).
    { apply (vcv_close (fun k => Pg (ys k))); [apply (vcv_nonexp Pg ys y); [apply (prox_ne g tau); auto|exact Hy]|].
      assert (Hz : Un_cv a 0). { destruct (summable_tail a Ha) as (r & Hr0 & Hrt). apply (Un_cv_squeeze a r); [|exact Hr0]. intro k. split; [apply Ha|]. pose proof (proj2 (Hrt k) 1%nat) as G. rewrite Nat.add_1_r, RS_S in G. lra. }
      apply (Un_cv_squeeze _ (fun k => a k * a k)).
      - intro k. split; [apply norm2_nonneg|]. destruct (Hr k) as (A & _). rewrite <- norm_sq. apply Rmult_le_compat; auto; apply norm_nonneg.
      - replace 0 with (0 * 0) by ring. apply CV_mult; exact Hz. }
    exists x, (/ tau [*] (x [-] y)). split; [|split; [exact Hx|split]].
    + apply dr_fix_kkt; auto; [apply HPg|]. pose proof (HPf (2 [*] x [-] y)) as Q. rewrite Hq in Q. exact Q.
    + apply (vcv_ext (fun k => xs k [+] / eta [*] (ys (S k) [-] ys k))).
      * intro k. destruct (Hr k) as (_ & _ & ->). vext w; field; lra.
      * replace x with (x [+] / eta [*] (y [-] y)) by vring. apply vcv_add; [exact Hx|]. apply vcv_scal. apply vcv_minus; [apply vcv_shift; exact Hy|exact Hy].
    + replace (x [-] tau [*] (/ tau [*] (x [-] y))) with y by (vext w; field; lra). exact Hy.
Qed.

Lemma summable_cv e : summable e -> Un_cv e 0.
Proof.
  intro H. destruct (summable_tail e H) as (r & Hr0 & Hrt). apply (Un_cv_squeeze e r); [|exact Hr0]. intro k. split; [apply H|]. pose proof (proj2 (Hrt k) 1%nat) as G. rewrite Nat.add_1_r, RS_S in G. lra.
Qed.

Lemma hqs_pert f g tau Pf Pg xs zs a b : convex f -> convex g -> 0 < tau -> pmap Pf f tau -> pmap Pg g tau -> summable a -> summable b ->
  (forall j, norm (zs (S j) [-] Pg (xs j)) <= a j /\ norm (xs (S j) [-] Pf (zs (S j))) <= b j) ->
  (exists x z, hqs_min f g tau x z) -> exists x z, hqs_min f g tau x z /\ vcv xs x /\ vcv zs z.
Proof.
  intros Hf Hg Ht HPf HPg Ha Hb Hr Hk. set (T := fun x => Pf (Pg x)).
  pose proof (prox_ne f tau Pf Hf Ht HPf) as Nf. pose proof (prox_ne g tau Pg Hg Ht HPg) as Ng.
  destruct (perturbed_cv T xs (fun k => a k + b k)) as (x & Fx & Hx).
  - intros u v. unfold T. eapply Rle_trans; [apply Nf|apply Ng].
  - intros us Hus. destruct (hqs_cv HB f g tau us (fun k => match k with O => vzero | S j => Pg (us j) end)) as (x & z & Hm & Lx & Lz); auto; [intro u; exists (Pf u); apply HPf|intro u; exists (Pg u); apply HPg| |].
    + intro j. split; [apply HPg|]. rewrite Hus. apply HPf.
    + exists x. split; [|exact Lx]. apply hqs_min_fix in Hm as [A B]; auto. unfold T. rewrite (prox_unique g tau _ _ _ Hg Ht (HPg x) A). apply (prox_unique f tau _ _ _ Hf Ht (HPf z) B).
  - apply summable_add; auto.
  - intro k. destruct (Hr k) as [A B]. unfold T. pose proof (tri3 (xs (S k)) (Pf (zs (S k))) (Pf (Pg (xs k)))). pose proof (Nf (zs (S k)) (Pg (xs k))). lra.
  - exists x, (Pg x). split; [apply hqs_min_fix; auto; split; [apply HPg|]; unfold T in Fx; pose proof (HPf (Pg x)) as Q; rewrite Fx in Q; exact Q|]. split; [exact Hx|].
    apply vcv_unshift. apply (vcv_close (fun k => Pg (xs k))); [apply (vcv_nonexp Pg xs x Ng Hx)|].
    apply (Un_cv_squeeze _ (fun k => a k * a k)).
    + intro k. split; [apply norm2_nonneg|]. destruct (Hr k) as (A & _). rewrite <- norm_sq. apply Rmult_le_compat; auto; apply norm_nonneg.
    + replace 0 with (0 * 0) by ring. apply CV_mult; apply summable_cv; exact Ha.
Qed.
End P.
