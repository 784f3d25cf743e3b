(** * Convergence of the recursions for sums of many functions: PPXA, consensus ADMM, generalised proximal gradient *)
From Coq Require Import Psatz.
From Verif Require Import Base Space Spec ConvexFacts Smooth VSum M_ProxOp SpecOps M_Multi SplitMath P_Split3 P_Multi P_Multi2 P_Multi3 Compact Fejer IterMath IterMath2.
Open Scope R_scope.

Lemma RS_cv m (h : nat -> nat -> R) l : (forall i, (i < m)%nat -> Un_cv (fun k => h k i) (l i)) -> Un_cv (fun k => RS m (h k)) (RS m l).
Proof. induction m as [|m IH]; intro H; cbn [RS]; [apply Un_cv_const|]. apply CV_plus; [apply IH; intros; apply H; lia|apply H; lia]. Qed.
Lemma VS_cv {E : IPS} m (h : nat -> nat -> E) l : (forall i, (i < m)%nat -> vcv (fun k => h k i) (l i)) -> vcv (fun k => VS m (h k)) (VS m l).
Proof. induction m as [|m IH]; intro H; cbn [VS]; [apply vcv_const|]. apply vcv_add; [apply IH; intros; apply H; lia|apply H; lia]. Qed.
Lemma RS_le_one m (h : nat -> R) i : (forall j, (j < m)%nat -> 0 <= h j) -> (i < m)%nat -> h i <= RS m h.
Proof.
  induction m as [|m IH]; intros Hp Hi; [lia|]. cbn [RS]. destruct (Nat.eq_dec i m) as [->|Hne].
  - pose proof (RS_nonneg m h (fun j Hj => Hp j ltac:(lia))). lra.
  - specialize (IH (fun j Hj => Hp j ltac:(lia)) ltac:(lia)). specialize (Hp m ltac:(lia)). lra.
Qed.

(** one common subsequence for finitely many bounded sequences *)
Lemma bw_family {E : IPS} m (u : nat -> nat -> E) (M : nat -> R) : bw E -> (forall k i, (i < m)%nat -> norm (u k i) <= M i) ->
  exists l phi, strict_inc phi /\ forall i, (i < m)%nat -> vcv (fun k => u (phi k) i) (l i).
Proof.
  intros HB. induction m as [|m IH]; intro H; [exists (fun _ => vzero), (fun k => k); split; [intro; lia|intros; lia]|].
  destruct IH as (l & phi & Hp & Hl); [intros; apply H; lia|]. destruct (HB (fun k => u (phi k) m) (M m)) as (a & psi & Hq & Ha); [intro; apply H; lia|].
  exists (fun i => if Nat.eqb i m then a else l i), (fun k => phi (psi k)). split; [apply strict_inc_comp; assumption|]. intros i Hi. destruct (Nat.eqb_spec i m) as [->|Hne]; [exact Ha|].
  apply (vcv_sub (fun k => u (phi k) i) (l i) psi Hq). apply Hl. lia.
Qed.

Lemma fejer_family {E : IPS} m (w : nat -> R) (u : nat -> nat -> E) (Sol : (nat -> E) -> Prop) : bw E -> (forall i, (i < m)%nat -> 0 < w i) ->
  (exists s, Sol s) -> (forall s k, Sol s -> RS m (fun i => w i * norm2 (u (S k) i [-] s i)) <= RS m (fun i => w i * norm2 (u k i [-] s i))) ->
  (forall l phi, strict_inc phi -> (forall i, (i < m)%nat -> vcv (fun k => u (phi k) i) (l i)) -> Sol l) -> exists l, Sol l /\ forall i, (i < m)%nat -> vcv (fun k => u k i) (l i).
Proof.
  intros HB Hw [s Hs] Hf Hcl. set (D := fun s k => RS m (fun i => w i * norm2 (u k i [-] s i))).
  assert (Hpos : forall (s : nat -> E) k i, (i < m)%nat -> 0 <= w i * norm2 (u k i [-] s i)) by (intros; apply Rmult_le_pos; [left; auto|apply norm2_nonneg]).
  assert (HD : forall (s : nat -> E) k i, (i < m)%nat -> w i * norm2 (u k i [-] s i) <= D s k) by (intros s' k i Hi; apply (RS_le_one m (fun i => w i * norm2 (u k i [-] s' i))); auto).
  destruct (bw_family m u (fun i => sqrt (D s 0%nat / w i) + norm (s i)) HB) as (l & phi & Hp & Hl).
  { intros k i Hi. specialize (Hw i Hi). assert (H1 : norm (u k i [-] s i) <= sqrt (D s 0%nat / w i)).
    { apply sqrt_le_1_alt. pose proof (dec_le (D s) (fun j => Hf s j Hs) k) as H. specialize (HD s k i Hi).
      apply (Rmult_le_reg_l (w i)); [exact Hw|]. replace (w i * (D s 0%nat / w i)) with (D s 0%nat) by (field; lra). lra. }
    pose proof (norm_triangle (u k i [-] s i) (s i)) as H2. replace (u k i [-] s i [+] s i) with (u k i) in H2 by vring. lra. }
  exists l. assert (Sl : Sol l) by (eapply Hcl; eauto). split; [exact Sl|].
  assert (HDl : Un_cv (D l) 0).
  { apply (dec_sub _ phi); [intro k; apply Hf; exact Sl|intro k; apply RS_nonneg; auto|exact Hp|]. unfold D. rewrite <- (RS_zero m).
    apply (RS_cv m (fun k i => w i * norm2 (u (phi k) i [-] l i))). intros i Hi. replace 0 with (w i * 0) by ring. apply (CV_mult (fun _ => w i)); [apply Un_cv_const|]. apply vcv_iff2. apply Hl; exact Hi. }
  intros i Hi. apply vcv_iff2. specialize (Hw i Hi). apply (Un_cv_squeeze _ (fun k => / w i * D l k)).
  - intro k. split; [apply norm2_nonneg|]. specialize (HD l k i Hi). apply (Rmult_le_reg_l (w i)); [exact Hw|]. rewrite <- Rmult_assoc, Rinv_r, Rmult_1_l by lra. exact HD.
  - replace 0 with (/ w i * 0) by ring. apply (CV_mult (fun _ => / w i)); [apply Un_cv_const|exact HDl].
Qed.

Lemma vanish_vcv {E : IPS} (r : nat -> E) : Un_cv (fun k => norm2 (r k)) 0 -> vcv r vzero.
Proof. intro H. apply vcv_iff2. eapply Un_cv_ext; [|exact H]. intro k. cbn beta. f_equal. vring. Qed.
Lemma vanish_one m (w : nat -> R) (a : nat -> nat -> R) i : (forall j, (j < m)%nat -> 0 < w j) -> (forall k j, 0 <= a k j) -> Un_cv (fun k => RS m (fun i => w i * a k i)) 0 -> (i < m)%nat -> Un_cv (fun k => a k i) 0.
Proof.
  intros Hw Ha H Hi. pose proof (Hw i Hi) as Hwi. apply (Un_cv_squeeze _ (fun k => / w i * RS m (fun i => w i * a k i))).
  - intro k. split; [apply Ha|]. pose proof (RS_le_one m (fun i => w i * a k i) i (fun j Hj => Rmult_le_pos _ _ (Rlt_le _ _ (Hw j Hj)) (Ha k j)) Hi) as G. cbn beta in G.
    apply (Rmult_le_reg_l (w i)); [exact Hwi|]. rewrite <- Rmult_assoc, Rinv_r, Rmult_1_l by lra. exact G.
  - replace 0 with (/ w i * 0) by ring. apply (CV_mult (fun _ => / w i)); [apply Un_cv_const|exact H].
Qed.

Section M.
Context {E : IPS} (HB : bw E) (m : nat).

Lemma ppxa_cv (f : nat -> efun E) (w : nat -> R) tau eta (T : nat -> E -> E) (xs : nat -> E) (ys : nat -> nat -> E) :
  (forall i, (i < m)%nat -> convex (f i)) -> (forall i, (i < m)%nat -> 0 < w i) -> RS m w = 1 -> 0 < tau -> 0 < eta < 2 ->
  (forall i y, (i < m)%nat -> is_prox (f i) (tau / w i) y (T i y)) -> (forall k, xs k = VS m (fun i => w i [*] ys k i)) ->
  (forall k i, (i < m)%nat -> ys (S k) i = ys k i [+] eta [*] (2 [*] VS m (fun i => w i [*] T i (ys k i)) [-] xs k [-] T i (ys k i))) ->
  (exists xo v, sum_kkt m f xo v) -> exists xl v, sum_kkt m f xl v /\ vcv xs xl.
Proof.
  intros Hc Hw Sw Ht He HT Hx Hy (xo & vo & Ho).
  set (pn := fun k => VS m (fun i => w i [*] T i (ys k i))). set (r := fun k i => 2 [*] pn k [-] xs k [-] T i (ys k i)).
  set (Sol := fun s : nat -> E => exists x v, sum_kkt m f x v /\ forall i, (i < m)%nat -> s i = x [+] (tau / w i) [*] v i).
  assert (Hd : forall (s : nat -> E) k, Sol s -> RS m (fun i => w i * norm2 (ys (S k) i [-] s i)) + eta * (2 - eta) * RS m (fun i => w i * norm2 (r k i)) <= RS m (fun i => w i * norm2 (ys k i [-] s i))).
  { intros s k (x & v & [Hv Hv0] & Hs). pose proof (ppxa_fejer m f w tau eta (xs k) (ys k) (fun i => T i (ys k i)) (ys (S k)) x v Hc Hw Sw Ht ltac:(lra) (Hx k) (fun i Hi => HT i _ Hi) Hv Hv0) as H. cbv zeta in H.
    rewrite (RS_ext m (fun i => w i * norm2 (ys (S k) i [-] s i)) (fun i => w i * norm2 (ys k i [+] eta [*] (2 [*] VS m (fun i => w i [*] T i (ys k i)) [-] xs k [-] T i (ys k i)) [-] (x [+] (tau / w i) [*] v i)))) by (intros i Hi; rewrite Hy, Hs; auto).
    rewrite (RS_ext m (fun i => w i * norm2 (ys k i [-] s i)) (fun i => w i * norm2 (ys k i [-] (x [+] (tau / w i) [*] v i)))) by (intros i Hi; rewrite Hs; auto). exact H. }
  set (so := fun i => xo [+] (tau / w i) [*] vo i). assert (So : Sol so) by (exists xo, vo; split; [exact Ho|reflexivity]).
  assert (Hpos : forall (a : nat -> E), 0 <= RS m (fun i => w i * norm2 (a i))) by (intro a; apply RS_nonneg; intros; apply Rmult_le_pos; [left; auto|apply norm2_nonneg]).
  assert (Hr : forall i, (i < m)%nat -> Un_cv (fun k => norm2 (r k i)) 0).
  { intros i Hi. apply (vanish_one m w (fun k i => norm2 (r k i)) i Hw); [intros; apply norm2_nonneg| |exact Hi].
    apply (drop_vanish (fun k => RS m (fun i => w i * norm2 (ys k i [-] so i))) _ (eta * (2 - eta))); [apply Rmult_lt_0_compat; lra|intro k; apply (Hpos (fun i => ys k i [-] so i))|intro k; apply (Hpos (r k))|intro k; apply Hd; exact So]. }
  destruct (fejer_family m w ys Sol HB Hw (ex_intro _ so So)) as (l & (xl & v & Hk & Hs) & Hl).
  - intros s k Hs. specialize (Hd s k Hs). pose proof (Hpos (r k)). assert (0 <= eta * (2 - eta) * RS m (fun i => w i * norm2 (r k i))) by (apply Rmult_le_pos; [apply Rmult_le_pos; lra|assumption]). lra.
  - intros l phi Hp Hl. set (xl := VS m (fun i => w i [*] l i)). set (q := fun i => T i (l i)). set (qn := VS m (fun i => w i [*] q i)).
    assert (Lq : forall i, (i < m)%nat -> vcv (fun k => T i (ys (phi k) i)) (q i)).
    { intros i Hi. apply (prox_continuous (f i) (tau / w i) (fun k => ys (phi k) i) _ (l i)); [auto|apply Rdiv_lt_0_compat; auto|apply HT; exact Hi|intro k; apply HT; exact Hi|auto]. }
    assert (Lx : vcv (fun k => xs (phi k)) xl). { apply (vcv_ext (fun k => VS m (fun i => w i [*] ys (phi k) i))); [intro; symmetry; apply Hx|]. apply (VS_cv m (fun k i => w i [*] ys (phi k) i)). intros i Hi. apply vcv_scal. auto. }
    assert (Lp : vcv (fun k => pn (phi k)) qn) by (apply (VS_cv m (fun k i => w i [*] T i (ys (phi k) i))); intros i Hi; apply vcv_scal; auto).
    assert (Hq : forall i, (i < m)%nat -> q i = 2 [*] qn [-] xl).
    { intros i Hi. symmetry. apply vsub_eq. apply (vcv_unique (fun k => r (phi k) i)).
      - unfold r. apply vcv_minus; [apply vcv_minus; [apply vcv_scal; exact Lp|exact Lx]|apply Lq; exact Hi].
      - apply (vcv_sub (fun k => r k i) vzero phi Hp). apply vanish_vcv. apply Hr. exact Hi. }
    assert (Hqn : qn = xl).
    { assert (H : qn = 2 [*] qn [-] xl). { unfold qn at 1. rewrite (VS_ext m _ (fun i => w i [*] (2 [*] qn [-] xl))) by (intros; rewrite Hq; auto). rewrite VS_wconst, Sw. vring. }
      apply (f_equal (fun z => 2 [*] qn [-] z)) in H. replace (2 [*] qn [-] (2 [*] qn [-] xl)) with xl in H by vring. rewrite <- H. vring. }
    exists xl, (fun i => / (tau / w i) [*] (l i [-] xl)). split; [split|].
    + intros i Hi. pose proof (Hw i Hi) as Hwi. assert (Hti : 0 < tau / w i) by (apply Rdiv_lt_0_compat; auto). pose proof (prox_subgrad (f i) (tau / w i) _ _ (Hc i Hi) Hti (HT i (l i) Hi)) as Hg. fold (q i) in Hg. rewrite (Hq i Hi), Hqn in Hg.
      replace (2 [*] xl [-] xl) with xl in Hg by vring. exact Hg.
    + rewrite (VS_ext m _ (fun i => / tau [*] (w i [*] l i [-] w i [*] xl))) by (intros i Hi; specialize (Hw i Hi); vfield; lra). rewrite VS_scal, VS_sub, VS_wconst, Sw. fold xl. vring.
    + intros i Hi. specialize (Hw i Hi). vfield. lra.
  - exists xl, v. split; [exact Hk|]. apply (vcv_ext (fun k => VS m (fun i => w i [*] ys k i))); [intro; symmetry; apply Hx|].
    replace xl with (VS m (fun i => w i [*] l i)); [apply (VS_cv m (fun k i => w i [*] ys k i)); intros i Hi; apply vcv_scal; auto|].
    rewrite (VS_ext m _ (fun i => w i [*] xl [+] tau [*] v i)) by (intros i Hi; rewrite (Hs i Hi); specialize (Hw i Hi); vfield; lra).
    rewrite VS_add, VS_wconst, VS_scal, Sw, (proj2 Hk). vring.
Qed.

Lemma consensus_cv (f : nat -> efun E) tau (T : nat -> E -> E) (xs : nat -> E) (ys : nat -> nat -> E) :
  (forall i, (i < m)%nat -> convex (f i)) -> (0 < m)%nat -> 0 < tau ->
  (forall i y, (i < m)%nat -> is_prox (f i) tau y (T i y)) -> (forall k, VS m (ys k) = vzero) ->
  (forall k i, (i < m)%nat -> ys (S k) i = ys k i [+] T i (xs k [-] ys k i) [-] xs (S k)) ->
  (exists xo v, sum_kkt m f xo v) -> exists xl v, sum_kkt m f xl v /\ vcv xs xl.
Proof.
  intros Hc Hm Ht HT H0 Hy (xo & vo & Ho). assert (HIm : 0 < INR m) by (apply lt_0_INR; auto).
  set (u := fun k i => if Nat.eqb i m then xs k else ys k i). set (w := fun i => if Nat.eqb i m then INR m else 1).
  assert (Um : forall k, u k m = xs k) by (intro; unfold u; rewrite Nat.eqb_refl; reflexivity). assert (Wm : w m = INR m) by (unfold w; rewrite Nat.eqb_refl; reflexivity).
  assert (Ui : forall k i, (i < m)%nat -> u k i = ys k i) by (intros k i Hi; unfold u; destruct (Nat.eqb_spec i m); [lia|reflexivity]).
  assert (Wi : forall i, (i < m)%nat -> w i = 1) by (intros i Hi; unfold w; destruct (Nat.eqb_spec i m); [lia|reflexivity]).
  assert (Hw : forall i, (i < S m)%nat -> 0 < w i) by (intros i Hi; unfold w; destruct (Nat.eqb_spec i m); lra).
  set (Sol := fun s : nat -> E => exists v, sum_kkt m f (s m) v /\ forall i, (i < m)%nat -> s i = vopp (tau [*] v i)).
  assert (HR : forall a b : nat -> E, RS (S m) (fun i => w i * norm2 (a i [-] b i)) = RS m (fun i => norm2 (a i [-] b i)) + INR m * norm2 (a m [-] b m)).
  { intros a b. cbn [RS]. rewrite Wm. f_equal. apply RS_ext. intros i Hi. rewrite Wi by auto. ring. }
  assert (Hd : forall (s : nat -> E) k, Sol s -> RS (S m) (fun i => w i * norm2 (u (S k) i [-] s i)) + 1 * RS (S m) (fun i => w i * norm2 (u (S k) i [-] u k i)) <= RS (S m) (fun i => w i * norm2 (u k i [-] s i))).
  { intros s k (v & Hv & Hs). pose proof (consensus_fejer m f tau (xs k) (ys k) (fun i => T i (xs k [-] ys k i)) (ys (S k)) (xs (S k)) (s m) v Hc Ht (fun i Hi => HT i _ Hi) (fun i Hi => Hy k i Hi) (H0 k) (H0 (S k)) Hv) as H.
    rewrite !HR, !Um.
    rewrite (RS_ext m (fun i => norm2 (u (S k) i [-] s i)) (fun i => norm2 (ys (S k) i [+] tau [*] v i))) by (intros i Hi; rewrite Ui, Hs by auto; f_equal; vring).
    rewrite (RS_ext m (fun i => norm2 (u k i [-] s i)) (fun i => norm2 (ys k i [+] tau [*] v i))) by (intros i Hi; rewrite Ui, Hs by auto; f_equal; vring).
    rewrite (RS_ext m (fun i => norm2 (u (S k) i [-] u k i)) (fun i => norm2 (ys (S k) i [-] ys k i))) by (intros i Hi; rewrite !Ui by auto; reflexivity). lra. }
  set (so := fun i => if Nat.eqb i m then xo else vopp (tau [*] vo i)). assert (So : Sol so).
  { exists vo. unfold so at 1. rewrite Nat.eqb_refl. split; [exact Ho|]. intros i Hi. unfold so. destruct (Nat.eqb_spec i m); [lia|reflexivity]. }
  assert (Hpos : forall (a : nat -> E), 0 <= RS (S m) (fun i => w i * norm2 (a i))) by (intro a; apply RS_nonneg; intros; apply Rmult_le_pos; [left; auto|apply norm2_nonneg]).
  assert (Hv : forall i, (i < S m)%nat -> Un_cv (fun k => norm2 (u (S k) i [-] u k i)) 0).
  { intros i Hi. apply (vanish_one (S m) w (fun k i => norm2 (u (S k) i [-] u k i)) i Hw); [intros; apply norm2_nonneg| |exact Hi].
    apply (drop_vanish (fun k => RS (S m) (fun i => w i * norm2 (u k i [-] so i))) _ 1); [lra|intro k; apply (Hpos (fun i => u k i [-] so i))|intro k; apply (Hpos (fun i => u (S k) i [-] u k i))|intro k; apply Hd; exact So]. }
  destruct (fejer_family (S m) w u Sol HB Hw (ex_intro _ so So)) as (l & (v & Hk & Hs) & Hl).
  - intros s k Hs. specialize (Hd s k Hs). pose proof (Hpos (fun i => u (S k) i [-] u k i)). cbn beta in *. lra.
  - intros l phi Hp Hl.
    assert (Lx : vcv (fun k => xs (phi k)) (l m)) by (apply (vcv_ext (fun k => u (phi k) m)); [intro; apply Um|apply Hl; lia]).
    assert (Ly : forall i, (i < m)%nat -> vcv (fun k => ys (phi k) i) (l i)) by (intros i Hi; apply (vcv_ext (fun k => u (phi k) i)); [intro; apply Ui; exact Hi|apply Hl; lia]).
    assert (Lx' : vcv (fun k => xs (S (phi k))) (l m)).
    { apply (vcv_close (fun k => xs (phi k))); [exact Lx|]. apply (Un_cv_sub (fun k => norm2 (xs (S k) [-] xs k)) 0 phi Hp). eapply Un_cv_ext; [|exact (Hv m ltac:(lia))]. intro k. cbn beta. rewrite !Um. reflexivity. }
    assert (Hq : forall i, (i < m)%nat -> T i (l m [-] l i) = l m).
    { intros i Hi. apply (vcv_unique (fun k => T i (xs (phi k) [-] ys (phi k) i))).
      - apply (prox_continuous (f i) tau (fun k => xs (phi k) [-] ys (phi k) i) _ (l m [-] l i)); [auto|auto|apply HT; exact Hi|intro k; apply HT; exact Hi|apply vcv_minus; auto].
      - apply (vcv_close (fun k => xs (S (phi k)))); [exact Lx'|]. apply (Un_cv_sub (fun k => norm2 (T i (xs k [-] ys k i) [-] xs (S k))) 0 phi Hp).
        eapply Un_cv_ext; [|exact (Hv i ltac:(lia))]. intro k. cbn beta. rewrite !Ui by auto. rewrite Hy by auto. f_equal. vring. }
    exists (fun i => / tau [*] vopp (l i)). split; [split|].
    + intros i Hi. pose proof (prox_subgrad (f i) tau _ _ (Hc i Hi) Ht (HT i (l m [-] l i) Hi)) as Hg. rewrite (Hq i Hi) in Hg. replace (l m [-] l i [-] l m) with (vopp (l i)) in Hg by vring. exact Hg.
    + rewrite (VS_ext m _ (fun i => (- / tau) [*] l i)) by (intros; vring). rewrite VS_scal. replace (VS m l) with (vzero : E); [vring|].
      apply (vcv_unique (fun k => VS m (ys (phi k)))); [|apply VS_cv; exact Ly]. apply (vcv_ext (fun _ => vzero)); [intro; symmetry; apply H0|apply vcv_const].
    + intros i Hi. vfield. lra.
  - exists (l m), v. split; [exact Hk|]. apply (vcv_ext (fun k => u k m)); [exact Um|apply Hl; lia].
Qed.

Lemma grad_lip (F : E -> R) dF L x y : 0 < L -> smooth_convex F dF L -> norm (dF y [-] dF x) <= L * norm (y [-] x).
Proof.
  intros HL Hs. pose proof (cocoercive F dF L x y HL Hs) as H. pose proof (CS_abs (dF y [-] dF x) (y [-] x)) as C. pose proof (Rle_abs (<< dF y [-] dF x, y [-] x >>)) as A.
  pose proof (norm_nonneg (dF y [-] dF x)) as Hn. pose proof (norm_nonneg (y [-] x)) as Hm. rewrite <- norm_sq in H.
  assert (H1 : norm (dF y [-] dF x) * norm (dF y [-] dF x) <= norm (dF y [-] dF x) * (L * norm (y [-] x))).
  { eapply Rle_trans; [exact H|]. replace (norm (dF y [-] dF x) * (L * norm (y [-] x))) with (L * (norm (dF y [-] dF x) * norm (y [-] x))) by ring. apply Rmult_le_compat_l; lra. }
  destruct (Req_dec (norm (dF y [-] dF x)) 0) as [->|Hne]; [apply Rmult_le_pos; lra|]. apply (Rmult_le_reg_l (norm (dF y [-] dF x))); lra.
Qed.

Lemma gpg_cv (g : nat -> efun E) (F : E -> R) dF L (w eps : nat -> R) tau eta (T : nat -> E -> E) (xs : nat -> E) (zs : nat -> nat -> E) :
  (forall i, (i < m)%nat -> convex (g i)) -> 0 < L -> smooth_convex F dF L -> (forall i, (i < m)%nat -> 0 < w i) -> RS m w = 1 ->
  (forall i, (i < m)%nat -> 0 < eps i) -> 0 < tau -> 0 < eta < 2 - tau * L / 2 ->
  (forall i y, (i < m)%nat -> is_prox (g i) (tau * eps i / w i) y (T i y)) -> (forall k, xs k = VS m (fun i => w i [*] zs k i)) ->
  (forall k i, (i < m)%nat -> zs (S k) i = zs k i [+] eta [*] (T i (2 [*] xs k [-] zs k i [-] tau [*] dF (xs k)) [-] xs k)) ->
  (exists xo v, gpg_kkt m g dF eps xo v) -> exists xl v, gpg_kkt m g dF eps xl v /\ vcv xs xl.
Proof.
  intros Hc HL HF Hw Sw He Ht Heta HT Hx Hz (xo & vo & Ho).
  set (p := fun k i => T i (2 [*] xs k [-] zs k i [-] tau [*] dF (xs k))). set (cc := eta * (2 - eta - tau * L / 2)). assert (Hcc : 0 < cc) by (apply Rmult_lt_0_compat; lra).
  set (Sol := fun s : nat -> E => exists x v, gpg_kkt m g dF eps x v /\ forall i, (i < m)%nat -> s i = x [-] tau [*] dF x [-] (tau * eps i / w i) [*] v i).
  assert (Hd : forall (s : nat -> E) k, Sol s -> RS m (fun i => w i * norm2 (zs (S k) i [-] s i)) + cc * RS m (fun i => w i * norm2 (p k i [-] xs k)) <= RS m (fun i => w i * norm2 (zs k i [-] s i))).
  { intros s k (x & v & Hk & Hs). pose proof (gpg_fejer m g F dF L w eps tau eta (xs k) (zs k) (p k) (zs (S k)) x v Hc HL HF Hw Sw He Ht ltac:(lra) (Hx k) (fun i Hi => HT i _ Hi) (fun i Hi => Hz k i Hi) Hk) as H. cbv zeta in H. fold cc in H.
    rewrite (RS_ext m (fun i => w i * norm2 (zs (S k) i [-] s i)) (fun i => w i * norm2 (zs (S k) i [-] (x [-] tau [*] dF x [-] (tau * eps i / w i) [*] v i)))) by (intros i Hi; rewrite Hs; auto).
    rewrite (RS_ext m (fun i => w i * norm2 (zs k i [-] s i)) (fun i => w i * norm2 (zs k i [-] (x [-] tau [*] dF x [-] (tau * eps i / w i) [*] v i)))) by (intros i Hi; rewrite Hs; auto). exact H. }
  set (so := fun i => xo [-] tau [*] dF xo [-] (tau * eps i / w i) [*] vo i). assert (So : Sol so) by (exists xo, vo; split; [exact Ho|reflexivity]).
  assert (Hpos : forall (a : nat -> E), 0 <= RS m (fun i => w i * norm2 (a i))) by (intro a; apply RS_nonneg; intros; apply Rmult_le_pos; [left; auto|apply norm2_nonneg]).
  assert (Hr : forall i, (i < m)%nat -> Un_cv (fun k => norm2 (p k i [-] xs k)) 0).
  { intros i Hi. apply (vanish_one m w (fun k i => norm2 (p k i [-] xs k)) i Hw); [intros; apply norm2_nonneg| |exact Hi].
    apply (drop_vanish (fun k => RS m (fun i => w i * norm2 (zs k i [-] so i))) _ cc Hcc); [intro k; apply (Hpos (fun i => zs k i [-] so i))|intro k; apply (Hpos (fun i => p k i [-] xs k))|intro k; apply Hd; exact So]. }
  destruct (fejer_family m w zs Sol HB Hw (ex_intro _ so So)) as (l & (xl & v & Hk & Hs) & Hl).
  - intros s k Hs. specialize (Hd s k Hs). pose proof (Hpos (fun i => p k i [-] xs k)) as Hp. cbn beta in Hp. assert (0 <= cc * RS m (fun i => w i * norm2 (p k i [-] xs k))) by (apply Rmult_le_pos; lra). lra.
  - intros l phi Hp Hl. set (xl := VS m (fun i => w i [*] l i)).
    assert (Lx : vcv (fun k => xs (phi k)) xl). { apply (vcv_ext (fun k => VS m (fun i => w i [*] zs (phi k) i))); [intro; symmetry; apply Hx|]. apply (VS_cv m (fun k i => w i [*] zs (phi k) i)). intros i Hi. apply vcv_scal. auto. }
    assert (Lg : vcv (fun k => dF (xs (phi k))) (dF xl)) by (apply (vcv_map dF L); [exact HL|intros a b; apply (grad_lip F dF L b a HL HF)|exact Lx]).
    assert (Hti : forall i, (i < m)%nat -> 0 < tau * eps i / w i) by (intros i Hi; apply Rdiv_lt_0_compat; [apply Rmult_lt_0_compat; auto|auto]).
    assert (Hq : forall i, (i < m)%nat -> T i (2 [*] xl [-] l i [-] tau [*] dF xl) = xl).
    { intros i Hi. apply (vcv_unique (fun k => p (phi k) i)).
      - apply (prox_continuous (g i) (tau * eps i / w i) (fun k => 2 [*] xs (phi k) [-] zs (phi k) i [-] tau [*] dF (xs (phi k))) _ (2 [*] xl [-] l i [-] tau [*] dF xl)); [auto|auto|apply HT; exact Hi|intro k; apply HT; exact Hi|].
        apply vcv_minus; [apply vcv_minus; [apply vcv_scal; exact Lx|apply Hl; exact Hi]|apply vcv_scal; exact Lg].
      - apply (vcv_close (fun k => xs (phi k))); [exact Lx|]. apply (Un_cv_sub (fun k => norm2 (p k i [-] xs k)) 0 phi Hp). apply Hr. exact Hi. }
    exists xl, (fun i => / (tau * eps i / w i) [*] (xl [-] l i [-] tau [*] dF xl)). split; [split|].
    + intros i Hi. pose proof (prox_subgrad (g i) _ _ _ (Hc i Hi) (Hti i Hi) (HT i (2 [*] xl [-] l i [-] tau [*] dF xl) Hi)) as Hg. rewrite (Hq i Hi) in Hg.
      replace (2 [*] xl [-] l i [-] tau [*] dF xl [-] xl) with (xl [-] l i [-] tau [*] dF xl) in Hg by vring. exact Hg.
    + rewrite (VS_ext m _ (fun i => / tau [*] (w i [*] (xl [-] tau [*] dF xl) [-] w i [*] l i))) by (intros i Hi; specialize (Hw i Hi); specialize (He i Hi); vfield; repeat split; lra).
      rewrite VS_scal, VS_sub, VS_wconst, Sw. fold xl. vfield. lra.
    + intros i Hi. specialize (Hw i Hi). specialize (He i Hi). vfield. repeat split; lra.
  - exists xl, v. split; [exact Hk|]. apply (vcv_ext (fun k => VS m (fun i => w i [*] zs k i))); [intro; symmetry; apply Hx|].
    replace xl with (VS m (fun i => w i [*] l i)); [apply (VS_cv m (fun k i => w i [*] zs k i)); intros i Hi; apply vcv_scal; auto|].
    rewrite (VS_ext m _ (fun i => w i [*] (xl [-] tau [*] dF xl) [-] tau [*] (eps i [*] v i))) by (intros i Hi; rewrite (Hs i Hi); specialize (Hw i Hi); vfield; lra).
    rewrite VS_sub, VS_wconst, VS_scal, Sw. pose proof (proj2 Hk) as H2. replace (VS m (fun i => eps i [*] v i)) with ((-1) [*] dF xl); [vring|]. symmetry. apply vsub_eq. rewrite <- H2. vring.
Qed.
End M.
