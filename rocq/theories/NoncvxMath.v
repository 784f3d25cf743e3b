(** * Descent and limit points of splitting recursions without convexity *)
From Coq Require Import Psatz.
From Verif Require Import Base Space Spec ConvexFacts Smooth VSum M_ProxOp SpecOps S_Seq Compact Fejer S_Exist ExistMath P_Exist S_Breg2 P_Breg2 S_Noncvx.
Open Scope R_scope.

Section M.
Context {E : IPS}.
Implicit Types (g h : efun E).
Lemma norm2_opp_nc (x : E) : norm2 (vopp x) = norm2 x.
Proof. unfold norm2. rewrite inner_opp_l, inner_opp_r. ring. Qed.
Lemma Rinv2_pos tau : 0 < tau -> 0 < / (2 * tau).
Proof. intro. apply Rinv_0_lt_compat. lra. Qed.
Lemma Un_cv_le u l c : Un_cv u l -> l <= c -> forall eps, 0 < eps -> exists N, forall n, (N <= n)%nat -> u n <= c + eps.
Proof. intros Hu Hl eps He. destruct (Hu eps He) as [N HN]. exists N. intros n Hn. specialize (HN n Hn). unfold R_dist in HN. apply Rabs_def2 in HN. lra. Qed.
Lemma Un_cv_scal c u l : Un_cv u l -> Un_cv (fun k => c * u k) (c * l).
Proof. intro H. apply (CV_mult (fun _ => c) u c l); [apply Un_cv_const|exact H]. Qed.

Lemma Un_cv_inv (t : nat -> R) tau : 0 < tau -> (forall k, 0 < t k) -> Un_cv t tau -> Un_cv (fun k => / t k) (/ tau).
Proof.
  intros Ht Htk Htc.
  intros eps He. set (d := Rmin (tau / 2) (eps * (tau * tau) / 2)). assert (Hd : 0 < d). { apply Rmin_pos; [lra|]. assert (0 < tau * tau) by (apply Rmult_lt_0_compat; auto). assert (0 < eps * (tau * tau)) by (apply Rmult_lt_0_compat; auto). lra. }
  destruct (Htc d Hd) as [N HN]. exists N. intros k Hk. specialize (HN k Hk). unfold R_dist in *. specialize (Htk k). pose proof (Rmin_l (tau / 2) (eps * (tau * tau) / 2)) as D1. pose proof (Rmin_r (tau / 2) (eps * (tau * tau) / 2)) as D2. fold d in D1, D2.
  apply Rabs_def2 in HN. assert (Q : tau / 2 < t k) by lra. assert (0 < tau * tau) by (apply Rmult_lt_0_compat; auto).
  assert (P : 0 < t k * tau) by (apply Rmult_lt_0_compat; auto). assert (P2 : tau * tau / 2 <= t k * tau) by nra.
  replace (/ t k - / tau) with ((tau - t k) * / (t k * tau)) by (field; lra). rewrite Rabs_mult, (Rabs_right (/ _)) by (left; apply Rinv_0_lt_compat; auto).
  apply (Rmult_lt_reg_r (t k * tau)); [auto|]. rewrite Rmult_assoc, Rinv_l, Rmult_1_r by lra.
  assert (Rabs (tau - t k) < d) by (apply Rabs_def1; lra). assert (eps * (tau * tau / 2) <= eps * (t k * tau)) by (apply Rmult_le_compat_l; lra). lra.
Qed.
Lemma vcv_scal2 (t : nat -> R) tau (u : nat -> E) l : Un_cv t tau -> vcv u l -> vcv (fun k => t k [*] u k) (tau [*] l).
Proof.
  intros Ht Hu. apply (vcv_close (fun k => tau [*] u k)); [apply vcv_scal; exact Hu|].
  assert (D : Un_cv (fun k => t k - tau) 0). { replace 0 with (tau - tau) by ring. apply CV_minus; [exact Ht|apply Un_cv_const]. }
  apply (Un_cv_ext (fun k => ((t k - tau) * (t k - tau)) * norm2 (u k))).
  - intro k. rewrite <- norm2_scal. f_equal. vring.
  - replace 0 with (0 * 0 * norm2 l) by ring. apply CV_mult; [apply CV_mult; exact D|apply vcv_norm2; exact Hu].
Qed.

(** the graph of the proximal map of a closed function is closed *)
Lemma prox_closed g (t : nat -> R) tau u v a b : closed g -> 0 < tau -> (forall k, 0 < t k) -> Un_cv t tau -> (forall k : nat, is_prox g (t k) (u k) (v k)) -> vcv u a -> vcv v b -> is_prox g tau a b.
Proof.
  intros Hc Ht Htk Htc Hp Hu Hv.
  assert (K : forall y, edom g y -> edom g b /\ eval g b <= eval g y + / (2 * tau) * norm2 (y [-] a) - / (2 * tau) * norm2 (b [-] a)).
  { intros y Hy. apply (closed_limit g v b); auto.
    assert (Hti : Un_cv (fun k => / (2 * t k)) (/ (2 * tau))).
    { apply (Un_cv_ext (fun k => / 2 * / t k)); [intro k; specialize (Htk k); field; lra|]. replace (/ (2 * tau)) with (/ 2 * / tau) by (field; lra). apply Un_cv_scal. apply Un_cv_inv; auto. }
    assert (L : Un_cv (fun k => eval g y + / (2 * t k) * norm2 (y [-] u k) - / (2 * t k) * norm2 (v k [-] u k)) (eval g y + / (2 * tau) * norm2 (y [-] a) - / (2 * tau) * norm2 (b [-] a))).
    { apply CV_minus; [apply CV_plus; [apply Un_cv_const|]|]; (apply CV_mult; [exact Hti|]); apply vcv_norm2; apply vcv_minus; auto. apply vcv_const. }
    intros eps He. destruct (Un_cv_le _ _ _ L (Rle_refl _) eps He) as [N HN]. exists N. intros n Hn. specialize (HN n Hn). destruct (Hp n) as [P1 P2]. split; [exact P1|]. specialize (P2 y Hy). lra. }
  destruct (Hp 0%nat) as [P1 _]. split; [apply (K (v 0%nat) P1)|]. intros y Hy. destruct (K y Hy). lra.
Qed.
Lemma prox_closed1 g tau u v a b : closed g -> 0 < tau -> (forall k : nat, is_prox g tau (u k) (v k)) -> vcv u a -> vcv v b -> is_prox g tau a b.
Proof. intros Hc Ht. apply (prox_closed g (fun _ => tau)); auto. apply Un_cv_const. Qed.

Lemma stationary_prox df g t x : 0 < t -> stationary df g t x <-> is_prox g t (x [-] t [*] df x) x.
Proof.
  intro Ht. assert (I : forall y, / (2 * t) * norm2 (y [-] (x [-] t [*] df x)) = / (2 * t) * norm2 (y [-] x) + << df x, y [-] x >> + t / 2 * norm2 (df x)).
  { intro y. replace (y [-] (x [-] t [*] df x)) with ((y [-] x) [+] t [*] df x) by vring. unfold norm2. rewrite !inner_add_l, !inner_add_r, !inner_scal_l, !inner_scal_r, (inner_sym (y [-] x) (df x)). field. lra. }
  split; intros [H1 H2]; (split; [exact H1|]); intros y Hy; specialize (H2 y Hy).
  - rewrite !I. replace (x [-] x) with (vzero : E) by vring. rewrite norm2_zero, inner_zero_r. lra.
  - rewrite !I in H2. replace (x [-] x) with (vzero : E) in H2 by vring. rewrite norm2_zero, inner_zero_r in H2. lra.
Qed.
Lemma prox_escal g e t x p : 0 < e -> 0 < t -> is_prox g (e * t) x p <-> is_prox (escal e g) t x p.
Proof.
  intros He Ht. unfold is_prox. cbn [edom eval escal]. assert (I : forall w, / (2 * t) * w = e * (/ (2 * (e * t)) * w)) by (intro w; field; lra).
  split; intros [H1 H2]; (split; [exact H1|]); intros y Hy; specialize (H2 y Hy).
  - rewrite (I (norm2 (p [-] x))), (I (norm2 (y [-] x))), <- !Rmult_plus_distr_l. apply Rmult_le_compat_l; lra.
  - rewrite (I (norm2 (p [-] x))), (I (norm2 (y [-] x))), <- !Rmult_plus_distr_l in H2. apply (Rmult_le_reg_l e); lra.
Qed.
Lemma df_cv (df : E -> E) L u l : lipschitz L df -> vcv u l -> vcv (fun k => df (u k)) (df l).
Proof.
  intros Hl. apply (vcv_map df (Rabs L + 1)); [pose proof (Rabs_pos L); lra|]. intros v w. eapply Rle_trans; [apply Hl|]. apply Rmult_le_compat_r; [apply norm_nonneg|]. pose proof (Rle_abs L). lra.
Qed.
(** a decreasing sequence bounded below has small steps *)
Lemma small_step (V a : nat -> R) c m : 0 <= c -> (forall k, m <= V k) -> (forall k, V (S k) + c * a k <= V k) -> forall n, (n <> 0)%nat -> exists j, (j < n)%nat /\ c * INR n * a j <= V 0%nat - m.
Proof.
  intros Hc Hm Hd n Hn. assert (G : V n + c * RS n a <= V 0%nat). { clear Hn. induction n as [|n IH]; [cbn [RS]; lra|]. cbn [RS]. specialize (Hd n). lra. }
  assert (M : exists j, (j < n)%nat /\ INR n * a j <= RS n a).
  { clear -Hn. induction n as [|n IH]; [lia|]. destruct n as [|n]; [exists 0%nat; split; [lia|]; cbn [RS INR]; lra|]. destruct (IH ltac:(lia)) as (j & J1 & J2). rewrite S_INR. set (q := S n) in *. assert (0 < INR q) by (apply lt_0_INR; unfold q; lia).
    assert (RQ : RS (S q) a = RS q a + a q) by reflexivity. rewrite RQ. destruct (Rle_dec (a j) (a q)).
    - exists j. split; [lia|]. lra.
    - exists q. split; [lia|]. assert (INR q * a q <= INR q * a j) by (apply Rmult_le_compat_l; lra). lra. }
  destruct M as (j & J1 & J2). exists j. split; [exact J1|]. rewrite Rmult_assoc. specialize (Hm n). apply (Rmult_le_compat_l c) in J2; [|exact Hc]. lra.
Qed.
(** a bounded sequence all of whose limit points satisfy P comes close to P *)
Lemma approach_cluster (P : E -> Prop) (xs : nat -> E) M : bw E -> (forall k, norm (xs k) <= M) -> (forall l, cluster xs l -> P l) -> approaches P xs.
Proof.
  intros HB Hb Hc. destruct (HB xs M Hb) as (l0 & phi0 & H1 & H2). apply (approach_set P xs M); auto; [exists l0; apply Hc; exists phi0; auto|].
  intros phi l Hphi Hl.
  (* phi need not be increasing: thin it out *)
  set (psi := fix psi n := match n with O => O | S m => S (phi (psi m)) end).
  assert (Hs : strict_inc (fun k => phi (psi k))) by (intro k; cbn [psi]; specialize (Hphi (S (phi (psi k)))); lia).
  assert (Hg : forall k, (k <= psi k)%nat) by (intro k; induction k as [|k IH]; [cbn; lia|]; cbn [psi]; specialize (Hphi (psi k)); lia).
  apply Hc. exists (fun k => phi (psi k)). split; [exact Hs|]. intros eps He. destruct (Hl eps He) as [N HN]. exists N. intros k Hk. apply HN. specialize (Hg k). lia.
Qed.

(** ** proximal gradient *)
Section PG.
Variables (f : E -> R) (df : E -> E) (L tau : R) (h : efun E) (xs : nat -> E).
Hypothesis Hf : L_smooth f df L.
Hypothesis Ht : 0 < tau.
Hypothesis HL : tau * L < 1.
Hypothesis Hx : forall k, is_prox h tau (xs k [-] tau [*] df (xs k)) (xs (S k)).
Let c := / (2 * tau) - L / 2.
Lemma pgnc_c : 0 < c.
Proof. unfold c. apply (Rmult_lt_reg_l (2 * tau)); [lra|]. replace (2 * tau * (/ (2 * tau) - L / 2)) with (1 - tau * L) by (field; lra). lra. Qed.
Lemma pgnc_dom k : edom h (xs (S k)).
Proof. apply (Hx k). Qed.
Lemma pgnc_step k : edom h (xs k) -> f (xs (S k)) + eval h (xs (S k)) + c * norm2 (xs (S k) [-] xs k) <= f (xs k) + eval h (xs k).
Proof.
  intro Hd. destruct (Hx k) as [_ H]. specialize (H (xs k) Hd). pose proof (descent_lemma f df L (xs k) (xs (S k)) Hf) as D. set (x := xs k) in *. set (p := xs (S k)) in *.
  assert (I : forall y, / (2 * tau) * norm2 (y [-] (x [-] tau [*] df x)) = / (2 * tau) * norm2 (y [-] x) + << df x, y [-] x >> + tau / 2 * norm2 (df x)).
  { intro y. replace (y [-] (x [-] tau [*] df x)) with ((y [-] x) [+] tau [*] df x) by vring. unfold norm2. rewrite !inner_add_l, !inner_add_r, !inner_scal_l, !inner_scal_r, (inner_sym (y [-] x) (df x)). field. lra. }
  rewrite !I in H. replace (x [-] x) with (vzero : E) in H by vring. rewrite norm2_zero, inner_zero_r in H. unfold c. lra.
Qed.
Lemma pgnc_vanish m : (forall y, edom h y -> m <= f y + eval h y) -> Un_cv (fun k => norm2 (xs (S k) [-] xs k)) 0.
Proof.
  intro Hm. assert (G : Un_cv (fun k => norm2 (xs (S (S k)) [-] xs (S k))) 0).
  { apply (drop_vanish (fun k => f (xs (S k)) + eval h (xs (S k)) - m) _ c pgnc_c); [intro k; specialize (Hm (xs (S k)) (pgnc_dom k)); lra|intro; apply norm2_nonneg|].
    intro k. pose proof (pgnc_step (S k) (pgnc_dom k)). lra. }
  intros eps He. destruct (G eps He) as [N HN]. exists (S N). intros [|k] Hk; [lia|]. apply HN. lia.
Qed.
Lemma pgnc_small m : (forall y, edom h y -> m <= f y + eval h y) -> forall i n, edom h (xs i) -> (n <> 0)%nat -> exists j, (i <= j < i + n)%nat /\ c * INR n * norm2 (xs (S j) [-] xs j) <= f (xs i) + eval h (xs i) - m.
Proof.
  intros Hm i n Hi Hn. assert (D : forall k, edom h (xs (i + k)%nat)) by (intros [|k]; [rewrite Nat.add_0_r; exact Hi|rewrite Nat.add_succ_r; apply pgnc_dom]).
  destruct (small_step (fun k => f (xs (i + k)%nat) + eval h (xs (i + k)%nat)) (fun k => norm2 (xs (S (i + k)) [-] xs (i + k)%nat)) c m) with (n := n) as (j & J1 & J2); auto.
  - left. exact pgnc_c.
  - intro k. rewrite Nat.add_succ_r. apply (pgnc_step (i + k)%nat (D k)).
  - exists (i + j)%nat. split; [lia|]. rewrite Nat.add_0_r in J2. exact J2.
Qed.
Lemma pgnc_cluster l : closed h -> Un_cv (fun k => norm2 (xs (S k) [-] xs k)) 0 -> cluster xs l -> stationary df h tau l.
Proof.
  intros Hc Hv (phi & Hp & Hl). apply stationary_prox; [exact Ht|].
  apply (prox_closed1 h tau (fun k => xs (phi k) [-] tau [*] df (xs (phi k))) (fun k => xs (S (phi k)))); auto.
  - apply vcv_minus; [exact Hl|]. apply vcv_scal. destruct Hf as [_ HH]. apply (df_cv df L (fun k => xs (phi k)) l HH Hl).
  - apply (vcv_close (fun k => xs (phi k))); [exact Hl|]. apply (Un_cv_sub (fun k => norm2 (xs (S k) [-] xs k)) 0 phi Hp Hv).
Qed.
Lemma pgnc_bounded : level_bounded (eadd (etot f) h) -> exists M, forall k, norm (xs k) <= M.
Proof.
  intro Hl. destruct (Hl (f (xs 1%nat) + eval h (xs 1%nat))) as [M HM].
  assert (D : forall k, f (xs (S k)) + eval h (xs (S k)) <= f (xs 1%nat) + eval h (xs 1%nat)).
  { induction k as [|k IH]; [lra|]. pose proof (pgnc_step (S k) (pgnc_dom k)). assert (0 <= c * norm2 (xs (S (S k)) [-] xs (S k))) by (apply Rmult_le_pos; [left; apply pgnc_c|apply norm2_nonneg]). lra. }
  exists (Rmax M (norm (xs 0%nat))). intros [|k]; [apply Rmax_r|]. eapply Rle_trans; [|apply Rmax_l]. apply HM; [split; [exact I|apply pgnc_dom]|]. cbn [eval eadd etot]. apply D.
Qed.
End PG.

(** ** two blocks, exact alternating minimisation of f(x) + g(z) + |x-z|^2/(2 tau) *)
Section AM.
Variables (f g : efun E) (tau : R) (xs zs : nat -> E).
Hypothesis Ht : 0 < tau.
Hypothesis Hx : forall k, is_prox f tau (zs k) (xs (S k)).
Hypothesis Hz : forall k, is_prox g tau (xs (S k)) (zs (S k)).
Let Phi x z := eval f x + eval g z + / (2 * tau) * norm2 (x [-] z).
Lemma am_dx k : edom f (xs (S k)).
Proof. apply (Hx k). Qed.
Lemma am_dz k : edom g (zs (S k)).
Proof. apply (Hz k). Qed.
Lemma am_x k x : edom f x -> Phi (xs (S k)) (zs k) <= Phi x (zs k).
Proof. intro H. unfold Phi. destruct (Hx k) as [_ A]. specialize (A x H). lra. Qed.
Lemma am_z k z : edom g z -> Phi (xs (S k)) (zs (S k)) <= Phi (xs (S k)) z.
Proof. intro H. unfold Phi. destruct (Hz k) as [_ A]. specialize (A z H). rewrite (norm2_sub_sym (xs (S k)) (zs (S k))), (norm2_sub_sym (xs (S k)) z). lra. Qed.
Lemma am_half k : edom g (zs k) -> Phi (xs (S k)) (zs (S k)) <= Phi (xs (S k)) (zs k).
Proof. apply am_z. Qed.
Lemma am_dec k : edom f (xs k) -> edom g (zs k) -> Phi (xs (S k)) (zs (S k)) <= Phi (xs k) (zs k).
Proof. intros H1 H2. eapply Rle_trans; [apply am_z; exact H2|apply am_x; exact H1]. Qed.
Lemma am_dec_le a b : (1 <= a <= b)%nat -> Phi (xs b) (zs b) <= Phi (xs a) (zs a).
Proof.
  intros [Ha Hb]. induction Hb as [|b Hb IH]; [lra|]. eapply Rle_trans; [|exact IH]. destruct b as [|b]; [lia|]. apply am_dec; [apply am_dx|apply am_dz].
Qed.
Lemma am_cluster phi a b : closed f -> closed g -> strict_inc phi -> vcv (fun k => xs (phi k)) a -> vcv (fun k => zs (phi k)) b -> is_prox f tau b a /\ is_prox g tau a b.
Proof.
  intros Cf Cg Hp Ha Hb. pose proof (strict_inc_ge phi Hp) as Hge.
  assert (Hd1 : forall k, (k <> 0)%nat -> edom f (xs k) /\ edom g (zs k)) by (intros [|k] Hk; [lia|]; split; [apply am_dx|apply am_dz]).
  assert (Hp1 : forall k, phi (S k) <> 0%nat) by (intro k; specialize (Hge (S k)); lia).
  assert (Ga : vcv (fun k => xs (phi (S k))) a) by (apply (vcv_shift (fun k => xs (phi k))); exact Ha).
  assert (Gb : vcv (fun k => zs (phi (S k))) b) by (apply (vcv_shift (fun k => zs (phi k))); exact Hb).
  assert (Hpg : forall k, is_prox g tau (xs (phi (S k))) (zs (phi (S k)))) by (intro k; specialize (Hp1 k); destruct (phi (S k)) as [|q]; [lia|apply Hz]).
  assert (PG : is_prox g tau a b) by (apply (prox_closed1 g tau (fun k => xs (phi (S k))) (fun k => zs (phi (S k)))); auto).
  split; [|exact PG]. destruct PG as [Db PG].
  assert (K : forall x, edom f x -> edom f a /\ eval f a <= eval f x + / (2 * tau) * norm2 (x [-] b) - / (2 * tau) * norm2 (a [-] b)).
  { intros x Dx. apply (closed_limit f (fun k => xs (phi (S (S k)))) a); auto; [apply (vcv_shift (fun k => xs (phi (S k)))); exact Ga|].
    set (w := fun k => eval f x + / (2 * tau) * norm2 (b [-] xs (phi (S k))) - / (2 * tau) * norm2 (zs (phi (S k)) [-] xs (phi (S k))) + / (2 * tau) * norm2 (x [-] zs (phi (S k))) - / (2 * tau) * norm2 (xs (phi (S (S k))) [-] zs (phi (S (S k))))).
    assert (W : Un_cv w (eval f x + / (2 * tau) * norm2 (b [-] a) - / (2 * tau) * norm2 (b [-] a) + / (2 * tau) * norm2 (x [-] b) - / (2 * tau) * norm2 (a [-] b))).
    { unfold w. apply CV_minus; [apply CV_plus; [apply CV_minus; [apply CV_plus; [apply Un_cv_const|]|]|]|]; apply Un_cv_scal; apply vcv_norm2; apply vcv_minus; auto using vcv_const.
      - apply (vcv_shift (fun k => xs (phi (S k)))); exact Ga.
      - apply (vcv_shift (fun k => zs (phi (S k)))); exact Gb. }
    intros eps He. destruct (Un_cv_le _ _ _ W (Rle_refl _) (eps / 2) ltac:(lra)) as [N1 H1].
    destruct (closed_near g b Cg Db (eps / 2) ltac:(lra)) as (d & Hd & Hn). destruct (Gb d Hd) as [N2 H2].
    exists (N1 + N2)%nat. intros n Hn'. specialize (H1 n ltac:(lia)). specialize (H2 (S n) ltac:(lia)). specialize (Hn (zs (phi (S (S n)))) H2 (proj2 (Hd1 _ (Hp1 (S n))))).
    split; [apply Hd1; apply Hp1|].
    assert (A : Phi (xs (phi (S (S n)))) (zs (phi (S (S n)))) <= Phi x (zs (phi (S n)))).
    { eapply Rle_trans; [apply (am_dec_le (S (phi (S n)))); split; [lia|apply Hp]|]. eapply Rle_trans; [apply am_half; apply Hd1; apply Hp1|]. apply am_x. exact Dx. }
    destruct (Hpg n) as [_ B]. specialize (B b Db). unfold Phi in A. unfold w in H1. lra. }
  destruct (K (xs 1%nat) (am_dx 0)) as [Da _]. split; [exact Da|]. intros y Hy. destruct (K y Hy). lra.
Qed.
End AM.

(** ** smooth functions *)
Lemma smooth_opp (f : E -> R) (df : E -> E) L : L_smooth f df L -> L_smooth (fun x => - f x) (fun x => vopp (df x)) L.
Proof.
  intros [Hg Hl]. split.
  - intros x eps He. destruct (Hg x eps He) as (d & Hd & H). exists d. split; [exact Hd|]. intros h Hh. specialize (H h Hh). rewrite inner_opp_l.
    replace (- f (x [+] h) - - f x - - << df x, h >>) with (- (f (x [+] h) - f x - << df x, h >>)) by ring. rewrite Rabs_Ropp. exact H.
  - intros x y. replace (vopp (df x) [-] vopp (df y)) with (df y [-] df x) by vring. replace (norm (x [-] y)) with (norm (y [-] x)) by (unfold norm; f_equal; apply norm2_sub_sym). apply Hl.
Qed.
Lemma ascent_lemma (f : E -> R) (df : E -> E) L x y : L_smooth f df L -> f x + << df x, y [-] x >> - L / 2 * norm2 (y [-] x) <= f y.
Proof. intro H. pose proof (descent_lemma _ _ L x y (smooth_opp f df L H)) as D. cbn beta in D. rewrite inner_opp_l in D. lra. Qed.
Lemma prox_grad (f : E -> R) tau v p d : 0 < tau -> is_grad f p d -> is_prox (etot f) tau v p -> p = v [-] tau [*] d.
Proof.
  intros Ht Hg [_ Hp]. cbn [edom eval etot] in Hp. set (q := d [+] / tau [*] (p [-] v)).
  assert (Hq : q = vzero).
  { apply norm2_eq0. apply Rle_antisym; [|apply norm2_nonneg]. apply Rnot_lt_le. intro Hn. rewrite <- (norm_sq q) in Hn. pose proof (norm_nonneg q) as Hn0. assert (Hnq : 0 < norm q) by nra. set (n := norm q) in *.
    destruct (Hg (n / 4) ltac:(lra)) as (dl & Hdl & H). set (t := Rmin (dl / n) (tau / 2)). assert (Htp : 0 < t) by (apply Rmin_pos; [apply Rdiv_lt_0_compat; auto|lra]).
    pose proof (Rmin_l (dl / n) (tau / 2)) as T1. pose proof (Rmin_r (dl / n) (tau / 2)) as T2. fold t in T1, T2.
    assert (Nh : norm ((- t) [*] q) = t * n) by (rewrite norm_scal, Rabs_Ropp, Rabs_right by lra; reflexivity).
    specialize (H ((- t) [*] q)). rewrite Nh in H. assert (Hle : t * n <= dl). { apply (Rmult_le_compat_r n) in T1; [|lra]. replace (dl / n * n) with dl in T1 by (field; lra). exact T1. }
    specialize (H Hle). apply (Rle_trans _ _ _ (Rle_abs _)) in H. specialize (Hp (p [+] (- t) [*] q) I).
    assert (I1 : / (2 * tau) * norm2 (p [+] (- t) [*] q [-] v) = / (2 * tau) * norm2 (p [-] v) - t * << / tau [*] (p [-] v), q >> + t * t * / (2 * tau) * norm2 q).
    { replace (p [+] (- t) [*] q [-] v) with ((p [-] v) [+] (- t) [*] q) by vring. unfold norm2. rewrite !inner_add_l, !inner_add_r, !inner_scal_l, !inner_scal_r, (inner_sym q (p [-] v)). field. lra. }
    rewrite I1, inner_scal_r in *. assert (I2 : << d, q >> = norm2 q - << / tau [*] (p [-] v), q >>). { unfold norm2, q at 2. rewrite inner_add_l. ring. }
    rewrite I2 in H. assert (Nq : norm2 q = n * n) by (unfold n; rewrite norm_sq; reflexivity). rewrite Nq in *. assert (A : t * / (2 * tau) <= / 4). { apply (Rmult_le_reg_r (2 * tau)); [lra|]. rewrite Rmult_assoc, Rinv_l by lra. lra. }
    assert (P : 0 < t * (n * n)) by (apply Rmult_lt_0_compat; auto). assert (t * / (2 * tau) * (t * (n * n)) <= / 4 * (t * (n * n))) by (apply Rmult_le_compat_r; lra). lra. }
  assert (Z : tau [*] q = vzero) by (rewrite Hq; vring). unfold q in Z. apply vsub_eq. rewrite <- Z. vext w. field. lra.
Qed.
(** a smooth function plus a steep enough quadratic is strongly convex around its minimiser *)
Lemma prox_smooth_gap (f : E -> R) (df : E -> E) L tau v p y : L_smooth f df L -> 0 < tau -> is_prox (etot f) tau v p ->
  f p + / (2 * tau) * norm2 (p [-] v) + (/ tau - L) / 2 * norm2 (y [-] p) <= f y + / (2 * tau) * norm2 (y [-] v).
Proof.
  intros Hf Ht Hp. pose proof (prox_grad f tau v p (df p) Ht (proj1 Hf p) Hp) as G. pose proof (ascent_lemma f df L p y Hf) as A.
  assert (D : df p = / tau [*] (v [-] p)). { transitivity (/ tau [*] (v [-] (v [-] tau [*] df p))); [vext w; field; lra|rewrite <- G; reflexivity]. }
  rewrite D, inner_scal_l in A.
  replace (/ (2 * tau) * norm2 (y [-] v)) with (/ (2 * tau) * norm2 (y [-] p) - / tau * << v [-] p, y [-] p >> + / (2 * tau) * norm2 (p [-] v)).
  2:{ replace (y [-] v) with ((y [-] p) [-] (v [-] p)) by vring. rewrite (norm2_sub_sym p v). unfold norm2. rewrite !inner_sub_l, !inner_sub_r. rewrite (inner_sym (y) v), (inner_sym y p), (inner_sym p v). field. lra. }
  replace (/ (2 * tau)) with (/ tau / 2) in * by (field; lra). lra.
Qed.

(** ** ADMM / Douglas-Rachford: the block updated second is smooth *)
Section SP.
Variables (f : E -> R) (df : E -> E) (L tau : R) (g : efun E) (xs zs us : nat -> E).
Hypothesis Hf : L_smooth f df L.
Hypothesis Ht : 0 < tau.
Hypothesis HL0 : 0 <= L.
Hypothesis HL : 2 * (tau * L) < 1.
Hypothesis Hz : forall k, is_prox g tau (xs k [+] us k) (zs (S k)).
Hypothesis Hx : forall k, is_prox (etot f) tau (zs (S k) [-] us k) (xs (S k)).
Hypothesis Hu : forall k, us (S k) = us k [+] xs (S k) [-] zs (S k).
Hypothesis H0 : us 0%nat = vopp (tau [*] df (xs 0%nat)).
Let c := (/ tau - L) / 2 - tau * (L * L).
Lemma sp_c : 0 < c.
Proof.
  unfold c. apply (Rmult_lt_reg_l (2 * tau)); [lra|]. set (s := tau * L). replace (2 * tau * ((/ tau - L) / 2 - tau * (L * L))) with ((1 - 2 * s) * (1 + s)) by (unfold s; field; lra).
  assert (0 <= s) by (unfold s; apply Rmult_le_pos; lra). rewrite Rmult_0_r. apply Rmult_lt_0_compat; unfold s in *; lra.
Qed.
Lemma sp_grad k : us k = vopp (tau [*] df (xs k)).
Proof.
  destruct k as [|k]; [exact H0|]. destruct Hf as [Hg _].
  pose proof (prox_grad f tau (zs (S k) [-] us k) (xs (S k)) (df (xs (S k))) Ht (Hg _) (Hx k)) as G. rewrite Hu. set (d := df (xs (S k))) in *. rewrite G. vring.
Qed.
Lemma sp_expand k y : / (2 * tau) * norm2 (y [-] (xs k [+] us k)) = / (2 * tau) * norm2 (y [-] xs k) + << df (xs k), y [-] xs k >> + tau / 2 * norm2 (df (xs k)).
Proof.
  rewrite (sp_grad k). set (x := xs k). replace (y [-] (x [+] vopp (tau [*] df x))) with ((y [-] x) [+] tau [*] df x) by vring. unfold norm2. rewrite !inner_add_l, !inner_add_r, !inner_scal_l, !inner_scal_r, (inner_sym (y [-] x) (df x)). field. lra.
Qed.
Lemma sp_dom k : edom g (zs (S k)).
Proof. apply (Hz k). Qed.
Lemma sp_gap k : zs (S k) [-] xs (S k) = tau [*] (df (xs (S k)) [-] df (xs k)).
Proof. replace (zs (S k) [-] xs (S k)) with (us k [-] us (S k)) by (rewrite Hu; vring). rewrite !sp_grad. vring. Qed.
Lemma sp_lip k : norm2 (df (xs (S k)) [-] df (xs k)) <= L * L * norm2 (xs (S k) [-] xs k).
Proof. destruct Hf as [_ Hl]. rewrite <- !norm_sq. specialize (Hl (xs (S k)) (xs k)). pose proof (norm_nonneg (df (xs (S k)) [-] df (xs k))). pose proof (norm_nonneg (xs (S k) [-] xs k)). replace (L * L * (norm (xs (S k) [-] xs k) * norm (xs (S k) [-] xs k))) with ((L * norm (xs (S k) [-] xs k)) * (L * norm (xs (S k) [-] xs k))) by ring. apply Rmult_le_compat; lra. Qed.
Lemma sp_step k : edom g (zs k) -> merit f df g tau (xs (S k)) (zs (S k)) + c * norm2 (xs (S k) [-] xs k) <= merit f df g tau (xs k) (zs k).
Proof.
  intro Hd. destruct (Hz k) as [_ A]. specialize (A (zs k) Hd). rewrite !sp_expand in A.
  pose proof (prox_smooth_gap f df L tau _ _ (xs k) Hf Ht (Hx k)) as B. pose proof (sp_lip k) as Hl. pose proof (sp_gap k) as G. pose proof (sp_grad k) as Gu.
  set (x := xs k) in *. set (x' := xs (S k)) in *. set (z' := zs (S k)) in *. set (z := zs k) in *. rewrite Gu in B.
  assert (I : forall y, / (2 * tau) * norm2 (y [-] (z' [-] vopp (tau [*] df x))) = / (2 * tau) * norm2 (z' [-] y) + << df x, z' [-] y >> + tau / 2 * norm2 (df x)).
  { intro y. replace (y [-] (z' [-] vopp (tau [*] df x))) with (vopp ((z' [-] y) [+] tau [*] df x)) by vring. rewrite norm2_opp_nc. unfold norm2. rewrite !inner_add_l, !inner_add_r, !inner_scal_l, !inner_scal_r, (inner_sym (z' [-] y) (df x)). field. lra. }
  rewrite !I in B. rewrite (norm2_sub_sym x x') in B. unfold merit.
  assert (J : << df x', z' [-] x' >> = << df x, z' [-] x' >> + tau * norm2 (df x' [-] df x)). { unfold norm2. rewrite <- inner_scal_r, <- G, inner_sub_l. ring. }
  rewrite J. apply (Rmult_le_compat_l tau) in Hl; [|lra]. unfold c. lra.
Qed.
Lemma sp_below k : f (zs k) + eval g (zs k) + (/ tau - L) / 2 * norm2 (zs k [-] xs k) <= merit f df g tau (xs k) (zs k).
Proof. unfold merit. pose proof (descent_lemma f df L (xs k) (zs k) Hf). replace (/ (2 * tau)) with (/ tau / 2) by (field; lra). lra. Qed.
Lemma sp_pos : 0 < / tau - L.
Proof. apply (Rmult_lt_reg_l tau); [lra|]. rewrite Rmult_0_r. replace (tau * (/ tau - L)) with (1 - tau * L) by (field; lra). assert (0 <= tau * L) by (apply Rmult_le_pos; lra). lra. Qed.
Lemma sp_vanish m : (forall y, edom g y -> m <= f y + eval g y) -> Un_cv (fun k => norm2 (xs (S k) [-] xs k)) 0 /\ Un_cv (fun k => norm2 (zs k [-] xs k)) 0.
Proof.
  intro Hm. assert (G : Un_cv (fun k => norm2 (xs (S (S k)) [-] xs (S k))) 0).
  { apply (drop_vanish (fun k => merit f df g tau (xs (S k)) (zs (S k)) - m) _ c sp_c).
    - intro k. specialize (Hm _ (sp_dom k)). pose proof (sp_below (S k)). pose proof sp_pos. assert (0 <= (/ tau - L) / 2 * norm2 (zs (S k) [-] xs (S k))) by (apply Rmult_le_pos; [lra|apply norm2_nonneg]). lra.
    - intro. apply norm2_nonneg.
    - intro k. pose proof (sp_step (S k) (sp_dom k)). lra. }
  assert (G1 : Un_cv (fun k => norm2 (xs (S k) [-] xs k)) 0). { intros eps He. destruct (G eps He) as [N HN]. exists (S N). intros [|k] Hk; [lia|]. apply HN. lia. }
  split; [exact G1|].
  assert (G2 : Un_cv (fun k => norm2 (zs (S k) [-] xs (S k))) 0).
  { apply (Un_cv_squeeze _ (fun k => tau * tau * (L * L) * norm2 (xs (S k) [-] xs k))).
    - intro k. split; [apply norm2_nonneg|]. rewrite sp_gap, norm2_scal, (Rmult_assoc (tau * tau) (L * L)). apply Rmult_le_compat_l; [apply Rmult_le_pos; lra|]. apply sp_lip.
    - replace 0 with (tau * tau * (L * L) * 0) by ring. apply Un_cv_scal. exact G1. }
  intros eps He. destruct (G2 eps He) as [N HN]. exists (S N). intros [|k] Hk; [lia|]. apply HN. lia.
Qed.
Lemma sp_cluster l : closed g -> Un_cv (fun k => norm2 (xs (S k) [-] xs k)) 0 -> Un_cv (fun k => norm2 (zs k [-] xs k)) 0 -> cluster xs l -> stationary df g tau l.
Proof.
  intros Hc Hv Hw (phi & Hp & Hl). apply stationary_prox; [exact Ht|].
  assert (Hl1 : vcv (fun k => xs (S (phi k))) l) by (apply (vcv_close (fun k => xs (phi k))); [exact Hl|]; apply (Un_cv_sub (fun k => norm2 (xs (S k) [-] xs k)) 0 phi Hp Hv)).
  apply (prox_closed1 g tau (fun k => xs (phi k) [+] us (phi k)) (fun k => zs (S (phi k)))); auto.
  - apply (vcv_ext (fun k => xs (phi k) [-] tau [*] df (xs (phi k)))); [intro k; rewrite (sp_grad (phi k)); vring|]. apply vcv_minus; [exact Hl|]. apply vcv_scal. destruct Hf as [_ HH]. apply (df_cv df L (fun k => xs (phi k)) l HH Hl).
  - apply (vcv_close (fun k => xs (S (phi k)))); [exact Hl1|]. apply (Un_cv_sub (fun k => norm2 (zs k [-] xs k)) 0 (fun k => S (phi k))); [intro k; specialize (Hp k); lia|exact Hw].
Qed.
Lemma sp_bounded : level_bounded (eadd (etot f) g) -> Un_cv (fun k => norm2 (zs k [-] xs k)) 0 -> exists M, forall k, norm (xs k) <= M /\ norm (zs k) <= M.
Proof.
  intros Hl Hw. destruct (Hl (merit f df g tau (xs 1%nat) (zs 1%nat))) as [M HM].
  assert (D : forall k, merit f df g tau (xs (S k)) (zs (S k)) <= merit f df g tau (xs 1%nat) (zs 1%nat)).
  { induction k as [|k IH]; [lra|]. pose proof (sp_step (S k) (sp_dom k)). pose proof sp_c. assert (0 <= c * norm2 (xs (S (S k)) [-] xs (S k))) by (apply Rmult_le_pos; [lra|apply norm2_nonneg]). lra. }
  assert (Z : forall k, norm (zs (S k)) <= M).
  { intro k. apply HM; [split; [exact I|apply sp_dom]|]. cbn [eval eadd etot]. pose proof (sp_below (S k)). pose proof sp_pos. specialize (D k). assert (0 <= (/ tau - L) / 2 * norm2 (zs (S k) [-] xs (S k))) by (apply Rmult_le_pos; [lra|apply norm2_nonneg]). lra. }
  assert (B : exists K, forall k, norm (zs k [-] xs k) <= K).
  { destruct (maj_by_pos (fun k => norm2 (zs k [-] xs k))) as (K & K0 & HK); [exists 0; exact Hw|]. exists (sqrt K). intro k. unfold norm. apply sqrt_le_1_alt. specialize (HK k). eapply Rle_trans; [apply Rle_abs|exact HK]. }
  destruct B as [K HK]. set (M' := Rmax M (norm (zs 0%nat))). assert (Z' : forall k, norm (zs k) <= M') by (intros [|k]; [apply Rmax_r|eapply Rle_trans; [apply Z|apply Rmax_l]]).
  exists (M' + Rabs K). intro k. specialize (Z' k). specialize (HK k). pose proof (Rle_abs K). pose proof (Rabs_pos K). split; [|lra].
  replace (xs k) with (zs k [-] (zs k [-] xs k)) by vring. pose proof (norm_triangle (zs k) (vopp (zs k [-] xs k))) as T. replace (zs k [+] vopp (zs k [-] xs k)) with (zs k [-] (zs k [-] xs k)) in T by vring.
  replace (norm (vopp (zs k [-] xs k))) with (norm (zs k [-] xs k)) in T by (unfold norm; rewrite norm2_opp_nc; reflexivity). lra.
Qed.
End SP.
End M.
