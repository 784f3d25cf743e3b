(** * Proofs about stopping by tolerance (M_PG.v) *)
From Coq Require Import String Psatz.
From Verif Require Import Base Space Spec VSum ConvexFacts Smooth MatFacts M_ProxOp SpecOps P_ProxOp M_Norms P_Norms M_Loop LoopFacts LoopFacts2 SeqFacts M_PG S_PG2 S_PG3 P_PG P_PG2 P_PG3 P_Multi3 P_Split2 S_Seq Compact Fejer IterMath S_Iter P_Iter CountMath S_Pnp PnpMath P_Pnp M_L1 S_L1 P_L1 M_L2 M_Objs S_Sparse P_Sparse S_Lasso P_Lasso S_Incons InconsMath P_Incons P_Resid.
From Verif Require Export S_Stop.
Open Scope result_scope.
Open Scope R_scope.

Lemma loop_flag {S} (body : nat -> S -> result (S * bool)) (st : nat -> S) (fl : nat -> bool) N : (forall i, (i < N)%nat -> body i (st i) = Ok (st (Datatypes.S i), fl (Datatypes.S i))) ->
  forall n i, (i + n <= N)%nat -> exists m, for_loop body n i (st i) = Ok (st m, m) /\ (i <= m <= i + n)%nat /\ (forall j, (i < j < m)%nat -> fl j = false) /\ (m = (i + n)%nat \/ (i < m)%nat /\ fl m = true).
Proof.
  intro H. induction n as [|n IH]; intros i Hi.
  - exists i. split; [reflexivity|]. split; [lia|]. split; [intros; lia|left; lia].
  - cbn [for_loop]. rewrite H by lia. cbn [bind snd fst]. destruct (fl (Datatypes.S i)) eqn:Hf.
    + exists (Datatypes.S i). split; [reflexivity|]. split; [lia|]. split; [intros; lia|right; split; [lia|exact Hf]].
    + destruct (IH (Datatypes.S i) ltac:(lia)) as (m & H1 & H2 & H3 & H4). exists m. split; [exact H1|]. split; [lia|]. split.
      * intros j Hj. destruct (Nat.eq_dec j (Datatypes.S i)) as [->|]; [exact Hf|apply H3; lia].
      * destruct H4 as [->|[H4 H5]]; [left; lia|right; split; [lia|exact H5]].
Qed.
(** the flag of the k-th iteration *)
Definition flag (zd : bool) (tol : R) (a : nat -> R) (k : nat) : bool := match k with O => false | S O => false | S (S j) => if Reqb (a (S j)) 0 then false else Rltb (Rabs (1 - a (S (S j)) / a (S j))) tol end.
Definition prev (a : nat -> R) (k : nat) : option R := match k with O => None | S j => Some (a (S j)) end.
Lemma flag_ok zd tol a k : tol <= 1 -> (zd = true -> forall j, a (S j) <> 0) -> rel_stop zd tol (a (S k)) (prev a k) = Ok (flag zd tol a (S k)).
Proof.
  intros Ht Hz. destruct k as [|k]; cbn [prev rel_stop flag].
  - destruct (Rltb_spec 1 tol) as [[H ->]|[H ->]]; [lra|reflexivity].
  - destruct (Reqb_spec (a (S k)) 0) as [[H ->]|[H ->]]; [|reflexivity]. destruct zd; [|reflexivity]. destruct (Hz eq_refl k H).
Qed.
Lemma flag_settled zd tol a k : flag zd tol a k = true <-> settled a tol k.
Proof.
  destruct k as [|[|k]]; cbn [flag]; try (split; [discriminate|intros [H _]; lia]). unfold settled. replace (S (S k) - 1)%nat with (S k) by lia. destruct (Reqb_spec (a (S k)) 0) as [[H ->]|[H ->]].
  - split; [discriminate|intros (_ & H1 & _); contradiction].
  - destruct (Rltb_spec (Rabs (1 - a (S (S k)) / a (S k))) tol) as [[H1 ->]|[H1 ->]]; split; try discriminate; auto; [intros _; repeat split; auto; lia|intros (_ & _ & H2); lra].
Qed.
Lemma flag_first zd tol a n m : (m <= n)%nat -> (forall j, (0 < j < m)%nat -> flag zd tol a j = false) -> m = n \/ (0 < m)%nat /\ flag zd tol a m = true -> first_settled a tol n m.
Proof.
  intros H1 H2 H3. split; [exact H1|]. split.
  - intros j Hj Hs. destruct j as [|j]; [destruct Hs; lia|]. apply (flag_settled zd) in Hs. rewrite H2 in Hs by lia. discriminate.
  - destruct H3 as [->|[_ H3]]; [left; reflexivity|right; apply (flag_settled zd); exact H3].
Qed.
Lemma first_unique a tol n n' m m' : first_settled a tol n m -> first_settled a tol n' m' -> (m < n)%nat -> (n <= n')%nat -> m' = m.
Proof.
  intros (H1 & H2 & H3) (G1 & G2 & G3) Hm Hn. destruct H3 as [->|H3]; [lia|]. destruct (Nat.lt_trichotomy m m') as [H|[H|H]]; auto.
  - destruct (G2 m H H3).
  - destruct G3 as [->|G3]; [lia|]. destruct (H2 m' H G3).
Qed.
(** values that decrease by the factor 1 - tol as long as nothing is settled *)
Lemma unsettled_decay a tol m : 0 < tol <= 1 -> (forall j, 0 < a (S j)) -> (forall j, a (S (S j)) <= a (S j)) -> (forall j, (j < m)%nat -> ~ settled a tol j) -> forall k, (S k < m)%nat -> a (S k) <= (1 - tol) ^ k * a 1%nat.
Proof.
  intros Ht Hp Hd Hs. induction k as [|k IH]; intro Hk; [cbn [pow]; lra|]. specialize (IH ltac:(lia)). pose proof (Hp k) as P0. pose proof (Hp (S k)) as P1. pose proof (Hd k) as D1.
  assert (Q : tol <= 1 - a (S (S k)) / a (S k)).
  { destruct (Rle_lt_dec tol (1 - a (S (S k)) / a (S k))) as [H|H]; [exact H|]. exfalso. apply (Hs (S (S k)) Hk). unfold settled. replace (S (S k) - 1)%nat with (S k) by lia. split; [lia|]. split; [lra|].
    rewrite Rabs_right; [exact H|]. apply Rle_ge. assert (a (S (S k)) / a (S k) <= 1); [|lra]. apply (Rmult_le_reg_l (a (S k))); [exact P0|]. replace (a (S k) * (a (S (S k)) / a (S k))) with (a (S (S k))) by (field; lra). lra. }
  apply (Rmult_le_compat_l (a (S k))) in Q; [|lra]. replace (a (S k) * (1 - a (S (S k)) / a (S k))) with (a (S k) - a (S (S k))) in Q by (field; lra). cbn [pow]. assert ((1 - tol) * a (S k) <= (1 - tol) * ((1 - tol) ^ k * a 1%nat)) by (apply Rmult_le_compat_l; lra). lra.
Qed.
Lemma settled_drop a tol m : settled a tol m -> (forall j, 0 <= a (S j)) -> a (m - 1)%nat - a m <= tol * a (m - 1)%nat.
Proof.
  intros (H1 & H2 & H3) Hp. destruct m as [|[|m]]; [lia|lia|]. replace (S (S m) - 1)%nat with (S m) in * by lia. pose proof (Hp m) as P0. assert (P1 : 0 < a (S m)) by lra. apply Rlt_le in H3. pose proof (Rle_trans _ _ _ (Rle_abs _) H3) as H4.
  apply (Rmult_le_compat_l (a (S m))) in H4; [|lra]. replace (a (S m) * (1 - a (S (S m)) / a (S m))) with (a (S m) - a (S (S m))) in H4 by (field; lra). lra.
Qed.
Lemma decay_small tol a1 c : 0 < tol <= 1 -> 0 < a1 -> 0 < c -> exists N, forall k, (N <= k)%nat -> (1 - tol) ^ k * a1 < c.
Proof.
  intros Ht Ha Hc. destruct (pow_lt_1_zero (1 - tol) ltac:(rewrite Rabs_right; lra) (c / a1) ltac:(apply Rdiv_lt_0_compat; assumption)) as [N HN]. exists N. intros k Hk. specialize (HN k Hk).
  pose proof (Rle_lt_trans _ _ _ (Rle_abs _) HN) as H. apply (Rmult_lt_compat_r a1) in H; [|exact Ha]. replace (c / a1 * a1) with c in H by (field; lra). exact H.
Qed.

(** ** ProximalPoint *)
Lemma pp_tol_run {E : IPS} (o : Op E) (P : E -> E) a xs x0 tau tol n : (forall v, o_prox o v tau = Ok (P v)) -> xs 0%nat = x0 -> (forall j, xs (S j) = P (xs j)) -> (forall j, get_val o (xs (S j)) = Ok (a (S j))) -> (forall j, a (S j) <> 0) -> tol <= 1 ->
  exists m, ProximalPoint o x0 tau n (Some tol) = Ok (xs m, map xs (seq 1 m)) /\ first_settled a tol n m.
Proof.
  intros EP X0 HR HV Hz Ht. set (st := fun k => PP (xs k) (prev a k) (map xs (seq 1 k))).
  destruct (loop_flag (pp_body o tau (Some tol)) st (flag true tol a) n) with (n := n) (i := 0%nat) as (m & H1 & H2 & H3 & H4); [|lia|].
  - intros i _. unfold pp_body, st. cbn [pp_x pp_pf pp_tr]. rewrite EP. cbn [bind]. rewrite <- HR, HV. cbn [bind]. rewrite (flag_ok true tol a i Ht (fun _ => Hz)). cbn [bind]. do 2 f_equal. cbn [prev]. f_equal. rewrite seq_S, map_app. reflexivity.
  - exists m. split; [unfold ProximalPoint; change (PP x0 None []) with (PP x0 (prev a 0) (map xs (seq 1 0))); rewrite <- X0; fold (st 0%nat); rewrite H1; reflexivity|]. apply (flag_first true tol a n m); [lia|exact H3|exact H4].
Qed.
Lemma fejer_le {E : IPS} (T : E -> E) (w : nat -> E) s : nonexp T -> T s = s -> (forall n, w (S n) = T (w n)) -> forall n, norm (w n [-] s) <= norm (w 0%nat [-] s).
Proof. intros HT Hs Hw. induction n as [|n IH]; [lra|]. rewrite Hw. rewrite <- Hs at 1. eapply Rle_trans; [apply HT|exact IH]. Qed.
Lemma sqrt_div t q : 0 < t -> 0 <= q -> sqrt (t * q) / t = sqrt (q / t).
Proof.
  intros Ht Hq. assert (Hi : 0 <= q / t) by (apply Rmult_le_pos; [exact Hq|left; apply Rinv_0_lt_compat; exact Ht]). replace (t * q) with (t * t * (q / t)) by (field; lra). rewrite sqrt_mult_alt by nra. rewrite sqrt_square by lra. field. lra.
Qed.
Lemma gap_from_drop {E : IPS} (d e : E) tau q gap : 0 < tau -> 0 <= q -> norm2 d <= tau * q -> gap <= norm d * norm e / tau -> gap <= sqrt (q / tau) * norm e.
Proof.
  intros Ht Hq Hd Hg. eapply Rle_trans; [exact Hg|]. rewrite <- (sqrt_div tau q Ht Hq). pose proof (Rinv_0_lt_compat _ Ht). unfold Rdiv. replace (norm d * norm e * / tau) with (norm d * / tau * norm e) by ring.
  apply Rmult_le_compat_r; [apply norm_nonneg|]. apply Rmult_le_compat_r; [lra|]. unfold norm. apply sqrt_le_1_alt. exact Hd.
Qed.
(*! C106_proximal_point : f convex and positive with exact prox and call, any step tau > 0, start and 0 < tol <= 1. With tol, ProximalPoint returns the iterate m of the run without tol, m being the first iteration whose relative change of f is below tol
   (niter if there is none). If it stopped for that reason, f(x_m) - f(y) <= sqrt(tol f(x_(m-1)) / tau) |x_m - y| for every y in the domain, and f(x_m) - f(xo) <= sqrt(tol f(x_1) / tau) |x0 - xo| for a minimiser xo. If f >= c > 0 then
   c <= (1 - tol)^(m-2) f(x_1) whenever m >= 2 iterations are made, so from some niter on the result no longer depends on niter *)
Lemma C106_proximal_point_l : forall (E : IPS) (o : Op E) f x0 tau tol, impl_prox o f -> impl_call o f -> convex f -> 0 < tau -> 0 < tol <= 1 -> (forall y, edom f y -> 0 < eval f y) ->
  exists xs, xs 0%nat = x0 /\ (forall n, ProximalPoint o x0 tau n None = Ok (xs n, map xs (seq 1 n))) /\
    (forall n, exists m, ProximalPoint o x0 tau n (Some tol) = Ok (xs m, map xs (seq 1 m)) /\ first_settled (fun k => eval f (xs k)) tol n m /\
      (settled (fun k => eval f (xs k)) tol m ->
         (forall y, edom f y -> eval f (xs m) - eval f y <= sqrt (tol * eval f (xs (m - 1)%nat) / tau) * norm (xs m [-] y)) /\
         (forall xo, is_min f xo -> eval f (xs m) - eval f xo <= sqrt (tol * eval f (xs 1%nat) / tau) * norm (x0 [-] xo))) /\
      (forall c, (2 <= m)%nat -> (forall y, edom f y -> c <= eval f y) -> c <= (1 - tol) ^ (m - 2) * eval f (xs 1%nat))) /\
    (forall c, 0 < c -> (forall y, edom f y -> c <= eval f y) -> exists N, forall n, (N <= n)%nat -> ProximalPoint o x0 tau n (Some tol) = ProximalPoint o x0 tau N (Some tol)).
Proof.
  intros E o f x0 tau tol Ho Hcall Hf Ht Htol Hpos. destruct (prox_map o f tau Ho Ht) as (P & EP & HP). destruct (pp_maps o P x0 tau EP) as (xs & X0 & Hrun & HR). exists xs. split; [exact X0|]. split; [exact Hrun|].
  set (a := fun k => eval f (xs k)). assert (Hdom : forall j, edom f (xs (S j))) by (intro j; rewrite HR; apply HP). assert (Hpa : forall j, 0 < a (S j)) by (intro j; apply Hpos, Hdom).
  assert (HV : forall j, get_val o (xs (S j)) = Ok (a (S j))) by (intro j; unfold get_val; rewrite (Hcall _ (Hdom j)); reflexivity).
  assert (Hdrop : forall j, norm2 (xs (S (S j)) [-] xs (S j)) <= tau * (a (S j) - a (S (S j)))).
  { intro j. pose proof (HP (xs (S j))) as Hp. rewrite <- HR in Hp. pose proof (prox_gap f tau _ _ (xs (S j)) Hf Ht Hp (Hdom j)) as H. replace (xs (S j) [-] xs (S (S j))) with ((-1) [*] (xs (S (S j)) [-] xs (S j))) in H by vring. rewrite inner_scal_l in H. fold (norm2 (xs (S (S j)) [-] xs (S j))) in H. unfold a. lra. }
  assert (Hdec : forall j, a (S (S j)) <= a (S j)). { intro j. pose proof (Hdrop j) as H. pose proof (norm2_nonneg (xs (S (S j)) [-] xs (S j))). apply Rnot_lt_le. intro K. assert (tau * (a (S j) - a (S (S j))) < 0) by nra. lra. }
  assert (Hdec1 : forall j, a (S j) <= a 1%nat) by (induction j as [|j IH]; [lra|]; eapply Rle_trans; [apply Hdec|exact IH]).
  assert (HT : forall n, exists m, ProximalPoint o x0 tau n (Some tol) = Ok (xs m, map xs (seq 1 m)) /\ first_settled a tol n m).
  { intro n. apply (pp_tol_run o P a xs x0 tau tol n EP X0 HR HV); [intro j; specialize (Hpa j); lra|lra]. }
  assert (Hlow : forall n m c, first_settled a tol n m -> (2 <= m)%nat -> (forall y, edom f y -> c <= eval f y) -> c <= (1 - tol) ^ (m - 2) * a 1%nat).
  { intros n m c (_ & H2 & _) Hm Hc. destruct m as [|[|k]]; [lia|lia|]. replace (S (S k) - 2)%nat with k by lia. eapply Rle_trans; [apply (Hc (xs (S k)) (Hdom k))|]. apply (unsettled_decay a tol (S (S k)) Htol Hpa Hdec H2). lia. }
  split.
  - intro n. destruct (HT n) as (m & Hm & Hfs). exists m. split; [exact Hm|]. split; [exact Hfs|]. split; [|intros c Hm2 Hc; apply (Hlow n m c Hfs Hm2 Hc)].
    intro Hs. pose proof (settled_drop a tol m Hs (fun j => Rlt_le _ _ (Hpa j))) as Hd. destruct Hs as (Hm2 & _). destruct m as [|[|k]]; [lia|lia|]. replace (S (S k) - 1)%nat with (S k) in * by lia.
    pose proof (Hpa k) as P0. assert (HD : norm2 (xs (S (S k)) [-] xs (S k)) <= tau * (tol * a (S k))). { eapply Rle_trans; [apply Hdrop|]. apply Rmult_le_compat_l; lra. }
    assert (Hq : 0 <= tol * a (S k)) by (apply Rmult_le_pos; lra).
    assert (G : forall y, edom f y -> eval f (xs (S (S k))) - eval f y <= sqrt (tol * eval f (xs (S k)) / tau) * norm (xs (S (S k)) [-] y)).
    { intros y Hy. pose proof (HP (xs (S k))) as Hp. rewrite <- HR in Hp. apply (gap_from_drop (xs (S (S k)) [-] xs (S k)) _ tau (tol * a (S k))); auto. apply div_le; [exact Ht|]. eapply Rle_trans; [apply (prox_gap f tau _ _ y Hf Ht Hp Hy)|]. apply cs3. rewrite norm_sub_sym. apply Rle_refl. }
    split; [exact G|]. intros xo Hxo. eapply Rle_trans; [apply G, Hxo|]. apply Rmult_le_compat; [apply sqrt_pos|apply norm_nonneg| |].
    + apply sqrt_le_1_alt. apply Rmult_le_compat_r; [left; apply Rinv_0_lt_compat; exact Ht|]. apply Rmult_le_compat_l; [lra|]. apply (Hdec1 k).
    + rewrite <- X0. apply (fejer_le P xs xo (firm_nonexp P (prox_firmly f tau P Hf Ht HP))); [|exact HR]. apply (prox_unique f tau xo _ _ Hf Ht (HP xo)). apply min_prox_fix; auto.
  - intros c Hc Hlc. destruct (decay_small tol (a 1%nat) c Htol (Hpa 0%nat) Hc) as [N HN]. exists (S (S (S N))). intros n Hn. destruct (HT n) as (m & Hm & Hfs). destruct (HT (S (S (S N)))) as (m' & Hm' & Hfs').
    assert (Hlt : (m' < S (S (S N)))%nat). { destruct (Nat.lt_ge_cases m' (S (S (S N)))) as [H|H]; [exact H|]. exfalso. specialize (Hlow _ _ c Hfs' ltac:(lia) Hlc). specialize (HN (m' - 2)%nat ltac:(lia)). lra. }
    rewrite Hm, Hm'. rewrite (first_unique a tol _ _ _ _ Hfs' Hfs Hlt Hn). reflexivity.
Qed.

(** ** ProximalGradient *)
Lemma pg_tol_run {E : IPS} (proxf proxg : Op E) df (D : E -> E) a xs eps x0 tau tol beta niterback accel n : (forall x, o_grad proxf x = Ok (Some (df x))) -> (forall v, o_prox proxg v (eps * tau) = Ok (D v)) -> accel = None \/ accel = Some "None"%string ->
  xs 0%nat = x0 -> (forall j, xs (S j) = D (xs j [-] tau [*] df (xs j))) -> (forall j, exists v w, get_val proxf (xs (S j)) = Ok v /\ get_val proxg (xs (S j)) = Ok w /\ v + eps * w = a (S j)) -> tol <= 1 ->
  exists m, ProximalGradient proxf proxg x0 [eps] (Some tau) false beta 1 (S n) niterback accel (Some tol) = Ok (xs m, map xs (seq 1 m)) /\ first_settled a tol (S n) m.
Proof.
  intros Hgr ED Ha X0 HR HV Ht. set (st := fun k => PG (xs k) (xs k) 1 tau (prev a k) (map xs (seq 1 k))).
  destruct (loop_flag (pg_body proxf proxg (repeat eps (S n)) false beta 1 niterback accel (Some tol)) st (flag false tol a) (S n)) with (n := S n) (i := 0%nat) as (m & H1 & H2 & H3 & H4); [|lia|].
  - intros i Hi. unfold pg_body, st, getitem. rewrite nth_error_repeat by lia. cbn [bind pg_x pg_y pg_t pg_tau pg_pfg pg_tr]. unfold pg_prox_step, get_grad. destruct (Reqb_spec 1 1) as [[_ ->]|[K _]]; [|lra].
    rewrite Hgr. cbn [bind]. rewrite ED. cbn [bind fst snd]. rewrite <- HR. destruct (HV i) as (v & w & E1 & E2 & E3). rewrite E1. cbn [bind]. rewrite E2. cbn [bind]. rewrite E3. rewrite (flag_ok false tol a i Ht ltac:(discriminate)). cbn [bind]. do 2 f_equal.
    destruct Ha as [->| ->]; cbn [accel_is]; cbn [prev]; (f_equal; [cbn; vring|rewrite seq_S, map_app; reflexivity]).
  - exists m. split; [|apply (flag_first false tol a (S n) m); [lia|exact H3|exact H4]]. unfold ProximalGradient. cbn [pg_epsg bind]. assert (Hk : accel_known accel = true) by (destruct Ha as [->| ->]; reflexivity). rewrite Hk. cbn [bind].
    change (PG x0 x0 1 tau None []) with (PG x0 x0 1 tau (prev a 0) (map xs (seq 1 0))). rewrite <- X0. fold (st 0%nat). rewrite H1. reflexivity.
Qed.
Lemma pg_drop {E : IPS} (f : E -> R) df L g eps tau x p : L_smooth f df L -> convex g -> 0 < eps -> 0 < tau -> is_prox g (eps * tau) (x [-] tau [*] df x) p -> edom g x ->
  (1 - tau * L / 2) * norm2 (p [-] x) <= tau * (f x + eps * eval g x - (f p + eps * eval g p)).
Proof.
  intros Hs Hg He Ht Hp Hx. pose proof (prox_gap g (eps * tau) _ p x Hg (Rmult_lt_0_compat _ _ He Ht) Hp Hx) as H1. pose proof (descent_lemma f df L x p Hs) as H2. apply (Rmult_le_compat_l tau) in H2; [|lra].
  replace (x [-] tau [*] df x [-] p) with ((-1) [*] (p [-] x) [+] (- tau) [*] df x) in H1 by vring. rewrite inner_add_l, !inner_scal_l in H1. fold (norm2 (p [-] x)) in H1. lra.
Qed.
(*! C106_proximal_gradient : f convex with an L-Lipschitz gradient, g convex with exact prox and call, weight eps > 0, a fixed step with tau L < 2, no acceleration, F = f + eps g positive, 0 < tol <= 1. With tol, ProximalGradient returns the iterate m of the
   run without tol, m being the first iteration whose relative change of F is below tol (niter if there is none). If it stopped for that reason, F(x_m) - F(y) <= sqrt(tol F(x_(m-1)) / (1 - tau L / 2) / tau) |x_m - y| for every y in the domain and
   F(x_m) - F(xo) <= sqrt(tol F(x_1) / (1 - tau L / 2) / tau) |x0 - xo| for a minimiser xo. If F >= c > 0 then c <= (1 - tol)^(m-2) F(x_1) whenever m >= 2 iterations are made, so from some niter on the result no longer depends on niter *)
Lemma C106_proximal_gradient_l : forall (E : IPS) (proxf proxg : Op E) f df L g x0 eps tau tol beta niterback accel,
  smooth_op proxf f df L -> impl_prox proxg g -> impl_call proxg g -> convex g -> 0 < eps -> 0 < tau -> tau * L < 2 -> 0 < tol <= 1 -> accel = None \/ accel = Some "None"%string -> (forall y, edom g y -> 0 < f y + eps * eval g y) ->
  let F := fun y => f y + eps * eval g y in
  exists xs, xs 0%nat = x0 /\ (forall n, ProximalGradient proxf proxg x0 [eps] (Some tau) false beta 1 (S n) niterback accel None = Ok (xs (S n), map xs (seq 1 (S n)))) /\
    (forall n, exists m, ProximalGradient proxf proxg x0 [eps] (Some tau) false beta 1 (S n) niterback accel (Some tol) = Ok (xs m, map xs (seq 1 m)) /\ first_settled (fun k => F (xs k)) tol (S n) m /\
      (settled (fun k => F (xs k)) tol m ->
         (forall y, edom g y -> F (xs m) - F y <= sqrt (tol * F (xs (m - 1)%nat) / (1 - tau * L / 2) / tau) * norm (xs m [-] y)) /\
         (forall xo, is_min (eadd (etot f) (escal eps g)) xo -> F (xs m) - F xo <= sqrt (tol * F (xs 1%nat) / (1 - tau * L / 2) / tau) * norm (x0 [-] xo))) /\
      (forall c, (2 <= m)%nat -> (forall y, edom g y -> c <= F y) -> c <= (1 - tol) ^ (m - 2) * F (xs 1%nat))) /\
    (forall c, 0 < c -> (forall y, edom g y -> c <= F y) -> exists N, forall n, (N <= n)%nat ->
       ProximalGradient proxf proxg x0 [eps] (Some tau) false beta 1 (S n) niterback accel (Some tol) = ProximalGradient proxf proxg x0 [eps] (Some tau) false beta 1 (S N) niterback accel (Some tol)).
Proof.
  intros E proxf proxg f df L g x0 eps tau tol beta nb accel (Hcf & Hgr & Hcv & HL & Hsm) Hg Hcg Cg He Ht HtL Htol Ha Hpos F. assert (Het : 0 < eps * tau) by (apply Rmult_lt_0_compat; assumption).
  destruct (prox_map proxg g (eps * tau) Hg Het) as (D & ED & HD). assert (Hu : unaccelerated accel 1) by (destruct Ha; [left|right; left]; assumption).
  destruct (pg_maps proxf proxg df D eps x0 tau beta 1 nb accel Hgr ED Hu) as (xs & X0 & Hrun & HR0). pose proof (pgmap_averaged f df L tau 1 D Hcv HL Hsm Ht ltac:(lra) (prox_firmly g (eps * tau) D Cg Het HD)) as HA.
  assert (HR : forall j, xs (S j) = D (xs j [-] tau [*] df (xs j))) by (intro j; rewrite HR0; vring).
  exists xs. split; [exact X0|]. split; [exact Hrun|].
  set (a := fun k => F (xs k)). assert (Hdom : forall j, edom g (xs (S j))) by (intro j; rewrite HR; apply HD). assert (Hpa : forall j, 0 < a (S j)) by (intro j; apply Hpos, Hdom).
  assert (HV : forall j, exists v w, get_val proxf (xs (S j)) = Ok v /\ get_val proxg (xs (S j)) = Ok w /\ v + eps * w = a (S j)).
  { intro j. exists (f (xs (S j))), (eval g (xs (S j))). unfold get_val. rewrite (Hcf _ I), (Hcg _ (Hdom j)). repeat split. }
  set (k0 := 1 - tau * L / 2). assert (K0 : 0 < k0) by (unfold k0; lra).
  assert (Hdrop : forall j, k0 * norm2 (xs (S (S j)) [-] xs (S j)) <= tau * (a (S j) - a (S (S j)))).
  { intro j. pose proof (HD (xs (S j) [-] tau [*] df (xs (S j)))) as Hp. rewrite <- HR in Hp. apply (pg_drop f df L g eps tau); auto. }
  assert (Hdec : forall j, a (S (S j)) <= a (S j)).
  { intro j. pose proof (Hdrop j) as H. pose proof (Rmult_le_pos _ _ (Rlt_le _ _ K0) (norm2_nonneg (xs (S (S j)) [-] xs (S j)))). apply Rnot_lt_le. intro K. assert (tau * (a (S j) - a (S (S j))) < 0) by nra. lra. }
  assert (Hdec1 : forall j, a (S j) <= a 1%nat) by (induction j as [|j IH]; [lra|]; eapply Rle_trans; [apply Hdec|exact IH]).
  assert (HT : forall n, exists m, ProximalGradient proxf proxg x0 [eps] (Some tau) false beta 1 (S n) nb accel (Some tol) = Ok (xs m, map xs (seq 1 m)) /\ first_settled a tol (S n) m).
  { intro n. apply (pg_tol_run proxf proxg df D a xs eps x0 tau tol beta nb accel n Hgr ED Ha X0 HR HV). lra. }
  assert (Hlow : forall n m c, first_settled a tol n m -> (2 <= m)%nat -> (forall y, edom g y -> c <= F y) -> c <= (1 - tol) ^ (m - 2) * a 1%nat).
  { intros n m c (_ & H2 & _) Hm Hc. destruct m as [|[|k]]; [lia|lia|]. replace (S (S k) - 2)%nat with k by lia. eapply Rle_trans; [apply (Hc (xs (S k)) (Hdom k))|]. apply (unsettled_decay a tol (S (S k)) Htol Hpa Hdec H2). lia. }
  split.
  - intro n. destruct (HT n) as (m & Hm & Hfs). exists m. split; [exact Hm|]. split; [exact Hfs|]. split; [|intros c Hm2 Hc; apply (Hlow (S n) m c Hfs Hm2 Hc)].
    intro Hs. pose proof (settled_drop a tol m Hs (fun j => Rlt_le _ _ (Hpa j))) as Hd. destruct Hs as (Hm2 & _). destruct m as [|[|k]]; [lia|lia|]. replace (S (S k) - 1)%nat with (S k) in * by lia.
    pose proof (Hpa k) as P0. assert (Hq : 0 <= tol * a (S k) / k0) by (apply Rmult_le_pos; [apply Rmult_le_pos; lra|left; apply Rinv_0_lt_compat; exact K0]).
    assert (HD1 : norm2 (xs (S (S k)) [-] xs (S k)) <= tau * (tol * a (S k) / k0)).
    { apply (Rmult_le_reg_l k0); [exact K0|]. replace (k0 * (tau * (tol * a (S k) / k0))) with (tau * (tol * a (S k))) by (field; lra). eapply Rle_trans; [apply Hdrop|]. apply Rmult_le_compat_l; lra. }
    assert (G : forall y, edom g y -> F (xs (S (S k))) - F y <= sqrt (tol * F (xs (S k)) / k0 / tau) * norm (xs (S (S k)) [-] y)).
    { intros y Hy. pose proof (HD (xs (S k) [-] tau [*] df (xs (S k)))) as Hp. rewrite <- HR in Hp. apply (gap_from_drop (xs (S (S k)) [-] xs (S k)) _ tau (tol * a (S k) / k0)); auto. apply (pg_gap f df L g eps tau); auto. lra. }
    split; [exact G|]. intros xo Hxo. eapply Rle_trans; [apply G; destruct Hxo as [[_ K] _]; exact K|]. apply Rmult_le_compat; [apply sqrt_pos|apply norm_nonneg| |].
    + apply sqrt_le_1_alt. apply Rmult_le_compat_r; [left; apply Rinv_0_lt_compat; exact Ht|]. apply Rmult_le_compat_r; [left; apply Rinv_0_lt_compat; exact K0|]. apply Rmult_le_compat_l; [lra|]. apply (Hdec1 k).
    + rewrite <- X0. assert (Hf : D (xo [-] tau [*] df xo) = xo). { apply (prox_unique g (eps * tau) (xo [-] tau [*] df xo) _ _ Cg Het (HD _)). apply (pg_fix_min f df L g xo eps tau); auto. }
      apply (fejer_le _ xs xo (averaged_nonexp _ _ HA)); [cbv beta; rewrite Hf; vring|exact HR0].
  - intros c Hc Hlc. destruct (decay_small tol (a 1%nat) c Htol (Hpa 0%nat) Hc) as [N HN]. exists (S (S N)). intros n Hn. destruct (HT n) as (m & Hm & Hfs). destruct (HT (S (S N))) as (m' & Hm' & Hfs').
    assert (Hlt : (m' < S (S (S N)))%nat). { destruct (Nat.lt_ge_cases m' (S (S (S N)))) as [H|H]; [exact H|]. exfalso. specialize (Hlow _ _ c Hfs' ltac:(lia) Hlc). specialize (HN (m' - 2)%nat ltac:(lia)). lra. }
    rewrite Hm, Hm'. rewrite (first_unique a tol _ _ _ _ Hfs' Hfs Hlt ltac:(lia)). reflexivity.
Qed.

(** ** functions that decrease to zero: never stopped *)
Lemma sq_convex {E : IPS} s : 0 <= s -> convex (etot (fun v : E => s / 2 * norm2 v)).
Proof.
  intros Hs a b t _ _ Ht. split; [exact I|]. cbn [eval etot]. assert (Id : s / 2 * norm2 ((1 - t) [*] a [+] t [*] b) = (1 - t) * (s / 2 * norm2 a) + t * (s / 2 * norm2 b) - s / 2 * (t * (1 - t)) * norm2 (a [-] b)) by (iexp; field).
  pose proof (norm2_nonneg (a [-] b)). assert (0 <= s / 2 * (t * (1 - t)) * norm2 (a [-] b)) by (repeat apply Rmult_le_pos; lra). lra.
Qed.
Lemma sq_prox {E : IPS} s tau (x : E) : 0 < s -> 0 < tau -> is_prox (etot (fun v : E => s / 2 * norm2 v)) tau x (/ (1 + tau * s) [*] x).
Proof.
  intros Hs Ht. assert (Hp : 0 < tau * s) by (apply Rmult_lt_0_compat; assumption). set (p := / (1 + tau * s) [*] x). apply (subgrad_prox (etot (fun v : E => s / 2 * norm2 v))); auto. split; [exact I|]. intros y _. cbn [eval etot].
  replace (/ tau [*] (x [-] p)) with (s [*] p) by (unfold p; vfield; lra). rewrite inner_scal_l. assert (Id : s / 2 * norm2 y = s / 2 * norm2 p + s * << p, y [-] p >> + s / 2 * norm2 (y [-] p)) by (iexp; field). pose proof (norm2_nonneg (y [-] p)). assert (0 <= s / 2 * norm2 (y [-] p)) by (apply Rmult_le_pos; lra). lra.
Qed.
(*! C106_never_refuted : a tolerance need not end the run, however large niter is: any operator with the exact prox and call of s/2 |x|^2, s > 0, any space, start x0 <> 0, step tau > 0 and tolerance tol <= 1 - 1 / (1 + tau s)^2. For every niter,
   ProximalPoint makes niter iterations and returns what it returns without tol, x0 / (1 + tau s)^niter *)
Lemma C106_never_refuted_l : forall (E : IPS) (o : Op E) s x0 tau tol, impl_prox o (etot (fun v : E => s / 2 * norm2 v)) -> impl_call o (etot (fun v : E => s / 2 * norm2 v)) -> 0 < s -> 0 < tau -> x0 <> vzero -> tol <= 1 - 1 / (1 + tau * s) ^ 2 ->
  forall n, ProximalPoint o x0 tau n (Some tol) = ProximalPoint o x0 tau n None /\ exists x tr, ProximalPoint o x0 tau n (Some tol) = Ok (x, tr) /\ List.length tr = n /\ x = (/ (1 + tau * s)) ^ n [*] x0.
Proof.
  intros E o s x0 tau tol Ho Hcall Hs Ht Hx Htol n. assert (Hp : 0 < tau * s) by (apply Rmult_lt_0_compat; assumption). set (f := etot (fun v : E => s / 2 * norm2 v)) in *. set (r := / (1 + tau * s)).
  assert (Hr : 0 < r) by (apply Rinv_0_lt_compat; lra). destruct (prox_map o f tau Ho Ht) as (P & EP & HP). destruct (pp_maps o P x0 tau EP) as (xs & X0 & Hrun & HR).
  assert (HPr : forall v, P v = r [*] v) by (intro v; apply (prox_unique f tau v _ _ (sq_convex s ltac:(lra)) Ht (HP v)); apply sq_prox; assumption).
  assert (Hxs : forall k, xs k = r ^ k [*] x0) by (induction k as [|k IH]; [rewrite X0; cbn [pow]; vring|rewrite HR, HPr, IH; cbn [pow]; vring]).
  assert (Hn0 : 0 < norm2 x0). { destruct (Rle_lt_or_eq_dec _ _ (norm2_nonneg x0)) as [H|H]; [exact H|]. exfalso. apply Hx. apply norm2_eq0. symmetry. exact H. }
  set (a := fun k => eval f (xs k)). assert (Ha : forall k, a (S k) = r ^ 2 * a k). { intro k. unfold a, f. cbn [eval etot]. rewrite !Hxs. cbn [pow]. rewrite !norm2_scal. ring. }
  assert (Hpa : forall k, 0 < a k). { intro k. unfold a, f. cbn [eval etot]. rewrite Hxs, norm2_scal. pose proof (pow_lt r k Hr). apply Rmult_lt_0_compat; [lra|]. apply Rmult_lt_0_compat; [nra|exact Hn0]. }
  assert (HV : forall j, get_val o (xs (S j)) = Ok (a (S j))) by (intro j; unfold get_val; rewrite (Hcall _ I); reflexivity).
  assert (Hr1 : 1 / (1 + tau * s) ^ 2 = r ^ 2) by (unfold r; field; lra). rewrite Hr1 in Htol. assert (Hr2 : 0 < r ^ 2) by (apply pow_lt; exact Hr).
  destruct (pp_tol_run o P a xs x0 tau tol n EP X0 HR HV) as (m & Hm & Hmn & _ & Hend); [intro j; specialize (Hpa (S j)); lra|lra|].
  assert (Hno : ~ settled a tol m). { intros (H1 & _ & H3). destruct m as [|m]; [lia|]. replace (S m - 1)%nat with m in H3 by lia. rewrite Ha in H3. pose proof (Hpa m). replace (1 - r ^ 2 * a m / a m) with (1 - r ^ 2) in H3 by (field; lra). pose proof (Rle_abs (1 - r ^ 2)). lra. }
  destruct Hend as [->|K]; [|contradiction]. rewrite Hm, Hrun. split; [reflexivity|]. exists (xs n), (map xs (seq 1 n)). split; [reflexivity|]. split; [rewrite map_length, seq_length; reflexivity|apply Hxs].
Qed.

(** ** adding a constant *)
(*! C106_offset_refuted : what is returned with a tolerance is not determined by the problem being solved: f convex, and operators whose proximal map is that of f and whose value is f + K. Whatever f, the start, tau > 0 and 0 < tol <= 1, for every K large enough
   ProximalPoint stops after two iterations, for every niter >= 2 *)
Lemma C106_offset_refuted_l : forall (E : IPS) (oK : R -> Op E) f x0 tau tol, (forall K, impl_prox (oK K) f) -> (forall K, impl_call (oK K) (eadd f (etot (fun _ => K)))) -> convex f -> 0 < tau -> 0 < tol <= 1 ->
  exists K0, forall K n, K0 <= K -> (2 <= n)%nat -> ProximalPoint (oK K) x0 tau n (Some tol) = ProximalPoint (oK K) x0 tau 2 None.
Proof.
  intros E oK f x0 tau tol Ho Hcall Hf Ht Htol. destruct (prox_map (oK 0) f tau (Ho 0) Ht) as (P & _ & HP).
  assert (EP : forall K v, o_prox (oK K) v tau = Ok (P v)). { intros K v. destruct (Ho K v tau Ht) as (p & E1 & E2). rewrite E1. f_equal. apply (prox_unique f tau v _ _ Hf Ht E2 (HP v)). }
  destruct (pp_maps (oK 0) P x0 tau (EP 0)) as (xs & X0 & _ & HR). assert (Hdom : forall j, edom f (xs (S j))) by (intro j; rewrite HR; apply HP).
  set (v1 := eval f (xs 1%nat)). set (v2 := eval f (xs 2%nat)).
  assert (Hd : v2 <= v1). { pose proof (HP (xs 1%nat)) as Hp. rewrite <- HR in Hp. pose proof (prox_gap f tau _ _ (xs 1%nat) Hf Ht Hp (Hdom 0%nat)) as H. replace (xs 1%nat [-] xs 2%nat) with ((-1) [*] (xs 2%nat [-] xs 1%nat)) in H by vring. rewrite inner_scal_l in H. fold (norm2 (xs 2%nat [-] xs 1%nat)) in H. pose proof (norm2_nonneg (xs 2%nat [-] xs 1%nat)). unfold v1, v2. apply Rnot_lt_le. intro K. assert (0 < tau * (eval f (xs 2%nat) - eval f (xs 1%nat))) by (apply Rmult_lt_0_compat; lra). lra. }
  exists (Rabs v1 + 1 + (v1 - v2) / tol). intros K n HK Hn. assert (H0 : 0 <= (v1 - v2) / tol) by (apply Rmult_le_pos; [lra|left; apply Rinv_0_lt_compat; lra]). assert (Hab : - Rabs v1 <= v1) by (unfold Rabs; destruct (Rcase_abs v1); lra).
  set (a := fun k => eval f (xs k) + K).
  assert (HV : forall j, get_val (oK K) (xs (S j)) = Ok (a (S j))) by (intro j; unfold get_val; rewrite (Hcall K _ (Logic.conj (Hdom j) I)); reflexivity).
  assert (Hpos : 0 < v1 + K) by lra.
  assert (Hset : settled a tol 2). { unfold settled, a. change (2 - 1)%nat with 1%nat. fold v1 v2. split; [lia|]. split; [lra|]. replace (1 - (v2 + K) / (v1 + K)) with ((v1 - v2) / (v1 + K)) by (field; lra). rewrite Rabs_right.
    - apply (Rmult_lt_reg_r (v1 + K)); [exact Hpos|]. replace ((v1 - v2) / (v1 + K) * (v1 + K)) with (v1 - v2) by (field; lra). assert (Q : (v1 - v2) / tol * tol = v1 - v2) by (field; lra). nra.
    - apply Rle_ge. apply Rmult_le_pos; [lra|left; apply Rinv_0_lt_compat; lra]. }
  set (st := fun k => PP (xs k) (prev a k) (map xs (seq 1 k))).
  assert (Hstep : forall i, (i < 2)%nat -> pp_body (oK K) tau (Some tol) i (st i) = Ok (st (S i), flag true tol a (S i))).
  { intros i Hi. unfold pp_body, st. cbn [pp_x pp_pf pp_tr]. rewrite EP. cbn [bind]. rewrite <- HR, HV. cbn [bind]. assert (Hfl : rel_stop true tol (a (S i)) (prev a i) = Ok (flag true tol a (S i))).
    { destruct i as [|[|i]]; [| |lia]; cbn [prev rel_stop flag]; [destruct (Rltb_spec 1 tol) as [[H ->]|[H ->]]; [lra|reflexivity]|]. destruct (Reqb_spec (a 1%nat) 0) as [[H ->]|[H ->]]; [unfold a in H; fold v1 in H; lra|reflexivity]. }
    rewrite Hfl. cbn [bind]. do 2 f_equal. cbn [prev]. f_equal. rewrite seq_S, map_app. reflexivity. }
  destruct n as [|[|n]]; [lia|lia|]. unfold ProximalPoint. change (PP x0 None []) with (PP x0 (prev a 0) (map xs (seq 1 0))). rewrite <- X0. fold (st 0%nat).
  cbn [for_loop]. rewrite (Hstep 0%nat) by lia. cbn [bind snd fst flag]. rewrite (Hstep 1%nat) by lia. cbn [bind snd fst]. rewrite (proj2 (flag_settled true tol a 2) Hset).
  unfold pp_body, st. cbn [pp_x pp_pf pp_tr bind]. rewrite EP. cbn [bind pp_x pp_pf pp_tr snd fst]. rewrite <- HR, EP. cbn [bind pp_x pp_tr fst snd]. rewrite <- HR. reflexivity.
Qed.

(*!ex C106_example : an object L2(Op=A, b=b, sigma=s) whose data has a component outside the range of A (A^H w = 0, <w, b> <> 0) together with an object L1: the objective is at least s/2 <w, b>^2 / |w|^2 > 0, so ProximalGradient with tau = 1/L and tol = 1/1000
   ends by its tolerance once niter is large enough; and the operator x^2/2 meets the hypotheses of C106_never_refuted *)
Lemma C106_example_l : forall n (F : IPS) (A : linop (Vec n) F) b w s L (o og : Op (Vec n)) lam x0, is_L2 o A b s -> is_L1 og lam -> 0 < s -> 0 <= lam -> 0 < L -> (forall v, s * norm2 (A v) <= L * norm2 v) -> ladj A w = vzero -> << w, b >> <> 0 ->
  (exists N, forall k, (N <= k)%nat -> ProximalGradient o og x0 [1] (Some (1 / L)) false (1 / 2) 1 (S k) 10 None (Some (1 / 1000)) = ProximalGradient o og x0 [1] (Some (1 / L)) false (1 / 2) 1 (S N) 10 None (Some (1 / 1000))) /\
  (forall n, exists x tr, ProximalPoint (quad1 1) (1 : R_IPS) 1 n (Some (1 / 2)) = Ok (x, tr) /\ List.length tr = n).
Proof.
  intros n F A b w s L o og lam x0 Ho Hg Hs Hl HL HA Hw Hb. split.
  - assert (Hw0 : 0 < norm2 w). { destruct (Rle_lt_or_eq_dec _ _ (norm2_nonneg w)) as [H|H]; [exact H|]. exfalso. apply Hb. symmetry in H. apply norm2_eq0 in H. rewrite H. apply inner_zero_l. }
    set (c := s / 2 * (<< w, b >> * << w, b >> / norm2 w)). assert (Hb2 : 0 < << w, b >> * << w, b >>) by nra. assert (Hc : 0 < c) by (unfold c; apply Rmult_lt_0_compat; [lra|apply Rdiv_lt_0_compat; assumption]).
    destruct (L1_facts n og lam Hl Hg) as (Pg & Cg & _). assert (Q : 1 / L * L = 1) by (field; lra).
    assert (Low : forall y : Vec n, edom (etot (l1n (n:=n) lam)) y -> c <= sfit A b s y + 1 * eval (etot (l1n (n:=n) lam)) y).
    { intros y _. cbn [eval etot]. assert (0 <= l1n (n:=n) lam y). { unfold l1n. apply Rmult_le_pos; [exact Hl|]. apply RS_nonneg. intros. apply Rabs_pos. }
      assert (c <= sfit A b s y); [|lra]. unfold c, sfit. apply Rmult_le_compat_l; [lra|]. pose proof (CS_sq w (A y [-] b)) as H1. replace (<< w, A y [-] b >>) with (- << w, b >>) in H1 by (rewrite inner_sub_r, <- ladj_spec', Hw, inner_zero_l; ring).
      apply (Rmult_le_reg_l (norm2 w)); [exact Hw0|]. replace (norm2 w * (<< w, b >> * << w, b >> / norm2 w)) with (<< w, b >> * << w, b >>) by (field; lra). lra. }
    destruct (C106_proximal_gradient_l (Vec n) o og _ _ L _ x0 1 (1 / L) (1 / 1000) (1 / 2) 10 None (L2_smooth_op o A b s L Hs HL Ho HA) Pg Cg (l1n_convex n lam Hl) Rlt_0_1 ltac:(apply Rdiv_lt_0_compat; lra) ltac:(rewrite Q; lra) ltac:(lra) (or_introl eq_refl)) as (xs & _ & _ & _ & H).
    + intros y Hy. specialize (Low y Hy). lra.
    + apply (H c Hc Low).
  - intro k. destruct (C106_never_refuted_l R_IPS (quad1 1) 1 (1 : R_IPS) 1 (1 / 2)) with (n := k) as (_ & x & tr & H1 & H2 & _); try lra.
    + intros x tau Ht. destruct (quad1_prox 1 Rlt_0_1 x tau Ht) as (p & E1 & E2). exists p. split; [exact E1|exact E2].
    + intros x _. reflexivity.
    + intro K. assert ((1 : R) = 0)%R by exact K. lra.
    + exists x, tr. auto.
Qed.
