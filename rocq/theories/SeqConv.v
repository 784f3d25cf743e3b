(** * Loops with a deterministic step as one infinite sequence; summable sequences; the maximum norm *)
From Coq Require Import Psatz.
From Verif Require Import Base Space Spec ConvexFacts VSum MatFacts M_Loop LoopFacts LoopFacts2.
Open Scope result_scope.
Open Scope R_scope.

Lemma loop_iter_brk {S} (body : nat -> S -> result (S * bool)) (Inv : S -> Prop) (step : S -> S) (test : S -> bool) s0 :
  Inv s0 -> (forall j s, Inv s -> body j s = Ok (step s, test s) /\ Inv (step s)) ->
  forall n, exists k, for_loop body n 0 s0 = Ok (Base.iter k step s0, k) /\ stops_when (fun j => test (Base.iter (j - 1) step s0) = true) n k.
Proof.
  intros H0 Hb. assert (HI : forall j, Inv (Base.iter j step s0)) by (induction j; [exact H0|rewrite iter_S_out; apply (Hb 0%nat); auto]).
  assert (G : forall m i, exists k, for_loop body m i (Base.iter i step s0) = Ok (Base.iter k step s0, k) /\ (i <= k <= i + m)%nat /\
     (forall j, (i < j < k)%nat -> test (Base.iter (j - 1) step s0) <> true) /\ (k = (i + m)%nat \/ (i < k)%nat /\ test (Base.iter (k - 1) step s0) = true)).
  { induction m as [|m IH]; intro i; cbn [for_loop].
    - exists i. split; [reflexivity|]. split; [lia|]. split; [intros; lia|left; lia].
    - destruct (Hb i _ (HI i)) as [-> _]. cbn [bind fst snd]. rewrite <- iter_S_out. destruct (test (Base.iter i step s0)) eqn:Et.
      + exists (Datatypes.S i). split; [reflexivity|]. split; [lia|]. split; [intros; lia|]. right. split; [lia|]. replace (Datatypes.S i - 1)%nat with i by lia. exact Et.
      + destruct (IH (Datatypes.S i)) as [k [E1 [H1 [H2 H3]]]]. exists k. split; [exact E1|]. split; [lia|]. split.
        * intros j Hj. destruct (Nat.eq_dec j (Datatypes.S i)) as [->|]; [replace (Datatypes.S i - 1)%nat with i by lia; congruence|apply H2; lia].
        * destruct H3 as [->|[H3 H4]]; [left; lia|right; split; [lia|auto]]. }
  intro n. destruct (G n 0%nat) as [k [E1 [H1 [H2 H3]]]]. exists k. split; [exact E1|]. split; [lia|]. split; [intros j Hj; apply H2; lia|].
  destruct H3 as [->|[H3 H4]]; [left; lia|right; split; [lia|auto]].
Qed.

(** a bounded series of non-negative terms has vanishing terms *)
Lemma summable_vanish (a : nat -> R) C : (forall j, 0 <= a j) -> (forall n, RS n a <= C) -> forall eps, 0 < eps -> exists N, forall n, (N <= n)%nat -> a n < eps.
Proof.
  intros Ha HC eps He.
  assert (G : Un_growing (fun n => RS n a)) by (intro n; cbn [RS]; specialize (Ha n); lra).
  assert (B : bound (EUn (fun n => RS n a))) by (exists C; intros y [n ->]; auto).
  destruct (growing_cv _ G B) as [l Hl]. destruct (Hl (eps / 2) ltac:(lra)) as [N HN]. exists N. intros n Hn.
  pose proof (HN n Hn) as H1. pose proof (HN (S n) ltac:(lia)) as H2. unfold R_dist in *. cbn [RS] in H2.
  apply Rabs_def2 in H1. apply Rabs_def2 in H2. lra.
Qed.
(** ... and the number of terms that are at least eps before the first smaller one is at most C / eps *)
Lemma summable_count (a : nat -> R) C n eps : 0 < eps -> (forall j, (j < n)%nat -> eps <= a j) -> RS n a <= C -> INR n * eps <= C.
Proof. intros He Ha HC. apply Rle_trans with (RS n a); auto. rewrite <- (RS_const n eps). apply RS_le. auto. Qed.
Lemma norm_small {E : IPS} (v : E) eps : 0 < eps -> norm2 v < eps * eps -> norm v < eps.
Proof. intros He H. rewrite <- norm_sq in H. pose proof (norm_nonneg v). nra. Qed.

(** ** np.abs(x).max() on R^n *)
Definition vamax {n} (x : Vec n) : R := fold_right (fun a m => Rmax (Rabs a) m) 0 (lst x).
Lemma fold_rmax_ub l : forall a, In a l -> Rabs a <= fold_right (fun a m => Rmax (Rabs a) m) 0 l.
Proof.
  induction l as [|b l IH]; simpl; intros a Ha; [contradiction|]. destruct Ha as [->|Ha]; [apply Rmax_l|]. eapply Rle_trans; [apply IH; auto|apply Rmax_r].
Qed.
Lemma fold_rmax_lub l M : 0 <= M -> (forall a, In a l -> Rabs a <= M) -> fold_right (fun a m => Rmax (Rabs a) m) 0 l <= M.
Proof. intros HM H. induction l as [|b l IH]; simpl; auto. apply Rmax_lub; [apply H; simpl; auto|apply IH; intros; apply H; simpl; auto]. Qed.
Lemma vamax_nonneg n (x : Vec n) : 0 <= vamax x.
Proof. unfold vamax. induction (lst x); simpl; [lra|]. eapply Rle_trans; [apply IHl|apply Rmax_r]. Qed.
Lemma vamax_get n (x : Vec n) i : (i < n)%nat -> Rabs (get x i) <= vamax x.
Proof. intro Hi. apply fold_rmax_ub. apply nth_In. rewrite lst_length. auto. Qed.
Lemma vamax_lub n (x : Vec n) M : 0 <= M -> (forall i, (i < n)%nat -> Rabs (get x i) <= M) -> vamax x <= M.
Proof.
  intros HM H. apply fold_rmax_lub; auto. intros a Ha. apply (In_nth _ _ 0) in Ha as [i [Hi <-]]. rewrite lst_length in Hi. apply H; auto.
Qed.
Lemma get_le_norm n (x : Vec n) i : (i < n)%nat -> Rabs (get x i) <= norm x.
Proof.
  intro Hi. apply Rsqr_incr_0_var; [|apply norm_nonneg]. unfold Rsqr. rewrite norm_sq, vec_norm2. rewrite <- Rabs_mult, Rabs_right by (apply Rle_ge, Rle_0_sqr).
  rewrite <- (RS_delta n i (fun k => get x k * get x k) Hi). apply RS_le. intros k _. destruct (Nat.eqb i k); pose proof (Rle_0_sqr (get x k)); unfold Rsqr in *; lra.
Qed.
Lemma vamax_le_norm n (x : Vec n) : vamax x <= norm x.
Proof. apply vamax_lub; [apply norm_nonneg|]. apply get_le_norm. Qed.
Lemma norm2_le_vamax n (x : Vec n) : norm2 x <= INR n * (vamax x * vamax x).
Proof.
  rewrite vec_norm2, <- RS_const. apply RS_le. intros i Hi. pose proof (vamax_get n x i Hi). pose proof (Rabs_pos (get x i)).
  replace (get x i * get x i) with (Rabs (get x i) * Rabs (get x i)) by (rewrite <- Rabs_mult; apply Rabs_right, Rle_ge, Rle_0_sqr). nra.
Qed.
Lemma vamax_tri n (x y z : Vec n) : vamax (x [-] z) <= vamax (x [-] y) + vamax (y [-] z).
Proof.
  pose proof (vamax_nonneg n (x [-] y)). pose proof (vamax_nonneg n (y [-] z)). apply vamax_lub; [lra|]. intros i Hi.
  pose proof (vamax_get n (x [-] y) i Hi) as H1. pose proof (vamax_get n (y [-] z) i Hi) as H2. rewrite get_sub in * by auto.
  replace (get x i - get z i) with ((get x i - get y i) + (get y i - get z i)) by ring. eapply Rle_trans; [apply Rabs_triang|lra].
Qed.
Lemma vamax_sym n (x y : Vec n) : vamax (x [-] y) = vamax (y [-] x).
Proof.
  apply Rle_antisym; apply vamax_lub; try apply vamax_nonneg; intros i Hi; rewrite get_sub, Rabs_minus_sym, <- get_sub by auto; apply vamax_get; auto.
Qed.
