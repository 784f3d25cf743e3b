(** * Anderson acceleration: the iteration *)
From Coq Require Import Psatz String.
From Verif Require Import Base Space Spec ConvexFacts Smooth VSum MatFacts M_ProxOp SpecOps M_Loop LoopFacts LoopFacts2 Trace M_PG P_PG P_PG2 P_PG3 M_Anderson P_Anderson.
From Verif Require Export S_Anderson2.
Open Scope result_scope.
Open Scope R_scope.

Lemma loop_states_err {S} (body : nat -> S -> result (S * bool)) (P : nat -> S -> Prop) (Rel : nat -> S -> S -> Prop) (Bad : nat -> S -> Prop) e n s0 :
  P 0%nat s0 ->
  (forall j s, (j < n)%nat -> P j s -> (exists s', body j s = Ok (s', false) /\ Rel j s s' /\ P (Datatypes.S j) s') \/ (body j s = Err e /\ Bad j s)) ->
  exists (st : nat -> S) k, (k <= n)%nat /\ st 0%nat = s0 /\ (forall j, (j <= k)%nat -> P j (st j)) /\ (forall j, (j < k)%nat -> Rel j (st j) (st (Datatypes.S j))) /\
    for_loop body k 0 s0 = Ok (st k, k) /\ (k = n \/ (k < n)%nat /\ for_loop body n 0 s0 = Err e /\ Bad k (st k)).
Proof.
  intros H0 Hs.
  assert (G : forall m i s, (i + m <= n)%nat -> P i s -> exists (st : nat -> S) k, (i <= k <= i + m)%nat /\ st i = s /\ (forall j, (i <= j <= k)%nat -> P j (st j)) /\
     (forall j, (i <= j < k)%nat -> Rel j (st j) (st (Datatypes.S j))) /\
     for_loop body (k - i) i s = Ok (st k, k) /\ (k = (i + m)%nat \/ (k < i + m)%nat /\ for_loop body m i s = Err e /\ Bad k (st k))).
  { induction m as [|m IH]; intros i s Hm Hi.
    - exists (fun _ => s), i. split; [lia|]. split; auto. split; [intros j Hj; replace j with i by lia; auto|]. split; [intros; lia|]. rewrite Nat.sub_diag. split; [reflexivity|left; lia].
    - destruct (Hs i s ltac:(lia) Hi) as [[s1 [E1 [R1 P1]]]|[E1 B1]].
      + destruct (IH (Datatypes.S i) s1 ltac:(lia) P1) as [st [k [Hk [S1 [HP [HR [E2 HB]]]]]]].
        exists (fun j => if Nat.eqb j i then s else st j), k. rewrite Nat.eqb_refl. replace (Nat.eqb k i) with false by (symmetry; apply Nat.eqb_neq; lia).
        split; [lia|]. split; auto. split; [intros j Hj; destruct (Nat.eqb_spec j i) as [->|]; auto; apply HP; lia|]. split.
        { intros j Hj. replace (Nat.eqb (Datatypes.S j) i) with false by (symmetry; apply Nat.eqb_neq; lia). destruct (Nat.eqb_spec j i) as [->|]; [rewrite S1; auto|]. apply HR; lia. }
        split. { replace (k - i)%nat with (Datatypes.S (k - Datatypes.S i)) by lia. cbn [for_loop]. rewrite E1. exact E2. }
        cbn [for_loop]. rewrite E1. cbn [bind fst snd]. destruct HB as [HB|HB]; [left; lia|right]. split; [lia|tauto].
      + exists (fun _ => s), i. split; [lia|]. split; auto. split; [intros j Hj; replace j with i by lia; auto|]. split; [intros; lia|]. rewrite Nat.sub_diag. split; [reflexivity|right]. split; [lia|]. split; auto. cbn [for_loop]. rewrite E1. reflexivity. }
  destruct (G n 0%nat s0 ltac:(lia) H0) as [st [k [Hk [S0 [HP [HR [E1 HB]]]]]]]. exists st, k. split; [lia|]. split; auto. split; [intros; apply HP; lia|]. split; [intros; apply HR; lia|].
  rewrite Nat.sub_0_r in E1. split; auto.
Qed.

(** ** What the code computes *)
Section Core.
Context {E : IPS}.
Variables (pinv : list (list R) -> list (list R)) (proxf proxg : Op E) (f : E -> R) (df : E -> E) (g : efun E) (l : list R) (eps : nat -> R) (tau epsr : R) (nh : nat) (safeguard : bool).
Hypothesis Hcall : impl_call proxf (etot f).
Hypothesis Hgrad : forall x, o_grad proxf x = Ok (Some (df x)).
Hypothesis Hprox : impl_prox proxg g.
Hypothesis Hpinv : pinv_ok nh pinv.
Hypothesis Ht : 0 < tau.
Hypothesis Hr : 0 < epsr.
Hypothesis Hh : (1 <= nh)%nat.

Definition gj (s : an_state E) : E := an_x s [-] tau [*] df (an_x s).
Definition R' (s : an_state E) : list E := firstn nh ((gj s [-] an_y s) :: an_R s).
Definition G' (s : an_state E) : list E := firstn nh (gj s :: an_G s).
Definition an_rel (j : nat) (s s' : an_state E) : Prop :=
  an_R s' = R' s /\ an_G s' = G' s /\ an_tr s' = an_tr s ++ [an_x s'] /\ (exists r, In r (R' s) /\ r <> vzero) /\
  exists alpha cx, best_weights (R' s) alpha /\ is_prox g (eps j * tau) (wsum alpha (G' s)) cx /\
      ((safeguard = true -> f cx <= an_pf s - tau * norm2 (df (an_x s)) / 2) -> an_x s' = cx /\ an_y s' = wsum alpha (G' s)) /\
      (safeguard = true -> an_pf s - tau * norm2 (df (an_x s)) / 2 < f cx -> is_prox g (eps j * tau) (gj s) (an_x s') /\ an_y s' = gj s) /\
      an_pf s' = (if safeguard then f cx else an_pf s).
Definition an_inv (j : nat) (s : an_state E) : Prop := length (an_R s) = Nat.min nh (j + 1) /\ length (an_G s) = Nat.min nh (j + 1).

Lemma pop_firstn (a : E) (q : list E) j : length q = Nat.min nh (j + 1) -> (if Nat.leb nh (j + 1) then removelast (a :: q) else a :: q) = firstn nh (a :: q).
Proof.
  intro Hq. destruct (Nat.leb_spec nh (j + 1)) as [H|H].
  - rewrite removelast_firstn_len. f_equal. cbn [length]. lia.
  - rewrite firstn_all2; auto. cbn [length]. lia.
Qed.
Lemma an_step j s : nth_error l j = Some (eps j) -> 0 < eps j -> an_inv j s ->
  (exists s', an_body pinv proxf proxg l tau epsr nh safeguard None j s = Ok (s', false) /\ an_rel j s s' /\ an_inv (S j) s') \/
  (an_body pinv proxf proxg l tau epsr nh safeguard None j s = Err ZeroDivisionError /\ forall r, In r (R' s) -> r = vzero).
Proof.
  intros Hl He [HR HG]. unfold an_body, get_grad. rewrite Hgrad. cbn [bind]. fold (gj s). rewrite (pop_firstn _ _ j HR), (pop_firstn _ _ j HG). fold (R' s) (G' s).
  assert (LR : length (R' s) = Nat.min nh (j + 2)) by (unfold R'; rewrite firstn_length; cbn [length]; lia).
  assert (LG : length (G' s) = Nat.min nh (j + 2)) by (unfold G'; rewrite firstn_length; cbn [length]; lia).
  rewrite <- LR. assert (Het : 0 < eps j * tau) by (apply Rmult_lt_0_compat; auto).
  assert (Hdec : (exists r, In r (R' s) /\ r <> vzero) \/ forall r, In r (R' s) -> r = vzero).
  { destruct (Classical_Prop.classic (exists r, In r (R' s) /\ r <> vzero)) as [H|H]; auto. right. intros r Hi. destruct (Classical_Prop.classic (r = vzero)); auto. exfalso. apply H; eauto. }
  destruct Hdec as [Hne|Hz].
  - left. destruct (alpha_best pinv nh epsr (R' s) Hpinv ltac:(rewrite LR; lia) Hr Hne) as [alpha [Ea Hb]]. rewrite Ea. cbn [bind].
    assert (Hla : length (G' s) = length alpha) by (destruct Hb as [Hb _]; congruence). rewrite (comb_VS _ _ Hla). fold (wsum alpha (G' s)). cbn [bind]. unfold getitem. rewrite Hl. cbn [bind].
    destruct (Hprox (wsum alpha (G' s)) (eps j * tau) Het) as [cx [Ep Hp]]. rewrite Ep. cbn [bind].
    assert (Hv : get_val proxf cx = Ok (f cx)) by (unfold get_val; rewrite (Hcall cx I); reflexivity).
    destruct safeguard eqn:Es.
    + rewrite Hv. cbn [bind]. destruct (Rleb_spec (f cx) (an_pf s - tau * norm2 (df (an_x s)) / 2)) as [[Hc ->]|[Hc ->]].
      * cbn [bind]. eexists. split; [reflexivity|]. split.
        { unfold an_rel. rewrite Es. cbn [an_R an_G an_tr an_x an_y an_pf]. split; auto. split; auto. split; auto. split; auto. exists alpha, cx. split; auto. split; auto. split; auto. split; auto. intros; lra. }
        split; cbn [an_R an_G]; [rewrite LR|rewrite LG]; f_equal; lia.
      * destruct (Hprox (gj s) (eps j * tau) Het) as [cx' [Ep' Hp']]. rewrite Ep'. cbn [bind]. eexists. split; [reflexivity|]. split.
        { unfold an_rel. rewrite Es. cbn [an_R an_G an_tr an_x an_y an_pf]. split; auto. split; auto. split; auto. split; auto. exists alpha, cx. split; auto. split; auto. split; [intro H; specialize (H eq_refl); lra|]. split; auto. }
        split; cbn [an_R an_G]; [rewrite LR|rewrite LG]; f_equal; lia.
    + cbn [bind]. eexists. split; [reflexivity|]. split.
      { unfold an_rel. rewrite Es. cbn [an_R an_G an_tr an_x an_y an_pf]. split; auto. split; auto. split; auto. split; auto. exists alpha, cx. split; auto. split; auto. split; auto. split; auto. intros; discriminate. }
      split; cbn [an_R an_G]; [rewrite LR|rewrite LG]; f_equal; lia.
  - right. split; auto. rewrite (alpha_zero pinv nh epsr (R' s) Hpinv ltac:(lia) Hz). reflexivity.
Qed.

(** every run: k iterations complete, and either that is all of them or the k-th
    one divides zero by zero because all its residuals vanish *)
Lemma an_core n x0 : (1 <= n)%nat -> (forall j, (j < n)%nat -> nth_error l j = Some (eps j) /\ 0 < eps j) ->
  exists s0 xs ys Rh Gh vs k, an_init proxf proxg l tau x0 = Ok s0 /\ (k <= n)%nat /\ anderson f df g eps tau nh safeguard x0 xs ys Rh Gh vs k /\
    (exists s, for_loop (an_body pinv proxf proxg l tau epsr nh safeguard None) k 0 s0 = Ok (s, k) /\ an_x s = xs k /\ an_tr s = map xs (seq 1 k)) /\
    (k = n \/ (k < n)%nat /\ for_loop (an_body pinv proxf proxg l tau epsr nh safeguard None) n 0 s0 = Err ZeroDivisionError /\
       forall r, In r (firstn nh ((xs k [-] tau [*] df (xs k) [-] ys k) :: Rh k)) -> r = vzero).
Proof.
  intros Hn Hl. destruct (Hl 0%nat ltac:(lia)) as [El Pe]. set (y := x0 [-] tau [*] df x0).
  destruct (Hprox y (eps 0%nat * tau) ltac:(apply Rmult_lt_0_compat; auto)) as [x [Ep Hp]].
  assert (Ei : an_init proxf proxg l tau x0 = Ok (AN x y [y] [y [-] x0] (f x) None [])).
  { unfold an_init, get_grad. rewrite Hgrad. cbn [bind]. unfold getitem. rewrite El. cbn [bind]. fold y. rewrite Ep. cbn [bind]. unfold get_val. rewrite (Hcall x I). reflexivity. }
  set (s0 := AN x y [y] [y [-] x0] (f x) None []) in *.
  destruct (loop_states_err (an_body pinv proxf proxg l tau epsr nh safeguard None) an_inv an_rel (fun _ s => forall r, In r (R' s) -> r = vzero) ZeroDivisionError n s0) as [st [k [Hk [S0 [HP [HR [E1 HB]]]]]]].
  { split; cbn [s0 an_R an_G length]; lia. }
  { intros j s Hj Hi. destruct (Hl j Hj). apply an_step; auto. }
  exists s0, (fun j => an_x (st j)), (fun j => an_y (st j)), (fun j => an_R (st j)), (fun j => an_G (st j)), (fun j => an_pf (st j)), k.
  split; [exact Ei|]. split; [exact Hk|]. split.
  { unfold anderson. rewrite S0. cbn [s0 an_x an_y an_R an_G an_pf]. split; [reflexivity|]. split; [exact Hp|]. split; [reflexivity|]. split; [reflexivity|]. split; [reflexivity|].
    intros j Hj. destruct (HR j Hj) as (A1 & A2 & A3 & A4 & alpha & cx & B1 & B2 & B3 & B4 & B5). cbv zeta. change (an_x (st j) [-] tau [*] df (an_x (st j))) with (gj (st j)).
    split; [exact A1|]. split; [exact A2|]. split; [rewrite A1; exact A4|]. exists alpha, cx. rewrite A1, A2. repeat (split; [assumption|]). exact B5. }
  split.
  { exists (st k). split; [exact E1|]. split; [reflexivity|]. apply (trace_states st an_tr an_x); [rewrite S0; reflexivity|]. intros j Hj. apply (HR j Hj). }
  destruct HB as [HB|[H1 [H2 H3]]]; [left; auto|right]. split; auto.
Qed.
End Core.
