(** * PrimalDual: in-place aliasing, example *)
From Coq Require Import Psatz.
From Verif Require Import Base Space Spec VSum ConvexFacts Smooth M_ProxOp SpecOps P_ProxOp M_Norms P_Norms M_Loop LoopFacts LoopFacts2 SeqFacts M_PG M_PD SplitMath P_PG2 P_PG3 P_Split2 P_Split3 P_PD.
From Verif Require Export S_PD2.
Open Scope result_scope.
Open Scope R_scope.

Definition half1_fun : efun R_IPS := etot (E:=R_IPS) (fun x : R_IPS => 1 / 2 * (x * x)).
Lemma half1_prox : impl_prox half1 half1_fun.
Proof. exact (quad1_prox 1 ltac:(lra)). Qed.
Lemma half1_proxdual : impl_proxdual half1 half1_fun.
Proof. exact (quad1_prox 1 ltac:(lra)). Qed.
Lemma half1_convex : convex half1_fun.
Proof. apply (quad1_smooth 1); lra. Qed.
Lemma half1_conj : is_conj half1_fun half1_fun.
Proof.
  split; [exists (0 : R_IPS); exact I|]. intro y. split; [split; [|intros _; exact I]|].
  - intros _. exists (1 / 2 * (y * y)). intros x _. cbn. pose proof (Rle_0_sqr (x - y)). unfold Rsqr in *. nra.
  - intros _. split.
    + intros r [x [_ ->]]. cbn. pose proof (Rle_0_sqr (x - y)). unfold Rsqr in *. nra.
    + intros b Hb. apply Hb. exists y. split; [exact I|]. cbn. field.
Qed.

(*! C57_alias_refuted : if rmatvec returns its argument itself (as an in-place identity does), the in-place addition of z corrupts y:
   f = g = x^2/2, A the identity, z = 1, tau = mu = theta = 1, start (-1, 1), g first: every run returns x = -1 although
   x^2 + x has its only minimum at -1/2 *)
Lemma C57_alias_refuted_l : forall n,
  impl_prox half1 half1_fun /\ impl_proxdual half1 half1_fun /\ is_conj half1_fun half1_fun /\
  (exists y tr, PrimalDual half1 half1 (id_linop R_IPS) (Some (fun v => v)) (-1 : R_IPS) (Scalar 1) (Scalar 1) (Some (1 : R_IPS)) (Some (1 : R_IPS)) 1 n true = Ok (-1, y, tr)) /\
  (forall x, is_min (eadd (elin half1_fun (1 : R_IPS)) (epre half1_fun (lapp (id_linop R_IPS)))) x <-> x = -(1/2)).
Proof.
  intro n. split; [apply half1_prox|]. split; [apply half1_proxdual|]. split; [apply half1_conj|]. split.
  - unfold PrimalDual. cbn [steps_arr].
    assert (G : forall m i tr, (i + m = n)%nat -> exists tr', for_loop (pd_body half1 half1 (id_linop R_IPS) (Some (fun v => v)) (Some (1 : R_IPS)) 1 true (repeat 1 n) (repeat 1 n)) m i
        (PD (-1 : R_IPS) (1 : R_IPS) (-1 : R_IPS) tr) = Ok (PD (-1 : R_IPS) (1 : R_IPS) (-1 : R_IPS) tr', n)).
    { induction m as [|m IH]; intros i tr Hi; [exists tr; simpl; do 2 f_equal; lia|].
      cbn [for_loop]. unfold pd_body at 1, getitem. rewrite nth_error_repeat by lia. cbn -[Rdiv Rmult Rplus Ropp].
      replace ((1 + 1 * -1) / (1 + 1 * 1)) with 0 by field. replace ((-1 + -1 * (1 * (0 + 1))) / (1 + 1 * 1)) with (-1) by field.
      replace (-1 + 1 * (-1 + -1 * -1)) with (-1) by ring. replace (0 + 1) with 1 by ring.
      destruct (IH (S i) (tr ++ [(-1, 1)]) ltac:(lia)) as [tr' Ht]. exists tr'. exact Ht. }
    destruct (G n 0%nat [] ltac:(lia)) as [tr Ht]. exists (1 : R_IPS), tr. etransitivity; [apply (f_equal (fun r => bind r _)); exact Ht|reflexivity].
  - intro x. split.
    + intros [_ H]. specialize (H (-(1/2)) (conj I I)). cbn in H. assert (Hs : (x + 1/2) * (x + 1/2) <= 0) by nra.
      assert (x + 1/2 = 0); [|lra]. apply Rsqr_0_uniq. unfold Rsqr. pose proof (Rle_0_sqr (x + 1/2)). unfold Rsqr in *. lra.
    + intros ->. split; [split; exact I|]. intros y _. cbn. pose proof (Rle_0_sqr (y + 1/2)). unfold Rsqr in *. nra.
Qed.

(*!ex C57_example : f = (x-1)^2/2, g = x^2/2, A = multiplication by 1/2, tau = mu = 1 meet the hypotheses of the PrimalDual theorems,
   with saddle point (4/5, 2/5); array steps [1; 1/2] are admissible for two iterations *)
Lemma C57_example_l : let f := etot (E:=R_IPS) (fun x : R_IPS => 1 / 2 * ((x - 1) * (x - 1))) in let A := scal_linop R_IPS (1/2) in
  impl_prox shifted1 f /\ impl_proxdual half1 half1_fun /\ convex f /\ convex half1_fun /\ is_conj half1_fun half1_fun /\
  (forall u, exists p, is_prox half1_fun 1 u p) /\ (forall a : R_IPS, 1 * 1 * norm2 (lapp A a) <= norm2 a) /\
  saddle A f half1_fun (vzero : R_IPS) (4/5 : R_IPS) (2/5 : R_IPS) /\ steps_ok (Arr [1; 1/2]) 2.
Proof.
  intros f A. split; [apply shifted1_prox|]. split; [apply half1_proxdual|]. split; [|split; [apply half1_convex|split; [apply half1_conj|split; [|split; [|split]]]]].
  - intros x y a _ _ Ha. split; [exact I|]. cbn.
    assert (0 <= a * (1 - a) * ((x - y) * (x - y))). { apply Rmult_le_pos; [apply Rmult_le_pos; lra|apply Rle_0_sqr]. } nra.
  - intro u. destruct (half1_prox u 1 ltac:(lra)) as [p [_ H]]. exists p; auto.
  - intro a. unfold norm2. cbn. pose proof (Rle_0_sqr a). unfold Rsqr in *. nra.
  - split; (split; [exact I|]); intros y _; cbn; [pose proof (Rle_0_sqr (y - 4/5))|pose proof (Rle_0_sqr (y - 2/5))]; unfold Rsqr in *; nra.
  - split; [simpl; lia|]. intros j Hj. destruct j as [|[|j]]; simpl; try lra. lia.
Qed.
