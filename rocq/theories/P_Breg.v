(** * Proofs about Bregman iterations and plug-and-play (M_Breg.v) *)
From Coq Require Import Psatz.
From Verif Require Import Base Space Spec VSum ConvexFacts Smooth M_ProxOp SpecOps P_ProxOp M_Norms P_Norms M_Loop LoopFacts LoopFacts2 SeqFacts M_PG M_Split M_Breg SplitMath P_PG2 P_PG3 P_Split P_Split2.
From Verif Require Export S_Breg.
Open Scope result_scope.
Open Scope R_scope.

(** First-order condition for a merely differentiable f. *)
Lemma min_sum_subgrad_grad {E : IPS} (f : E -> R) (g : efun E) x d : is_grad f x d -> convex g ->
  is_min (eadd (etot f) g) x -> is_subgrad g x (vopp d).
Proof.
  intros Hg Hc [[_ Hx] Hm]. split; auto. intros y Hy. rewrite inner_opp_l. set (v := y [-] x).
  destruct (Req_dec (norm v) 0) as [Hv0|Hv0].
  - apply norm_eq0 in Hv0. assert (y = x) by (apply vsub_eq; exact Hv0). subst y. unfold v. rewrite vsub_diag, inner_zero_r. lra.
  - pose proof (norm_nonneg v) as Hn. apply Rnot_lt_le. intro Hlt.
    set (e := (eval g x + - << d, v >> - eval g y) / (2 * norm v)).
    assert (He : 0 < e) by (apply Rdiv_lt_0_compat; lra).
    destruct (Hg e He) as [dl [Hd Hb]]. set (t := Rmin 1 (dl / norm v)).
    assert (Hq : 0 < dl / norm v) by (apply Rdiv_lt_0_compat; lra).
    assert (Ht : 0 < t <= 1) by (unfold t; split; [apply Rmin_pos; lra|apply Rmin_l]).
    specialize (Hb (t [*] v)).
    assert (Htv : norm (t [*] v) = t * norm v) by (rewrite norm_scal, Rabs_right by lra; reflexivity).
    assert (Hle : norm (t [*] v) <= dl).
    { rewrite Htv. apply Rle_trans with (dl / norm v * norm v); [apply Rmult_le_compat_r; [lra|apply Rmin_r]|]. apply Req_le. field. auto. }
    specialize (Hb Hle). rewrite Htv, inner_scal_r in Hb. apply Rabs_le_inv' in Hb || (assert (Hb' := Rle_trans _ _ _ (Rle_abs _) Hb)).
    destruct (Hc x y t Hx Hy ltac:(lra)) as [D1 D2].
    replace ((1 - t) [*] x [+] t [*] y) with (x [+] t [*] v) in * by (unfold v; vring).
    specialize (Hm (x [+] t [*] v) (conj I D1)). cbn [eval eadd etot] in Hm.
    assert (Hen : e * (2 * norm v) = eval g x + - << d, v >> - eval g y) by (unfold e; field; lra).
    assert (t * (e * (2 * norm v)) <= t * (e * norm v)); [|assert (0 < t * (e * norm v)) by (apply Rmult_lt_0_compat; [lra|apply Rmult_lt_0_compat; lra]); lra].
    rewrite Hen. lra.
Qed.

(** ** Specification of the documented recursion *)
Lemma solution_x {G : IPS} (out : solver_out G) x : solution out x <-> solver_x out = x.
Proof.
  split; [intros [->|[rest ->]]; reflexivity|]. destruct out as [y|y r]; cbn [solver_x]; intros <-; [left; reflexivity|right; eexists; reflexivity].
Qed.

Section Spec.
Context {E F : IPS} (f : E -> R) (df : E -> E) (g : efun F) (A : E -> F) (alpha : R).

Local Notation breg_inner := (S_Breg.breg_inner f g A alpha).
Local Notation breg_doc := (S_Breg.breg_doc f df g A alpha).
Local Notation exact_solver := (S_Breg.exact_solver f g A alpha).

Hypotheses (Ha : 0 < alpha) (Hf : convex (etot f)) (Hdf : forall x, is_grad f x (df x)) (Hg : convex (epre g A)).
Variables (xs qs : nat -> E) (k : nat).
Hypothesis Hd : breg_doc xs qs k.

Lemma breg_subgrad j : (1 <= j <= k)%nat -> is_subgrad (epre g A) (xs j) (qs j).
Proof.
  intro Hj. destruct j as [|j]; [lia|]. destruct Hd as [_ Hs]. destruct (Hs j ltac:(lia)) as [Hm Hq].
  assert (Hm' : is_min (eadd (etot (fun x => f x + << (- alpha) [*] qs j, x >>)) (escal alpha (epre g A))) (xs (S j))).
  { destruct Hm as [M1 M2]. split; [split; [exact I|exact M1]|]. intros y [_ Hy]. specialize (M2 y Hy).
    cbn [eval eadd etot escal epre S_Breg.breg_inner] in *. rewrite !inner_scal_l. lra. }
  assert (Hgr : is_grad (fun x => f x + << (- alpha) [*] qs j, x >>) (xs (S j)) (df (xs (S j)) [+] (- alpha) [*] qs j)).
  { intros eps He. destruct (Hdf (xs (S j)) eps He) as [d [D1 D2]]. exists d. split; auto. intros h Hh. specialize (D2 h Hh).
    match goal with |- Rabs ?a <= _ => match type of D2 with Rabs ?b <= _ => replace a with b end end; auto. inner_lin_all. ring. }
  pose proof (min_sum_subgrad_grad _ _ _ _ Hgr (convex_scal alpha _ ltac:(lra) Hg) Hm') as Hs'.
  apply (eq_scal_subgrad _ alpha) in Hs'; auto.
  replace (qs (S j)) with (/ alpha [*] vopp (df (xs (S j)) [+] (- alpha) [*] qs j)); [exact Hs'|]. rewrite Hq. vfield. lra.
Qed.

Lemma breg_mono j : (1 <= j)%nat -> (S j <= k)%nat -> f (xs (S j)) <= f (xs j).
Proof.
  intros H1 H2. destruct (breg_subgrad j ltac:(lia)) as [D1 Hs]. destruct Hd as [_ Hd']. destruct (Hd' j ltac:(lia)) as [[M1 M2] _].
  specialize (M2 (xs j) D1). specialize (Hs (xs (S j)) M1). cbn [eval S_Breg.breg_inner epre edom] in *. rewrite inner_sub_r in Hs. nra.
Qed.

(** Bregman distance from u *)
Definition breg_D (j : nat) (u : E) : R := eval g (A u) - eval g (A (xs j)) - << qs j, u [-] xs j >>.

Lemma breg_step j u : (1 <= j)%nat -> (S j <= k)%nat -> edom g (A u) ->
  breg_D (S j) u + (1 / alpha) * (f (xs (S j)) - f u) <= breg_D j u.
Proof.
  intros H1 H2 Hu. destruct (breg_subgrad j ltac:(lia)) as [D1 Hs]. destruct (breg_subgrad (S j) ltac:(lia)) as [D2 _].
  specialize (Hs (xs (S j)) D2). destruct Hd as [_ Hd']. destruct (Hd' j ltac:(lia)) as [_ Hq].
  pose proof (convex_grad_ineq f (xs (S j)) u _ Hf (Hdf _)) as Hc. cbn [eval epre] in Hs.
  assert (Hi : 0 < 1 / alpha) by (apply Rdiv_lt_0_compat; lra).
  apply (Rmult_le_compat_l (1 / alpha)) in Hc; [|lra].
  unfold breg_D. rewrite Hq. revert Hc Hs. inner_lin_all. set (c := 1 / alpha). intros. lra.
Qed.
Lemma breg_first u : (1 <= k)%nat -> edom g (A u) ->
  breg_D 1 u + (1 / alpha) * (f (xs 1%nat) - f u) <= eval g (A u) - eval g (A (xs 1%nat)).
Proof.
  intros H1 Hu. destruct Hd as [Q0 Hd']. destruct (Hd' 0%nat ltac:(lia)) as [_ Hq].
  pose proof (convex_grad_ineq f (xs 1%nat) u _ Hf (Hdf _)) as Hc.
  assert (Hi : 0 < 1 / alpha) by (apply Rdiv_lt_0_compat; lra).
  apply (Rmult_le_compat_l (1 / alpha)) in Hc; [|lra].
  unfold breg_D. rewrite Hq, Q0. revert Hc. inner_lin_all. set (c := 1 / alpha). intros. lra.
Qed.
Lemma breg_rate j u : (1 <= j <= k)%nat -> edom g (A u) ->
  INR j * (f (xs j) - f u) <= alpha * (eval g (A u) - eval g (A (xs 1%nat))).
Proof.
  intros Hj Hu. assert (Hi : 0 < 1 / alpha) by (apply Rdiv_lt_0_compat; lra).
  assert (G : forall j, (1 <= j <= k)%nat -> breg_D j u + (1 / alpha) * (INR j * (f (xs j) - f u)) <= eval g (A u) - eval g (A (xs 1%nat))).
  { induction j0 as [|i IH]; intro Hi'; [lia|]. destruct i as [|i].
    - pose proof (breg_first u ltac:(lia) Hu). cbn [INR]. lra.
    - specialize (IH ltac:(lia)). pose proof (breg_step (S i) u ltac:(lia) ltac:(lia) Hu) as H1. pose proof (breg_mono (S i) ltac:(lia) ltac:(lia)) as H2.
      rewrite (S_INR (S i)). assert (0 <= INR (S i)) by apply pos_INR.
      assert (INR (S i) * (f (xs (S (S i))) - f u) <= INR (S i) * (f (xs (S i)) - f u)) by (apply Rmult_le_compat_l; lra).
      assert ((1 / alpha) * (INR (S i) * (f (xs (S (S i))) - f u)) <= (1 / alpha) * (INR (S i) * (f (xs (S i)) - f u))) by (apply Rmult_le_compat_l; lra).
      lra. }
  specialize (G j Hj). destruct (breg_subgrad j Hj) as [_ Hs]. specialize (Hs u Hu). cbn [eval epre] in Hs.
  assert (0 <= breg_D j u) by (unfold breg_D; lra).
  assert (1 / alpha * (INR j * (f (xs j) - f u)) <= eval g (A u) - eval g (A (xs 1%nat))) by lra.
  apply (Rmult_le_compat_l alpha) in H0; [|lra]. replace (alpha * (1 / alpha * (INR j * (f (xs j) - f u)))) with (INR j * (f (xs j) - f u)) in H0 by (field; lra). lra.
Qed.
End Spec.

(*! C59_bregman : f convex and differentiable, g convex after the linear operator, float alpha > 0, an inner solver that is exact on the
   operators it is handed, any warm flag, tolerances, start and iteration bound.  Bregman never raises; its iterates follow the documented
   recursion; it stops after the first iteration j with |x_j - x_(j-1)| < tolx or f(x_j) < tolf (else after niterouter); for every
   computed j >= 1, q_j is a subgradient of g(A .) at x_j, f(x_j) never increases, and
   j (f(x_j) - f(u)) <= alpha (g(A u) - g(A x_1)) for every u in the domain *)
Lemma C59_bregman_l : forall (E F : IPS) (fuel : nat) (proxf : Op E) (proxg : Op F) f df g (A : E -> F) solver alpha x0 n warm tolx tolf,
  0 < alpha -> impl_prox proxf (etot f) -> impl_call proxf (etot f) -> (forall x, o_grad proxf x = Ok (Some (df x)) /\ is_grad f x (df x)) ->
  convex (etot f) -> impl_prox proxg g -> impl_call proxg g -> convex (epre g A) -> exact_solver f g A alpha solver ->
  exists xs qs k, Bregman (S fuel) proxf proxg x0 solver (PFloat alpha) n warm tolx tolf = Ok (xs k, map xs (seq 1 k)) /\
    xs 0%nat = x0 /\ breg_doc f df g A alpha xs qs k /\
    stops_when (fun j => norm (xs j [-] xs (j - 1)%nat) < tolx \/ f (xs j) < tolf) n k /\
    (forall j, (1 <= j <= k)%nat -> is_subgrad (epre g A) (xs j) (qs j)) /\
    (forall j, (1 <= j)%nat -> (S j <= k)%nat -> f (xs (S j)) <= f (xs j)) /\
    (forall j u, (1 <= j <= k)%nat -> edom g (A u) -> INR j * (f (xs j) - f u) <= alpha * (eval g (A u) - eval g (A (xs 1%nat)))).
Proof.
  intros E F fuel proxf proxg f df g A solver alpha x0 n warm tolx tolf Ha Pf Cf Gf Vf Pg Cg Vg Hx.
  destruct (scaling_prox F fuel proxg g alpha Ha Pg) as [ag [Eg [Pag Cag]]]. specialize (Cag Cg).
  set (Rl := fun (j : nat) (s s' : br_state E) (b : bool) =>
     (j = 0%nat -> br_q s = vzero) ->
     is_min (breg_inner f g A alpha (br_q s)) (br_x s') /\ br_q s' = br_q s [-] (1 / alpha) [*] df (br_x s') /\
     br_tr s' = br_tr s ++ [br_x s'] /\ (b = true <-> (norm (br_x s' [-] br_x s) < tolx \/ f (br_x s') < tolf))).
  destruct (loop_states_brk (br_body (S fuel) proxf ag x0 solver alpha warm tolx tolf) (fun j s => j = 0%nat -> br_q s = vzero) Rl n (BR x0 vzero []))
    as [st [bs [k [E1 [S0 [Hk [_ [HP [HR [Hb Hl]]]]]]]]]]; auto.
  - intros j s Hj Hq.
    assert (Hpq : exists o, (match j with O => Ok proxf | S _ => op_sub (S fuel) proxf (PArray (alpha [*] br_q s)) end) = Ok o /\
      impl_prox o (elin (etot f) (vopp (alpha [*] br_q s))) /\ impl_call o (elin (etot f) (vopp (alpha [*] br_q s))) /\
      impl_grad o (fun x => f x + << vopp (alpha [*] br_q s), x >>)).
    { destruct j as [|j].
      - exists proxf. split; auto. rewrite (Hq eq_refl). assert (Hz : forall x : E, << vopp (alpha [*] vzero), x >> = 0) by (intro; inner_lin_all; ring).
        split; [|split].
        + intros x tau Ht. destruct (Pf x tau Ht) as [p [Hp [_ Hm]]]. exists p. split; auto. split; [exact I|]. intros y _. specialize (Hm y I).
          cbn [eval elin etot] in *. rewrite !Hz. lra.
        + intros x _. rewrite (Cf x I). cbn [eval elin etot]. rewrite Hz, Rplus_0_r. reflexivity.
        + intro x. exists (df x). destruct (Gf x) as [G1 G2]. split; auto. intros eps He. destruct (G2 eps He) as [d [D1 D2]]. exists d. split; auto.
          intros h Hh. rewrite !Hz, !Rplus_0_r. auto.
      - destruct (affine_prox E fuel proxf (etot f) (vopp (alpha [*] br_q s)) Pf) as [o [H1 [H2 H3]]].
        destruct (affine_grad E fuel proxf f (vopp (alpha [*] br_q s))) as [o' [H4 H5]]; [intro x; exists (df x); apply Gf|].
        exists o. split; [exact H1|]. split; [exact H2|]. split; [exact (H3 Cf)|]. assert (o' = o) as <- by congruence. exact H5. }
    destruct Hpq as [o [Eo [Po [Co Go]]]]. unfold br_body. rewrite Eo. cbn [bind].
    destruct (Hx o ag (vopp (alpha [*] br_q s)) (if warm then br_x s else x0) Po Co Go Pag Cag) as [out [xo [-> [Hso Hm]]]]. apply solution_x in Hso. subst xo. cbn [bind].
    unfold get_grad. rewrite (proj1 (Gf (solver_x out))). cbn [bind]. rewrite pydiv_ok by lra. cbn [bind].
    unfold get_val. rewrite (Cf (solver_x out) I). cbn [bind as_num eval etot].
    eexists. eexists. split; [reflexivity|]. split; [|discriminate]. intros _. cbn [br_x br_q br_tr].
    split; [|split; [reflexivity|split; [reflexivity|]]].
    + destruct Hm as [[_ M1] M2]. split; [exact M1|]. intros y Hy. specialize (M2 y (conj I Hy)). cbn [eval eadd elin etot epre escal breg_inner] in *.
      rewrite !inner_opp_l, !inner_scal_l in M2. lra.
    + rewrite orb_true_iff, !Rltb_true. reflexivity.
  - exists (fun j => br_x (st j)), (fun j => br_q (st j)), k.
    assert (Hdoc : breg_doc f df g A alpha (fun j => br_x (st j)) (fun j => br_q (st j)) k).
    { split; [rewrite S0; reflexivity|]. intros j Hj. destruct (HR j Hj (HP j ltac:(lia))) as [H1 [H2 _]]. split; auto. }
    split; [|split; [|split; [|split; [|split; [|split]]]]]; auto.
    + unfold Bregman. rewrite Eg. cbn [bind num_of]. rewrite E1. cbn [bind fst]. do 2 f_equal.
      apply (trace_states st br_tr br_x); [rewrite S0; auto|]. intros j Hj. destruct (HR j Hj (HP j ltac:(lia))) as [_ [_ [H3 _]]]. exact H3.
    + rewrite S0. reflexivity.
    + apply (stops_when_intro _ bs); auto. intros j Hj. replace (S j - 1)%nat with j by lia. apply (HR j Hj (HP j ltac:(lia))).
    + intros j Hj. apply (breg_subgrad f df g A alpha Ha (fun x => proj2 (Gf x)) Vg (fun j => br_x (st j)) (fun j => br_q (st j)) k Hdoc j Hj).
    + intros j Hj1 Hj2. apply (breg_mono f df g A alpha Ha (fun x => proj2 (Gf x)) Vg (fun j => br_x (st j)) (fun j => br_q (st j)) k Hdoc j Hj1 Hj2).
    + intros j u Hj Hu. apply (breg_rate f df g A alpha Ha Vf (fun x => proj2 (Gf x)) Vg (fun j => br_x (st j)) (fun j => br_q (st j)) k Hdoc j u Hj Hu).
Qed.

(*! C59_start : for every solver, operators and arguments, whenever Bregman returns: the solver was called in every iteration with the current solution
   (warm=True) or with x0 (warm=False) as starting point, first with f itself and then with f - <alpha q, .>, and always with alpha g; its solution
   (the array or the first component of the tuple) is the next iterate, passed to the callback *)
Lemma C59_start_l : forall (E F : IPS) (fuel : nat) (proxf : Op E) (proxg : Op F) solver alpha x0 n warm tolx tolf x tr,
  Bregman fuel proxf proxg x0 solver (PFloat alpha) n warm tolx tolf = Ok (x, tr) ->
  exists xs qs ag k, op_rmul fuel proxg (PFloat alpha) = Ok ag /\ x = xs k /\ tr = map xs (seq 1 k) /\ xs 0%nat = x0 /\ qs 0%nat = vzero /\ (k <= n)%nat /\
    forall j, (j < k)%nat -> exists o out d,
      match j with O => o = proxf | S _ => op_sub fuel proxf (PArray (alpha [*] qs j)) = Ok o end /\
      solver o ag (if warm then xs j else x0) = Ok out /\ solution out (xs (S j)) /\
      o_grad proxf (xs (S j)) = Ok (Some d) /\ qs (S j) = qs j [-] (1 / alpha) [*] d.
Proof.
  intros E F fuel proxf proxg solver alpha x0 n warm tolx tolf x tr H. unfold Bregman in H.
  destruct (op_rmul fuel proxg (PFloat alpha)) as [ag|] eqn:Eg; [|discriminate]. cbn [bind num_of] in H.
  destruct (for_loop _ n 0 _) as [[s k]|] eqn:Ef; [|discriminate]. cbn [bind fst] in H. injection H as <- <-.
  set (P := fun k (s : br_state E) => exists xs qs : nat -> E, xs 0%nat = x0 /\ qs 0%nat = vzero /\ br_x s = xs k /\ br_q s = qs k /\ br_tr s = map xs (seq 1 k) /\
    forall j, (j < k)%nat -> exists o out d,
      match j with O => o = proxf | S _ => op_sub fuel proxf (PArray (alpha [*] qs j)) = Ok o end /\
      solver o ag (if warm then xs j else x0) = Ok out /\ solution out (xs (S j)) /\
      o_grad proxf (xs (S j)) = Ok (Some d) /\ qs (S j) = qs j [-] (1 / alpha) [*] d).
  destruct (fun A B => for_loop_inv _ P n 0%nat _ s k A B Ef) as [[xs [qs [X0 [Q0 [X1 [Q1 [X2 X3]]]]]]] [Hk _]].
  - intros j st st' b [xs [qs [X0 [Q0 [X1 [Q1 [X2 X3]]]]]]] Hb. unfold br_body in Hb.
    destruct (match j with O => Ok proxf | S _ => op_sub fuel proxf (PArray (alpha [*] br_q st)) end) as [o|] eqn:Eo; [|discriminate]. cbn [bind] in Hb.
    destruct (solver o ag (if warm then br_x st else x0)) as [out|] eqn:Es; [|discriminate]. cbn [bind] in Hb.
    unfold get_grad in Hb. destruct (o_grad proxf (solver_x out)) as [[d|]|] eqn:Ed; [|discriminate|discriminate]. cbn [bind] in Hb.
    destruct (pydiv 1 alpha) as [c|] eqn:Ec; [|discriminate]. cbn [bind] in Hb. destruct (get_val proxf (solver_x out)) as [pf|]; [|discriminate]. cbn [bind] in Hb.
    injection Hb as <- _. cbn [br_x br_q br_tr].
    assert (Hc : c = 1 / alpha). { unfold pydiv in Ec. destruct (Reqb alpha 0); [discriminate|]. injection Ec as <-. reflexivity. }
    exists (upd xs (S j) (solver_x out)), (upd qs (S j) (br_q st [-] c [*] d)). rewrite !upd_eq, map_upd_snoc, X2. rewrite !upd_lt by lia.
    do 5 (split; [auto|]). intros i Hi. destruct (Nat.eq_dec i j) as [->|Hne].
    + rewrite !upd_eq, (upd_lt xs (S j) _ j), (upd_lt qs (S j) _ j) by lia. exists o, out, d. rewrite <- X1, <- Q1, <- Hc. split; [destruct j; [congruence|exact Eo]|].
      split; auto. split; [apply solution_x; reflexivity|]. split; auto.
    + rewrite !upd_lt by lia. apply X3. lia.
  - exists (fun _ => x0), (fun _ => vzero). cbn. repeat split; auto. intros; lia.
  - exists xs, qs, ag, k. repeat (split; [auto; try lia|]). exact X3.
Qed.

(*! C59_int_alpha_refuted : an integer alpha never behaves as the float alpha: every call raises NotImplementedError *)
Lemma C59_int_alpha_refuted_l : forall (E F : IPS) fuel (proxf : Op E) (proxg : Op F) x0 solver z n warm tolx tolf,
  Bregman fuel proxf proxg x0 solver (PInt z) n warm tolx tolf = Err NotImplementedError.
Proof. reflexivity. Qed.

(** an exact inner solver for f = (x-1)^2/2, g = x^2/2, alpha = 1: it reads the tilt off the gradient at 0 *)
Definition solver1 (o1 o2 : Op R_IPS) (x0 : R_IPS) : result (solver_out R_IPS) :=
  g0 <- get_grad o1 (0 : R_IPS) ;; Ok (STup (- (g0 : R) / 2 : R_IPS) [x0]).
(*!ex C59_example : f = (x-1)^2/2, g = x^2/2, alpha = 1 and a solver returning a tuple meet the hypotheses of C59_bregman *)
Lemma C59_example_l : let f := fun x : R_IPS => 1 / 2 * ((x - 1) * (x - 1)) in
  let g := etot (E:=R_IPS) (fun x : R_IPS => 1 / 2 * (x * x)) in
  0 < 1 /\ impl_prox shifted1 (etot f) /\ impl_call shifted1 (etot f) /\
  (forall x : R_IPS, o_grad shifted1 x = Ok (Some (x - 1)) /\ is_grad f x (x - 1)) /\ convex (etot f) /\
  impl_prox (quad1 1) g /\ impl_call (quad1 1) g /\ convex (epre g (fun x : R_IPS => x)) /\
  exact_solver f g (fun x : R_IPS => x) 1 solver1.
Proof.
  intros f g.
  assert (Hgr : forall x : R_IPS, is_grad f x (x - 1)).
  { intros x eps He. exists (2 * eps). split; [lra|]. intros h Hh.
    assert (Hn : forall v : R_IPS, norm v = Rabs v). { intro v. unfold norm, norm2; simpl. apply sqrt_Rsqr_abs. }
    rewrite !Hn in *. unfold f. cbn.
    replace (1 / 2 * ((x + h - 1) * (x + h - 1)) - 1 / 2 * ((x - 1) * (x - 1)) - (x - 1) * h) with (1 / 2 * h * h) by field.
    rewrite Rabs_mult. apply Rmult_le_compat_r; [apply Rabs_pos|]. rewrite Rabs_mult, (Rabs_right (1 / 2)) by lra. lra. }
  assert (Hcv : convex (etot f)) by (intros x y a _ _ Ha; split; [exact I|]; unfold f; cbn; assert (0 <= a * (1 - a) * ((x - y) * (x - y))) by (apply Rmult_le_pos; [apply Rmult_le_pos; lra|apply Rle_0_sqr]); nra).
  split; [lra|]. split; [apply shifted1_prox|]. split; [intros x _; reflexivity|]. split; [intro x; split; auto; reflexivity|].
  split; [exact Hcv|]. split; [apply quad1_prox; lra|]. split; [intros x _; reflexivity|]. split.
  - apply (quad1_smooth 1); lra.
  - intros o1 o2 v x0 _ _ Hg _ _. unfold solver1, get_grad. destruct (Hg (0 : R_IPS)) as [d [-> Hd]]. cbn [bind].
    eexists. eexists. split; [reflexivity|]. split; [right; eexists; reflexivity|].
    assert (Hd' : d = (0 - 1) + v).
    { apply (grad_unique _ (0 : R_IPS) _ _ Hd). intros eps He. destruct (Hgr (0 : R_IPS) eps He) as [dl [D1 D2]]. exists dl. split; auto. intros h Hh. specialize (D2 h Hh).
      match goal with |- Rabs ?a <= _ => match type of D2 with Rabs ?b <= _ => replace a with b end end; auto. cbn. ring. }
    split; [split; exact I|]. intros y _. cbn. rewrite Hd'. unfold f. set (p := - (0 - 1 + v) / 2). assert (H : (v : R) = 1 - 2 * p) by (unfold p; change ((v : R) = 1 - 2 * (- (0 - 1 + (v : R)) / 2)); generalize (v : R); intro r; field). rewrite H.
    pose proof (Rle_0_sqr (y - p)). unfold Rsqr in *. nra.
Qed.

(** ** Plug-and-play *)
(*! C63_recursion : for every deterministic denoiser that always returns, every proxf that always returns at tau, tau > 0, dims matching
   the size of x: PlugAndPlay with the default solver never raises, returns (x_n, z_n), calls back once per iteration and its
   iterates are exactly x_(k+1) = prox_(tau f)(z_k - u_k), z_(k+1) = denoiser(x_(k+1) + u_k, tau), u_(k+1) = u_k + x_(k+1) - z_(k+1)
   (gfirst=False), or with the denoising step first (gfirst=True); tau reaches the denoiser unchanged *)
Lemma C63_recursion_l : forall m fuel (proxf : Op (Vec m)) (den : Vec m -> R -> result (Vec m)) D P dims (x0 : Vec m) tau n z0 (gfirst : bool),
  0 < tau -> fold_right Nat.mul 1%nat dims = m -> (forall x, den x tau = Ok (D x tau)) -> (forall x, o_prox proxf x tau = Ok (P x tau)) ->
  exists xs zs us, PlugAndPlay_default (S fuel) proxf den dims x0 tau n z0 gfirst = Ok (xs n, zs n, map (fun j => (xs j, zs j)) (seq 1 n)) /\
    xs 0%nat = x0 /\ zs 0%nat = (match z0 with Some z => z | None => x0 end) /\ us 0%nat = vzero /\
    forall j, (j < n)%nat ->
      (if gfirst then zs (S j) = D (xs j [+] us j) tau /\ xs (S j) = P (zs (S j) [-] us j) tau
       else xs (S j) = P (zs j [-] us j) tau /\ zs (S j) = D (xs (S j) [+] us j) tau) /\
      us (S j) = us j [+] xs (S j) [-] zs (S j).
Proof.
  intros m fuel proxf den D P dims x0 tau n z0 gfirst Ht Hd HD HP. unfold PlugAndPlay_default, PlugAndPlay.
  destruct (admm_run proxf (obj (S fuel) (denoise_body den dims)) (fun t x p => p = P x t) (fun t x p => p = D x t) tau (Some x0) z0 n gfirst x0 (match z0 with Some z => z | None => x0 end))
    as [xs [zs [us [E1 [X0 [Z0 [U0 H]]]]]]].
  - intro x. exists (P x tau). auto.
  - intro x. exists (D x tau). split; auto. cbn [o_prox obj d_prox b_prox denoise_body]. rewrite check_tau_pos, Hd, Nat.eqb_refl by auto. apply HD.
  - destruct z0; reflexivity.
  - exists xs, zs, us. split; [exact E1|]. split; auto.
Qed.

(*! C63_prox_denoiser : if the denoiser is the prox of a convex g then plug-and-play is ADMM for f + g: it has ADMM's Lyapunov
   decrease for every solution of min f + g *)
Lemma C63_prox_denoiser_l : forall m fuel (proxf : Op (Vec m)) den dims (x0 : Vec m) tau n z0 f g,
  0 < tau -> fold_right Nat.mul 1%nat dims = m -> (forall x t, 0 < t -> exists p, den x t = Ok p /\ is_prox g t x p) -> impl_prox proxf f ->
  convex f -> convex g ->
  exists xs zs us, PlugAndPlay_default (S fuel) proxf den dims x0 tau n z0 false = Ok (xs n, zs n, map (fun j => (xs j, zs j)) (seq 1 n)) /\
    admm_doc f g tau xs zs us n /\
    (forall j, (j < n)%nat -> zs (S j) = zs j -> us (S j) = us j -> xs (S j) = zs (S j) /\ is_min (eadd f g) (xs (S j))) /\
    forall xo u, kkt f g xo u -> forall j, (j < n)%nat ->
      norm2 (zs (S j) [-] xo) + norm2 (us (S j) [+] tau [*] u) <= norm2 (zs j [-] xo) + norm2 (us j [+] tau [*] u).
Proof.
  intros m fuel proxf den dims x0 tau n z0 f g Ht Hd HD Hf Cf Cg.
  assert (Hg : impl_prox (obj (S fuel) (denoise_body den dims)) g).
  { intros x t Htt. cbn [o_prox obj d_prox b_prox denoise_body]. rewrite check_tau_pos, Hd, Nat.eqb_refl by auto. apply HD. auto. }
  destruct (C47_lyapunov_l (Vec m) proxf _ f g tau (Some x0) z0 n x0 (match z0 with Some z => z | None => x0 end) Hf Hg Cf Cg Ht ltac:(destruct z0; reflexivity))
    as [xs [zs [us [E1 [_ [Hdoc [_ [Hfix HL]]]]]]]].
  exists xs, zs, us. split; [exact E1|]. split; [exact Hdoc|]. split; [exact Hfix|]. intros xo u Hk j Hj. destruct (HL xo u Hk) as [L _]. apply L; auto.
Qed.

(*! C63_rejects : tau <= 0 and dims not matching the vector raise ValueError from the first denoising step on (proxf itself working) *)
Lemma C63_rejects_l : forall m fuel (proxf : Op (Vec m)) den dims (x0 : Vec m) tau n z0 P,
  (forall x, o_prox proxf x tau = Ok (P x)) -> tau <= 0 \/ fold_right Nat.mul 1%nat dims <> m ->
  PlugAndPlay_default (S fuel) proxf den dims x0 tau (S n) z0 false = Err ValueError.
Proof.
  intros m fuel proxf den dims x0 tau n z0 P HP H. unfold PlugAndPlay_default, PlugAndPlay, ADMM.
  assert (Hi : exists xz, x0z0_init (Some x0) z0 = Ok xz) by (destruct z0; eexists; reflexivity). destruct Hi as [xz ->]. cbn [bind for_loop].
  unfold admm_body at 1. rewrite HP. cbn [bind o_prox obj d_prox b_prox denoise_body]. unfold check_tau.
  destruct H as [H|H].
  - destruct (Rleb_spec tau 0) as [[_ ->]|[? _]]; [reflexivity|lra].
  - apply Nat.eqb_neq in H. rewrite H. destruct (Rleb tau 0); reflexivity.
Qed.

(*!ex C63_example : shrinking by 1/(1+tau) is a denoiser that always returns; it is the prox of |x|^2/2, so it meets the hypotheses of
   C63_recursion and C63_prox_denoiser with dims = [m] *)
Lemma C63_example_l : forall m : nat, let den := fun (x : Vec m) (t : R) => Ok (/ (1 + t) [*] x) in
  fold_right Nat.mul 1%nat [m] = m /\ (forall x, den x 1 = Ok (/ (1 + 1) [*] x)) /\
  (forall x t, 0 < t -> exists p, den x t = Ok p /\ is_prox (hsq_fun (Vec m)) t x p) /\ convex (hsq_fun (Vec m)).
Proof.
  intros m den. split; [simpl; lia|]. split; [reflexivity|]. split; [|apply hsq_convex].
  intros x t Ht. eexists. split; [reflexivity|]. apply hsq_prox. auto.
Qed.
