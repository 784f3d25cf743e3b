(** * Proofs about the gradient self-tests (M_GradTest.v) *)
From Coq Require Import Psatz.
From Verif Require Import Base M_GradTest.
From Verif Require Export S_GradTest.
Open Scope result_scope.
Open Scope R_scope.

(** ** Specification *)

Lemma set_at_length {A} (l : list A) i a : length (set_at l i a) = length l.
Proof. revert i; induction l as [|b l IH]; intros [|i]; simpl; auto. Qed.
Lemma set_at_nth {A} (l : list A) i a d k : (k < length l)%nat -> nth k (set_at l i a) d = if Nat.eqb k i then a else nth k l d.
Proof.
  revert i k; induction l as [|b l IH]; intros i k Hk; simpl in Hk; [lia|]. destruct i as [|i], k as [|k]; simpl; auto. apply IH. lia.
Qed.
Lemma perturb_ok isreal x i d : (i < length x)%nat -> (isreal = true -> all_real x /\ cim d = 0) -> exists x', perturb isreal x i d = Ok x' /\ shifted_at x i d x'.
Proof.
  intros Hi Hr. unfold perturb. destruct (nth_error x i) as [v|] eqn:Ev; [|apply nth_error_None in Ev; lia]. assert (EV : nth i x (Cx 0 0) = v) by (apply nth_error_nth; exact Ev).
  eexists. split; [reflexivity|]. split; [apply set_at_length|]. intros a Ha. rewrite set_at_nth by auto. destruct (Nat.eqb_spec a i) as [->|]; [|reflexivity]. rewrite EV.
  destruct isreal; [|reflexivity]. destruct (Hr eq_refl) as [H1 H2]. specialize (H1 i Hi). rewrite EV in H1. unfold cadd. simpl. f_equal. lra.
Qed.
Lemma isclose0 a rtol atol : isclose a 0 rtol atol = true <-> Rabs a <= atol.
Proof. unfold isclose. rewrite Rleb_true, Rminus_0_r, Rabs_R0, Rmult_0_r, Rplus_0_r. reflexivity. Qed.
Lemma passed_iff f fd d g imag rtol atol : d <> 0 -> (passed_test f fd d g imag rtol atol = true <-> Rabs ((fd - f) / Rabs d - (if imag then cim g else cre g)) <= atol).
Proof. intro Hd. unfold passed_test. destruct (Reqb_spec d 0) as [[? _]|[_ ->]]; [contradiction|]. apply isclose0. Qed.

(*! C62_outcome : what gradtest_proximal decides: with the draw r_or_i = 0, or with a complex x, it compares the difference quotient in the real or imaginary direction of entry iqx with
   the real or imaginary part of the gradient entry, and passes exactly when they differ by at most atol; rtol has no influence; a failed test raises or returns False as asked *)
Lemma C62_outcome_l : forall (F : list cx -> R) (G : list cx -> list cx) isreal x delta rtol atol raiseerror iqx r, (iqx < length x)%nat -> (iqx < length (G x))%nat -> delta <> 0 ->
  (isreal = true -> all_real x /\ r = 0%nat) ->
  exists b x', verdict raiseerror b x' (gradtest_proximal (fun v => Ok (F v)) (fun v => Ok (G v)) isreal x delta rtol atol raiseerror iqx r) /\
    shifted_at x iqx (if Nat.eqb r 0 then Cx delta 0 else Cx 0 delta) x' /\
    (b = true <-> Rabs ((F x' - F x) / Rabs delta - (if Nat.eqb r 0 then cre (nth iqx (G x) (Cx 0 0)) else cim (nth iqx (G x) (Cx 0 0)))) <= atol).
Proof.
  intros F G isreal x delta rtol atol re iqx r Hi Hg Hd Hr. unfold gradtest_proximal. cbn [bind].
  destruct (perturb_ok isreal x iqx (if negb (Nat.eqb r 0) then Cx 0 delta else Cx delta 0) Hi) as [x' [E1 H1]].
  { intro H. destruct (Hr H) as [Ha ->]. split; [exact Ha|reflexivity]. }
  rewrite E1. cbn [bind]. destruct (nth_error (G x) iqx) as [g|] eqn:Eg; [|apply nth_error_None in Eg; lia]. assert (EV : nth iqx (G x) (Cx 0 0) = g) by (apply nth_error_nth; exact Eg). cbn [bind].
  eexists _, x'. split; [unfold verdict; reflexivity|]. split; [destruct (Nat.eqb r 0); exact H1|]. rewrite passed_iff by auto. rewrite EV. destruct (Nat.eqb r 0); reflexivity.
Qed.

(*! C62_detects : real x, draw r_or_i = 0: if D is the partial derivative at entry iqx up to a second-order term with curvature L, then a test that passes has a gradient entry within
   atol + L |delta| / 2 of D, and every entry within atol - L |delta| / 2 of D passes (positive delta) *)
Lemma C62_detects_l : forall (F : list cx -> R) (G : list cx -> list cx) isreal x delta rtol atol raiseerror iqx D L, (iqx < length x)%nat -> (iqx < length (G x))%nat -> 0 < delta -> all_real x ->
  (forall x', shifted_at x iqx (Cx delta 0) x' -> Rabs (F x' - F x - delta * D) <= L / 2 * (delta * delta)) ->
  exists b x', verdict raiseerror b x' (gradtest_proximal (fun v => Ok (F v)) (fun v => Ok (G v)) isreal x delta rtol atol raiseerror iqx 0) /\
    (b = true -> Rabs (cre (nth iqx (G x) (Cx 0 0)) - D) <= atol + L * delta / 2) /\ (Rabs (cre (nth iqx (G x) (Cx 0 0)) - D) <= atol - L * delta / 2 -> b = true).
Proof.
  intros F G isreal x delta rtol atol re iqx D L Hi Hg Hd Hx HD. destruct (C62_outcome_l F G isreal x delta rtol atol re iqx 0 Hi Hg ltac:(lra) (fun _ => conj Hx eq_refl)) as (b & x' & H1 & H2 & H3).
  exists b, x'. split; [exact H1|]. cbn [Nat.eqb] in *. specialize (HD x' H2). set (g := cre _) in *. rewrite (Rabs_right delta) in H3 by lra. set (q := (F x' - F x) / delta) in *.
  assert (HQ : Rabs (q - D) <= L * delta / 2). { replace (q - D) with ((F x' - F x - delta * D) / delta) by (unfold q; field; lra). unfold Rdiv. rewrite Rabs_mult, Rabs_inv, (Rabs_right delta) by lra.
    apply Rmult_le_reg_r with delta; [lra|]. rewrite Rmult_assoc, Rinv_l by lra. lra. }
  split.
  - intro Hb. apply H3 in Hb. replace (g - D) with (- (q - g) + (q - D)) by ring. eapply Rle_trans; [apply Rabs_triang|]. rewrite Rabs_Ropp. lra.
  - intro Hb. apply H3. replace (q - g) with (- (g - D) + (q - D)) by ring. eapply Rle_trans; [apply Rabs_triang|]. rewrite Rabs_Ropp. lra.
Qed.

(*! C62_imaginary_draw_refuted : with a real x half of the draws check nothing: when r_or_i is not 0 the perturbation is dropped by the assignment and the test passes for every function and every
   real "gradient", however wrong *)
Lemma C62_imaginary_draw_refuted_l : forall (F : list cx -> R) (G : list cx -> list cx) x delta rtol atol raiseerror iqx r, (iqx < length x)%nat -> (iqx < length (G x))%nat -> delta <> 0 -> 0 <= atol ->
  all_real x -> all_real (G x) -> r <> 0%nat -> gradtest_proximal (fun v => Ok (F v)) (fun v => Ok (G v)) true x delta rtol atol raiseerror iqx r = Ok (true, x).
Proof.
  intros F G x delta rtol atol re iqx r Hi Hg Hd Ha Hx HG Hr. unfold gradtest_proximal. cbn [bind]. destruct (Nat.eqb_spec r 0) as [?|_]; [contradiction|]. cbn [negb].
  assert (EP : perturb true x iqx (Cx 0 delta) = Ok x).
  { unfold perturb. destruct (nth_error x iqx) as [v|] eqn:Ev; [|apply nth_error_None in Ev; lia]. assert (EV : nth iqx x (Cx 0 0) = v) by (apply nth_error_nth; exact Ev). specialize (Hx iqx Hi). rewrite EV in Hx.
    assert (E1 : Cx (cre (cadd v (Cx 0 delta))) 0 = v) by (destruct v; unfold cadd; simpl in *; f_equal; lra). rewrite E1. f_equal.
    apply (nth_ext _ _ (Cx 0 0) (Cx 0 0)); [apply set_at_length|]. intros a Hl. rewrite set_at_length in Hl. rewrite set_at_nth by auto. destruct (Nat.eqb_spec a iqx) as [->|]; auto. }
  rewrite EP. cbn [bind]. destruct (nth_error (G x) iqx) as [g|] eqn:Eg; [|apply nth_error_None in Eg; lia]. assert (EV : nth iqx (G x) (Cx 0 0) = g) by (apply nth_error_nth; exact Eg). specialize (HG iqx Hg). rewrite EV in HG. cbn [bind].
  assert (EP2 : passed_test (F x) (F x) delta g true rtol atol = true). { apply passed_iff; auto. rewrite HG. replace ((F x - F x) / Rabs delta - 0) with 0 by (unfold Rdiv; ring). rewrite Rabs_R0. exact Ha. }
  rewrite EP2. reflexivity.
Qed.

(*! C62_default_refuted : with the default delta, rtol and atol the test rejects correct gradients: for f(t) = t^2 and its exact gradient 2t, at every point, the real draw raises AssertionError, since
   only atol = 1e-21 is granted for a truncation error of delta = 1e-6 *)
Lemma C62_default_refuted_l : forall t, (forall h, sqf [Cx (t + h) 0] - sqf [Cx t 0] - h * cre (nth 0 (sqg [Cx t 0]) (Cx 0 0)) = h * h) /\
  gradtest_proximal (fun v => Ok (sqf v)) (fun v => Ok (sqg v)) true [Cx t 0] (/ 10 ^ 6) (/ 10 ^ 6) (/ 10 ^ 21) true 0 0 = Err AssertionError.
Proof.
  intro t. split; [intro h; simpl; ring|]. destruct (C62_outcome_l sqf sqg true [Cx t 0] (/ 10 ^ 6) (/ 10 ^ 6) (/ 10 ^ 21) true 0 0) as (b & x' & H1 & H2 & H3).
  1,2: simpl; lia. { apply Rgt_not_eq, Rinv_0_lt_compat, pow_lt; lra. } { intros _. split; [intros a Ha; destruct a; [reflexivity|simpl in Ha; lia]|reflexivity]. }
  unfold verdict in H1. destruct b; [|exact H1]. exfalso. destruct H3 as [H3 _]. specialize (H3 eq_refl). destruct H2 as [HL H2]. destruct x' as [|v [|? ?]]; simpl in HL; try lia. specialize (H2 0%nat ltac:(simpl; lia)). cbn [Nat.eqb nth] in H2. subst v. cbn [Nat.eqb nth sqg map cre sqf cadd] in H3.
  assert (HP : 0 < / 10 ^ 6) by (apply Rinv_0_lt_compat, pow_lt; lra). set (d := / 10 ^ 6) in *. rewrite (Rabs_right d) in H3 by lra. replace (((t + d) * (t + d) - t * t) / d - 2 * t) with d in H3 by (field; lra). rewrite Rabs_right in H3 by lra.
  assert (/ 10 ^ 21 < d); [|lra]. unfold d. apply Rinv_lt_contravar; [apply Rmult_lt_0_compat; apply pow_lt; lra|]. apply Rlt_pow; [lra|lia].
Qed.

(*! C62_negative_delta_refuted : a negative delta compares with the opposite of the derivative, because the quotient divides by |delta|: the exact gradient of f(t) = t is rejected unless atol >= 2 *)
Lemma C62_negative_delta_refuted_l : forall t delta rtol atol, delta < 0 -> atol < 2 ->
  gradtest_proximal (fun v => Ok (match v with [] => 0 | a :: _ => cre a end)) (fun v => Ok (map (fun _ => Cx 1 0) v)) true [Cx t 0] delta rtol atol true 0 0 = Err AssertionError.
Proof.
  intros t delta rtol atol Hd Ha. set (F := fun v => match v with [] => 0 | a :: _ => cre a end). set (G := map (fun _ : cx => Cx 1 0)).
  destruct (C62_outcome_l F G true [Cx t 0] delta rtol atol true 0 0) as (b & x' & H1 & H2 & H3).
  1,2: simpl; lia. { lra. } { intros _. split; [intros a Hl; destruct a; [reflexivity|simpl in Hl; lia]|reflexivity]. }
  unfold verdict in H1. destruct b; [|exact H1]. exfalso. destruct H3 as [H3 _]. specialize (H3 eq_refl). destruct H2 as [HL H2]. destruct x' as [|v [|? ?]]; simpl in HL; try lia. specialize (H2 0%nat ltac:(simpl; lia)). cbn [Nat.eqb nth] in H2. subst v.
  cbn in H3. rewrite (Rabs_left delta) in H3 by lra. replace ((t + delta - t) / - delta - 1) with (-2) in H3 by (field; lra). rewrite Rabs_left in H3; lra.
Qed.

(*! C62_mutation_refuted : the test is not read-only: with the draw r_or_i = 0 the caller's x is left perturbed at entry iqx, whether the test passes or not *)
Lemma C62_mutation_refuted_l : forall (F : list cx -> R) (G : list cx -> list cx) isreal x delta rtol atol iqx, (iqx < length x)%nat -> (iqx < length (G x))%nat -> delta <> 0 -> all_real x ->
  exists b x', gradtest_proximal (fun v => Ok (F v)) (fun v => Ok (G v)) isreal x delta rtol atol false iqx 0 = Ok (b, x') /\ cre (nth iqx x' (Cx 0 0)) = cre (nth iqx x (Cx 0 0)) + delta /\ x' <> x.
Proof.
  intros F G isreal x delta rtol atol iqx Hi Hg Hd Hx. destruct (C62_outcome_l F G isreal x delta rtol atol false iqx 0 Hi Hg Hd (fun _ => conj Hx eq_refl)) as (b & x' & H1 & [HL H2] & _). exists b, x'. unfold verdict in H1. rewrite andb_false_r in H1. split; [exact H1|].
  specialize (H2 iqx Hi). rewrite Nat.eqb_refl in H2. cbn [Nat.eqb] in H2. rewrite H2. split; [reflexivity|]. intros ->. destruct (nth iqx x (Cx 0 0)) as [a b0]. unfold cadd in H2. simpl in H2. injection H2 as H2 _. lra.
Qed.

(*! C62_bilinear : gradtest_bilinear on real factors always perturbs the real part of the drawn entry of x or y and passes exactly when the difference quotient is within atol of that gradient entry *)
Lemma C62_bilinear_l : forall (F : list cx -> list cx -> R) (GX GY : list cx -> list cx) isreal x y delta rtol atol raiseerror iqx iqy xy r, (iqx < length x)%nat -> (iqy < length y)%nat -> (iqx < length (GX x))%nat -> (iqy < length (GY y))%nat ->
  delta <> 0 -> all_real x -> all_real y -> let test := gradtest_bilinear (fun u v => Ok (F u v)) (fun v => Ok (GX v)) (fun v => Ok (GY v)) isreal x y delta rtol atol false raiseerror iqx iqy xy r in
  (xy = 0%nat -> exists b x', verdict raiseerror b (x', y) test /\ shifted_at x iqx (Cx delta 0) x' /\ (b = true <-> Rabs ((F x' y - F x y) / Rabs delta - cre (nth iqx (GX x) (Cx 0 0))) <= atol)) /\
  (xy <> 0%nat -> exists b y', verdict raiseerror b (x, y') test /\ shifted_at y iqy (Cx delta 0) y' /\ (b = true <-> Rabs ((F x y' - F x y) / Rabs delta - cre (nth iqy (GY y) (Cx 0 0))) <= atol)).
Proof.
  intros F GX GY isreal x y delta rtol atol re iqx iqy xy r Hi Hj Hg Hh Hd Hx Hy test. unfold test, gradtest_bilinear. cbn [bind andb]. split; intro Hxy.
  - subst xy. cbn [Nat.eqb]. destruct (perturb_ok isreal x iqx (Cx delta 0) Hi (fun _ => conj Hx eq_refl)) as [x' [E1 H1]]. rewrite E1. cbn [bind].
    destruct (nth_error (GX x) iqx) as [g|] eqn:Eg; [|apply nth_error_None in Eg; lia]. rewrite (nth_error_nth _ _ (Cx 0 0) Eg). cbn [bind]. eexists _, x'. split; [unfold verdict; reflexivity|]. split; [exact H1|]. apply (passed_iff _ _ _ g false); auto.
  - destruct (Nat.eqb_spec xy 0); [contradiction|]. destruct (perturb_ok isreal y iqy (Cx delta 0) Hj (fun _ => conj Hy eq_refl)) as [y' [E1 H1]]. rewrite E1. cbn [bind].
    destruct (nth_error (GY y) iqy) as [g|] eqn:Eg; [|apply nth_error_None in Eg; lia]. rewrite (nth_error_nth _ _ (Cx 0 0) Eg). cbn [bind]. eexists _, y'. split; [unfold verdict; reflexivity|]. split; [exact H1|]. apply (passed_iff _ _ _ g false); auto.
Qed.
(*!ex C62_example : the square function at the point 3 with the tolerance 1e-3 of the project's own tests: the exact gradient passes, the wrong gradient 2t + 1 raises *)
Lemma C62_example_l : (exists x', gradtest_proximal (fun v => Ok (sqf v)) (fun v => Ok (sqg v)) true [Cx 3 0] (/ 10 ^ 6) (/ 10 ^ 6) (/ 10 ^ 3) true 0 0 = Ok (true, x')) /\
  gradtest_proximal (fun v => Ok (sqf v)) (fun v => Ok (map (fun a => Cx (2 * cre a + 1) 0) v)) true [Cx 3 0] (/ 10 ^ 6) (/ 10 ^ 6) (/ 10 ^ 3) true 0 0 = Err AssertionError.
Proof.
  assert (Hx : all_real [Cx 3 0]) by (intros a Ha; destruct a; [reflexivity|simpl in Ha; lia]).
  assert (HD : forall x', shifted_at [Cx 3 0] 0 (Cx (/ 10 ^ 6) 0) x' -> Rabs (sqf x' - sqf [Cx 3 0] - / 10 ^ 6 * 6) <= 2 / 2 * (/ 10 ^ 6 * / 10 ^ 6)).
  { intros x' [HL H2]. destruct x' as [|v [|? ?]]; simpl in HL; try lia. specialize (H2 0%nat ltac:(simpl; lia)). cbn [Nat.eqb nth] in H2. subst v. cbn [sqf cadd cre]. match goal with |- Rabs ?a <= ?b => replace a with (/ 10 ^ 6 * / 10 ^ 6) by ring end. rewrite Rabs_right; [lra|]. apply Rle_ge. lra. }
  split.
  - destruct (C62_detects_l sqf sqg true [Cx 3 0] (/ 10 ^ 6) (/ 10 ^ 6) (/ 10 ^ 3) true 0 6 2 ltac:(simpl; lia) ltac:(simpl; lia) ltac:(lra) Hx HD) as (b & x' & H1 & _ & H3). cbn [nth sqg map cre] in H3. rewrite H3 in H1 by (replace (2 * 3 - 6) with 0 by ring; rewrite Rabs_R0; lra). exists x'. exact H1.
  - destruct (C62_detects_l sqf (map (fun a => Cx (2 * cre a + 1) 0)) true [Cx 3 0] (/ 10 ^ 6) (/ 10 ^ 6) (/ 10 ^ 3) true 0 6 2 ltac:(simpl; lia) ltac:(simpl; lia) ltac:(lra) Hx HD) as (b & x' & H1 & H3 & _). cbn [nth map cre] in H3.
    destruct b; [|exact H1]. specialize (H3 eq_refl). replace (2 * 3 + 1 - 6) with 1 in H3 by ring. rewrite Rabs_R1 in H3. lra.
Qed.
