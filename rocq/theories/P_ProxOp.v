(** * Proofs about the operator algebra (M_ProxOp.v) *)
From Verif Require Import Base Space Spec ConvexFacts M_ProxOp SpecOps.
From Coq Require Import Psatz.
Open Scope result_scope.

Lemma check_tau_pos {A} tau (k : result A) : 0 < tau -> check_tau tau k = k.
Proof. intro H; unfold check_tau. destruct (Rleb_spec tau 0) as [[? ->]|[? ->]]; auto; lra. Qed.
Lemma check_tau_neg {A} tau (k : result A) : tau <= 0 -> check_tau tau k = Err ValueError.
Proof. intro H; unfold check_tau. destruct (Rleb_spec tau 0) as [[? ->]|[? ->]]; auto; lra. Qed.

(** ** C01: the step-size guard *)

(*! C01_guard_rejects : whatever methods a class overrides, prox and proxdual with tau <= 0
   raise ValueError before anything else is computed *)
Lemma guard_rejects : forall (E : IPS) (fuel : nat) (b : Body E) (x : E) (tau : R),
  tau <= 0 ->
  o_prox (obj (S fuel) b) x tau = Err ValueError /\
  o_proxdual (obj (S fuel) b) x tau = Err ValueError.
Proof.
  intros E fuel b x tau H; simpl.
  split; [destruct (b_prox b) | destruct (b_proxdual b)]; apply check_tau_neg; auto.
Qed.

(*! C01_guard_transparent : with tau > 0 the guard adds nothing: an overridden method returns
   exactly what its body computes *)
Lemma guard_transparent : forall (E : IPS) (fuel : nat) (b : Body E) (x : E) (tau : R),
  0 < tau ->
  (forall m, b_prox b = Some m -> o_prox (obj (S fuel) b) x tau = m x tau) /\
  (forall m, b_proxdual b = Some m -> o_proxdual (obj (S fuel) b) x tau = m x tau).
Proof.
  intros E fuel b x tau H; simpl.
  split; intros m ->; apply check_tau_pos; auto.
Qed.

(*! C01_guard_array : for a vector of steps, one non-positive entry is enough to reject and
   otherwise the call goes through *)
Lemma guard_array : forall (A : Type) (taus : list R) (k : result A),
  ((exists t, In t taus /\ t <= 0) -> check_tau_array taus k = Err ValueError) /\
  ((forall t, In t taus -> 0 < t) -> check_tau_array taus k = k).
Proof.
  intros A taus k; unfold check_tau_array; split.
  - intros [t [Hin Ht]].
    assert (H : existsb (fun t => Rleb t 0) taus = true).
    { apply existsb_exists. exists t; split; auto. apply Rleb_true; auto. }
    rewrite H; reflexivity.
  - intro H. assert (H' : existsb (fun t => Rleb t 0) taus = false).
    { destruct (existsb _ taus) eqn:He; auto. apply existsb_exists in He.
      destruct He as [t [Hin Ht]]. apply Rleb_true in Ht. specialize (H t Hin). lra. }
    rewrite H'; reflexivity.
Qed.

(*! C01_keyword_tau_refuted : the guard is not transparent for the call form prox(x, tau=t): a
   positive step passed by keyword always raises IndexError *)
Lemma keyword_tau_refuted : forall (A : Type) (t : R) (k : R -> result A),
  0 < t -> check_tau_call (Keyword t) k = Err IndexError /\ check_tau_call (Positional t) k = k t.
Proof. intros A t k H; simpl; split; auto. apply check_tau_pos; auto. Qed.

(** ** C02: default methods *)

(*! C02_default_proxdual : if a class overrides prox only, and its prox is the exact proximal
   map of a convex f, then the inherited proxdual is the exact proximal map of the conjugate *)
Lemma default_proxdual : forall (E : IPS) (fuel : nat) (b : Body E) (f fs : efun E) m,
  b_prox b = Some m -> b_proxdual b = None ->
  convex f -> is_conj f fs ->
  (forall x tau, 0 < tau -> exists p, m x tau = Ok p /\ is_prox f tau x p) ->
  impl_prox (obj (S (S fuel)) b) f /\ impl_proxdual (obj (S (S fuel)) b) fs.
Proof.
  intros E fuel b f fs m Hp Hd Hc Hcj Hm; split; intros x tau Ht.
  - simpl. rewrite Hp, check_tau_pos by auto. auto.
  - simpl. rewrite Hd, Hp. rewrite check_tau_pos by auto.
    assert (Ht' : 0 < 1 / tau) by (apply Rdiv_lt_0_compat; lra).
    rewrite check_tau_pos by auto.
    destruct (Hm (/ tau [*] x) (1 / tau) Ht') as [p [-> Hpp]]. simpl.
    eexists; split; [reflexivity|].
    pose proof (moreau_decomposition f fs _ _ _ Hc Hcj Ht' Hpp) as H.
    replace (/ (1 / tau)) with tau in H by (field; lra).
    replace (tau [*] (/ tau [*] x)) with x in H by (vfield; lra).
    replace (tau [*] (/ tau [*] x [-] p)) with (x [-] tau [*] p) in H by (vfield; lra).
    exact H.
Qed.

(*! C02_default_prox : symmetrically, a class that overrides proxdual only (exact prox of fs, with
   f the conjugate of fs) inherits an exact prox of f *)
Lemma default_prox : forall (E : IPS) (fuel : nat) (b : Body E) (f fs : efun E) m,
  b_proxdual b = Some m -> b_prox b = None ->
  convex fs -> is_conj fs f ->
  (forall x tau, 0 < tau -> exists p, m x tau = Ok p /\ is_prox fs tau x p) ->
  impl_proxdual (obj (S (S fuel)) b) fs /\ impl_prox (obj (S (S fuel)) b) f.
Proof.
  intros E fuel b f fs m Hd Hp Hc Hcj Hm; split; intros x tau Ht.
  - simpl. rewrite Hd, check_tau_pos by auto. auto.
  - simpl. rewrite Hd, Hp. rewrite check_tau_pos by auto.
    assert (Ht' : 0 < 1 / tau) by (apply Rdiv_lt_0_compat; lra).
    rewrite check_tau_pos by auto.
    destruct (Hm (/ tau [*] x) (1 / tau) Ht') as [p [-> Hpp]]. simpl.
    eexists; split; [reflexivity|].
    pose proof (moreau_decomposition fs f _ _ _ Hc Hcj Ht' Hpp) as H.
    replace (/ (1 / tau)) with tau in H by (field; lra).
    replace (tau [*] (/ tau [*] x)) with x in H by (vfield; lra).
    replace (tau [*] (/ tau [*] x [-] p)) with (x [-] tau [*] p) in H by (vfield; lra).
    exact H.
Qed.

(*! C02_moreau_identity : for a class overriding exactly one of prox and proxdual (any body, convex
   or not), x = prox(x,tau) + tau * proxdual(x/tau, 1/tau) whenever the calls succeed *)
Lemma moreau_identity : forall (E : IPS) (fuel : nat) (b : Body E) x tau p,
  (b_prox b = None /\ b_proxdual b <> None) \/ (b_prox b <> None /\ b_proxdual b = None) ->
  0 < tau ->
  o_prox (obj (S (S fuel)) b) x tau = Ok p ->
  exists q, o_proxdual (obj (S (S fuel)) b) (/ tau [*] x) (1 / tau) = Ok q /\
            x = p [+] tau [*] q.
Proof.
  intros E fuel b x tau p Hov Ht Hp.
  assert (Ht' : 0 < 1 / tau) by (apply Rdiv_lt_0_compat; lra).
  simpl in *.
  destruct Hov as [[Hb1 Hb2]|[Hb1 Hb2]].
  - rewrite Hb1 in Hp. destruct (b_proxdual b) as [m|] eqn:Hm; [|congruence].
    rewrite !check_tau_pos in Hp by auto. rewrite check_tau_pos by auto.
    destruct (m (/ tau [*] x) (1 / tau)) as [q|e]; simpl in Hp; [|discriminate].
    injection Hp as <-. exists q; split; auto. vring.
  - rewrite Hb2. destruct (b_prox b) as [m|] eqn:Hm; [|congruence].
    rewrite check_tau_pos in Hp by auto. rewrite check_tau_pos by auto.
    assert (Hii : 1 / (1 / tau) = tau) by (field; lra).
    assert (Hx : / (1 / tau) [*] (/ tau [*] x) = x) by (vfield; lra).
    rewrite Hii, Hx, check_tau_pos by auto. rewrite Hp; simpl.
    eexists; split; [reflexivity|]. vfield; lra.
Qed.

(** ** C03: neither method overridden *)
Lemma no_override_aux : forall (E : IPS) (fuel : nat) (b : Body E),
  b_prox b = None -> b_proxdual b = None ->
  forall x tau, 0 < tau ->
  d_prox fuel b x tau = Err RecursionError /\ d_proxdual fuel b x tau = Err RecursionError.
Proof.
  intros E fuel b H1 H2; induction fuel as [|k IH]; intros x tau Ht; simpl; auto.
  rewrite H1, H2, !check_tau_pos by auto.
  assert (Ht' : 0 < 1 / tau) by (apply Rdiv_lt_0_compat; lra).
  destruct (IH (/ tau [*] x) (1 / tau) Ht') as [-> ->]. simpl; auto.
Qed.

(*! C03_no_override_diverges : an operator overriding neither prox nor proxdual never produces a
   value: for every recursion limit both methods end in a recursion error *)
Lemma no_override_diverges : forall (E : IPS) (fuel : nat) (b : Body E) x tau,
  b_prox b = None -> b_proxdual b = None -> 0 < tau ->
  o_prox (obj fuel b) x tau = Err RecursionError /\
  o_proxdual (obj fuel b) x tau = Err RecursionError.
Proof. intros; simpl; apply no_override_aux; auto. Qed.

(*! C03_one_override_total : overriding just one of the two (with a total body) is enough for both
   methods to return a value for every x and tau > 0, with two nested calls *)
Lemma one_override_total : forall (E : IPS) (fuel : nat) (b : Body E) x tau m,
  (b_prox b = Some m \/ b_proxdual b = Some m) ->
  (forall m', b_prox b = Some m' -> forall x tau, 0 < tau -> exists p, m' x tau = Ok p) ->
  (forall m', b_proxdual b = Some m' -> forall x tau, 0 < tau -> exists p, m' x tau = Ok p) ->
  0 < tau ->
  (exists p, o_prox (obj (S (S fuel)) b) x tau = Ok p) /\
  (exists q, o_proxdual (obj (S (S fuel)) b) x tau = Ok q).
Proof.
  intros E fuel b x tau m Hor H1 H2 Ht.
  assert (Ht' : 0 < 1 / tau) by (apply Rdiv_lt_0_compat; lra).
  simpl. rewrite !check_tau_pos by auto.
  destruct (b_prox b) as [mp|] eqn:Hp; destruct (b_proxdual b) as [md|] eqn:Hd;
    rewrite ?check_tau_pos by auto.
  - split; [apply (H1 mp) | apply (H2 md)]; auto.
  - split; [apply (H1 mp); auto|].
    destruct (H1 mp eq_refl (/ tau [*] x) (1 / tau) Ht') as [p ->]. simpl; eauto.
  - split; [|apply (H2 md); auto].
    destruct (H2 md eq_refl (/ tau [*] x) (1 / tau) Ht') as [p ->]. simpl; eauto.
  - destruct Hor; discriminate.
Qed.

(** ** C04: adjoint *)

(*! C04_adjoint_prox : f.H has the exact prox of whatever function f.proxdual is the prox of, and
   conversely *)
Lemma adjoint_prox : forall (E : IPS) (fuel : nat) (f : Op E) (h hs : efun E),
  impl_prox f h -> impl_proxdual f hs ->
  impl_prox (op_H (S fuel) f) hs /\ impl_proxdual (op_H (S fuel) f) h.
Proof.
  intros E fuel f h hs H1 H2; split; intros x tau Ht; simpl; rewrite check_tau_pos by auto; auto.
Qed.

(*! C04_adjoint_involutive : f.H.H has exactly the prox and proxdual of f (for every tau > 0) and
   reports the same hasgrad *)
Lemma adjoint_involutive : forall (E : IPS) (fuel : nat) (f : Op E) x tau,
  0 < tau ->
  o_prox (op_H (S fuel) (op_H (S fuel) f)) x tau = o_prox f x tau /\
  o_proxdual (op_H (S fuel) (op_H (S fuel) f)) x tau = o_proxdual f x tau /\
  o_hasgrad (op_H (S fuel) (op_H (S fuel) f)) = o_hasgrad f.
Proof. intros; simpl. rewrite !check_tau_pos by auto. auto. Qed.

(** Example operator on the real line: f(x) = s x^2, prox x/(1+2 s tau). *)
Definition sq_fun (s : R) : efun R_IPS := etot (E:=R_IPS) (fun x : R => s * x * x).
Definition sq_body (s : R) : Body R_IPS :=
  mkBody (E:=R_IPS) (Some (fun x : R_IPS => Ok (VNum (s * x * x))))
         (Some (fun (x : R_IPS) (tau : R) => Ok (x / (1 + 2 * s * tau) : R_IPS)))
         None
         (Some (fun x : R_IPS => Ok (Some (2 * s * x : R_IPS)))) true 1.

Lemma R_norm2 (a : R_IPS) : norm2 a = a * a. Proof. reflexivity. Qed.
Lemma R_sub (a b : R_IPS) : (a [-] b : R) = (a : R) - b.
Proof. unfold vsub; simpl; ring. Qed.

Lemma sq_convex s : 0 <= s -> convex (sq_fun s).
Proof.
  intros Hs x y t _ _ Ht; simpl in *; split; auto.
  assert (0 <= s * (t * (1 - t)) * (x - y) ^ 2); [|nra].
  apply Rmult_le_pos; [apply Rmult_le_pos; nra | apply pow2_ge_0].
Qed.

Lemma sq_prox s : 0 <= s ->
  forall (x : R_IPS) tau, 0 < tau -> is_prox (sq_fun s) tau x (x / (1 + 2 * s * tau) : R_IPS).
Proof.
  intros Hs x tau Ht. apply subgrad_prox; auto. split; [exact I|].
  assert (Hne : 0 < 1 + 2 * s * tau) by nra.
  intros y _; simpl. unfold vsub; simpl. set (p := x / (1 + 2 * s * tau)).
  replace (/ tau * (x + -1 * p)) with (2 * s * p) by (unfold p; field; split; lra).
  assert (0 <= s * (y - p) ^ 2) by (apply Rmult_le_pos; [auto | apply pow2_ge_0]). nra.
Qed.

Lemma sq_conj s : 0 < s -> is_conj (sq_fun s) (sq_fun (/ (4 * s))).
Proof.
  intros Hs. split; [exists 0; exact I|]. intros z; split.
  - split; [intros _|intros _; exact I].
    exists (/ (4 * s) * z * z). intros y _; simpl.
    assert (0 <= s * (y - z / (2 * s)) ^ 2) by (apply Rmult_le_pos; [lra | apply pow2_ge_0]).
    replace (s * (y - z / (2 * s)) ^ 2) with (s * y * y - z * y + / (4 * s) * z * z) in H by (field; lra).
    lra.
  - intros _. split.
    + intros r [y [_ ->]]; simpl.
      assert (0 <= s * (y - z / (2 * s)) ^ 2) by (apply Rmult_le_pos; [lra | apply pow2_ge_0]).
      replace (s * (y - z / (2 * s)) ^ 2) with (s * y * y - z * y + / (4 * s) * z * z) in H by (field; lra).
      lra.
    + intros M HM. apply HM. exists (z / (2 * s) : R_IPS). split; [exact I|]. simpl. field. lra.
Qed.

(*!ex C02_example : the hypotheses of the three C02 theorems hold for f(x) = s x^2 on the real line *)
Lemma C02_example_l : forall s, 0 < s ->
  b_prox (sq_body s) <> None /\ b_proxdual (sq_body s) = None /\
  convex (sq_fun s) /\ is_conj (sq_fun s) (sq_fun (/ (4 * s))) /\
  impl_prox (obj 2 (sq_body s)) (sq_fun s) /\
  impl_proxdual (obj 2 (sq_body s)) (sq_fun (/ (4 * s))).
Proof.
  intros s Hs. split; [discriminate|]. split; [reflexivity|].
  split; [apply sq_convex; lra|]. split; [apply sq_conj; auto|].
  eapply default_proxdual; try reflexivity.
  - apply sq_convex; lra.
  - apply sq_conj; auto.
  - intros x tau Ht. eexists; split; [reflexivity|]. apply sq_prox; lra.
Qed.

(*! C04_adjoint_value_refuted : the value of f.H is *not* the conjugate: there is a convex f with
   exact prox whose adjoint evaluates to f(x) instead of f*(x) *)
Lemma adjoint_value_refuted :
  exists (f : Op R_IPS) (h hs : efun R_IPS) (x : R_IPS),
    impl_prox f h /\ impl_call f h /\ is_conj h hs /\ impl_proxdual f hs /\ edom hs x /\
    o_call (op_H 2 f) x = Ok (VNum (eval h x)) /\ eval h x <> eval hs x.
Proof.
  exists (obj 2 (sq_body 1)), (sq_fun 1), (sq_fun (/ (4 * 1))), 1.
  destruct (C02_example_l 1 ltac:(lra)) as [_ [_ [_ [Hcj [H1 H2]]]]].
  split; [exact H1|]. split; [intros y _; reflexivity|]. split; [exact Hcj|].
  split; [exact H2|]. split; [exact I|]. split; [reflexivity|].
  simpl. lra.
Qed.

(** ** C05: affine addition *)

Lemma prox_lin {E : IPS} (f : efun E) v tau x p :
  0 < tau -> is_prox f tau (x [-] tau [*] v) p -> is_prox (elin f v) tau x p.
Proof.
  intros Ht [Hd Hm]; split; auto. intros y Hy. simpl. specialize (Hm y Hy).
  assert (Heq : forall z : E, / (2 * tau) * norm2 (z [-] (x [-] tau [*] v))
     = << v, z >> + / (2 * tau) * norm2 (z [-] x) + (tau / 2 * norm2 v - << v, x >>)).
  { intros z. ifield. lra. }
  rewrite !Heq in Hm. lra.
Qed.

(*! C05_affine_prox : f + v has the exact prox of x -> f(x) + <v,x>, for every function f (no
   convexity needed) *)
Lemma affine_prox : forall (E : IPS) (fuel : nat) (f : Op E) (h : efun E) (v : E),
  impl_prox f h ->
  exists g, op_add (S fuel) f (PArray v) = Ok g /\ impl_prox g (elin h v) /\
            (impl_call f h -> impl_call g (elin h v)).
Proof.
  intros E fuel f h v H. eexists; split; [reflexivity|]. split.
  - intros x tau Ht; simpl. rewrite check_tau_pos by auto.
    destruct (H (x [-] tau [*] v) tau Ht) as [p [-> Hp]]. exists p; split; auto.
    apply prox_lin; auto.
  - intros Hc x Hx; simpl in *. unfold d_call; simpl. rewrite (Hc x Hx). reflexivity.
Qed.

(*! C05_affine_grad : if f.grad is the gradient of h then (f+v).grad is the gradient of
   x -> h(x) + <v,x> *)
Lemma affine_grad : forall (E : IPS) (fuel : nat) (f : Op E) (h : E -> R) (v : E),
  impl_grad f h ->
  exists g, op_add (S fuel) f (PArray v) = Ok g /\ impl_grad g (fun x => h x + << v, x >>).
Proof.
  intros E fuel f h v H. eexists; split; [reflexivity|].
  intros x; simpl. unfold d_grad; simpl. destruct (H x) as [g [-> Hg]]. simpl.
  eexists; split; [reflexivity|]. intros eps He. destruct (Hg eps He) as [d [Hd Hb]].
  exists d; split; auto. intros h' Hh'. specialize (Hb h' Hh').
  replace (h (x [+] h') + << v, x [+] h' >> - (h x + << v, x >>) - << g [+] v, h' >>)
    with (h (x [+] h') - h x - << g, h' >>); auto.
  inner_lin_all. ring.
Qed.

(*! C05_subtraction : f - v is f + (-v): same prox, value and gradient everywhere *)
Lemma subtraction : forall (E : IPS) (fuel : nat) (f : Op E) (h : efun E) (v : E),
  impl_prox f h ->
  exists g, op_sub (S fuel) f (PArray v) = Ok g /\
    impl_prox g (mkEfun (edom h) (fun x => eval h x - << v, x >>)) /\
    (impl_call f h -> impl_call g (mkEfun (edom h) (fun x => eval h x - << v, x >>))).
Proof.
  intros E fuel f h v H.
  destruct (affine_prox E fuel f h (vopp v) H) as [g [H1 [H2 H3]]].
  exists g; split; [exact H1|].
  assert (Heq : forall x, eval (elin h (vopp v)) x = eval h x - << v, x >>).
  { intros x; simpl. rewrite inner_opp_l. ring. }
  split.
  - intros x tau Ht. destruct (H2 x tau Ht) as [p [Hp [Hd Hm]]]. exists p; split; auto.
    split; auto. intros y Hy. specialize (Hm y Hy). rewrite !Heq in Hm. exact Hm.
  - intros Hc x Hx. rewrite (H3 Hc x Hx), Heq. reflexivity.
Qed.

(*! C05_type_errors : adding or subtracting anything that is not an array raises *)
Lemma add_type_errors : forall (E : IPS) (fuel : nat) (f : Op E) (z : Z) (r : R) (g : Op E) num,
  op_add fuel f (PInt z) = Err NotImplementedError /\
  op_add fuel f (PFloat r) = Err NotImplementedError /\
  op_add fuel f (POp g num) = Err NotImplementedError /\
  op_sub fuel f (PInt z) = Err NotImplementedError /\
  op_sub fuel f (PFloat r) = Err NotImplementedError /\
  op_sub fuel f (POp g num) = Err TypeError.
Proof. repeat split. Qed.

(** Example: indicator of the half line x >= 0 on R, with boolean call. *)
Definition nonneg_fun : efun R_IPS := indic (fun x : R_IPS => 0 <= (x : R)).
Definition nonneg_body : Body R_IPS :=
  mkBody (E:=R_IPS) (Some (fun x : R_IPS => Ok (VBool (Rleb 0 x))))
         (Some (fun (x : R_IPS) (tau : R) => Ok (Rmax x 0 : R_IPS))) None None false 1.

Lemma nonneg_prox : impl_prox (obj 2 nonneg_body) nonneg_fun.
Proof.
  intros x tau Ht. simpl. rewrite check_tau_pos by auto. eexists; split; [reflexivity|].
  apply proj_prox; auto. apply vi_proj; [apply Rmax_r|].
  intros y Hy; simpl in *. unfold vsub; simpl. unfold Rmax. destruct (Rle_dec x 0); nra.
Qed.

(*! C05_indicator_value_refuted : for an indicator operator (whose call returns a boolean) the value
   of f+v is wrong: at a feasible point it is <v,x> + 1, and an infeasible point gets a finite
   value which is smaller than that of a feasible one *)
Lemma indicator_value_refuted :
  exists (f : Op R_IPS) (h : efun R_IPS) (v feas infeas : R_IPS) (g : Op R_IPS) (a b : R),
    impl_prox f h /\ (forall x, (o_call f x = Ok (VBool true) <-> edom h x)) /\
    op_add 2 f (PArray v) = Ok g /\
    edom h feas /\ ~ edom h infeas /\
    o_call g feas = Ok (VNum a) /\ a = eval (elin h v) feas + 1 /\
    o_call g infeas = Ok (VNum b) /\ b < a.
Proof.
  exists (obj 2 nonneg_body), nonneg_fun, 0, 1, (-1).
  exists (obj 2 (sum_body (obj 2 nonneg_body) 0)).
  exists (1 + 0 * 1), (0 + 0 * -1).
  split; [apply nonneg_prox|].
  split.
  { intros x; simpl. unfold d_call; simpl. split.
    - intro H. injection H as H. apply Rleb_true in H; auto.
    - intro H. apply Rleb_true in H. rewrite H. reflexivity. }
  split; [reflexivity|]. simpl. unfold d_call; simpl. unfold d_call; simpl.
  destruct (Rleb_spec 0 1) as [[? ->]|[? ?]]; [|lra].
  destruct (Rleb_spec 0 (-1)) as [[? ?]|[? ->]]; [lra|]. simpl.
  repeat split; try lra.
Qed.

(** ** C06: postcomposition *)

(*! C06_scaling_prox : for every float sigma > 0, sigma * f has the exact prox and value of
   x -> sigma f(x) *)
Lemma scaling_prox : forall (E : IPS) (fuel : nat) (f : Op E) (h : efun E) (sigma : R),
  0 < sigma -> impl_prox f h ->
  exists g, op_rmul (S fuel) f (PFloat sigma) = Ok g /\ impl_prox g (escal sigma h) /\
            (impl_call f h -> impl_call g (escal sigma h)).
Proof.
  intros E fuel f h s Hs H. eexists; split; [reflexivity|]. split.
  - intros x tau Ht; simpl. rewrite check_tau_pos by auto.
    assert (Hst : 0 < s * tau) by nra.
    destruct (H x (s * tau) Hst) as [p [-> [Hd Hm]]]. exists p; split; auto.
    split; auto. intros y Hy; simpl in *. specialize (Hm y Hy).
    replace (/ (2 * tau)) with (s * / (2 * (s * tau))) by (field; split; lra).
    nra.
  - intros Hc x Hx; simpl in *. unfold d_call; simpl. rewrite (Hc x Hx). reflexivity.
Qed.

(*! C06_scaling_grad : the gradient of sigma * f is sigma times the gradient of f *)
Lemma scaling_grad : forall (E : IPS) (fuel : nat) (f : Op E) (h : E -> R) (sigma : R),
  impl_grad f h ->
  exists g, op_rmul (S fuel) f (PFloat sigma) = Ok g /\ impl_grad g (fun x => sigma * h x).
Proof.
  intros E fuel f h s H. eexists; split; [reflexivity|].
  intros x; simpl. unfold d_grad; simpl. destruct (H x) as [g [-> Hg]]. simpl.
  eexists; split; [reflexivity|]. intros eps He.
  assert (Hpos : 0 < Rabs s + 1) by (pose proof (Rabs_pos s); lra).
  destruct (Hg (eps / (Rabs s + 1)) ltac:(apply Rdiv_lt_0_compat; lra)) as [d [Hd Hb]].
  exists d; split; auto. intros h' Hh'. specialize (Hb h' Hh').
  replace (s * h (x [+] h') - s * h x - << s [*] g, h' >>)
    with (s * (h (x [+] h') - h x - << g, h' >>)) by (inner_lin_all; ring).
  rewrite Rabs_mult. pose proof (norm_nonneg h') as Hn. pose proof (Rabs_pos s).
  apply Rle_trans with ((Rabs s + 1) * (eps / (Rabs s + 1) * norm h')).
  - apply Rmult_le_compat; try apply Rabs_pos; lra.
  - apply Req_le; field; lra.
Qed.

(*! C06_nonpositive_scale : a non-positive float scale is accepted at construction but every prox
   call of the scaled operator then raises ValueError (the inner operator being guarded) *)
Lemma nonpositive_scale : forall (E : IPS) (fuel : nat) (b : Body E) (sigma : R) x tau,
  sigma <= 0 -> 0 < tau ->
  exists g, op_rmul (S fuel) (obj (S fuel) b) (PFloat sigma) = Ok g /\
            o_prox g x tau = Err ValueError.
Proof.
  intros E fuel b s x tau Hs Ht. eexists; split; [reflexivity|]. simpl.
  rewrite check_tau_pos by auto.
  destruct (b_prox b); apply check_tau_neg; nra.
Qed.

(*! C06_int_scale_refuted : scaling by a python int never works: z * f raises
   NotImplementedError for every integer z, although the operator accepts ints by type *)
Lemma int_scale_refuted : forall (E : IPS) (fuel : nat) (f : Op E) (z : Z),
  op_rmul fuel f (PInt z) = Err NotImplementedError.
Proof. reflexivity. Qed.

(** ** C07: precomposition *)

(*! C07_precomp_prox : f.precomposition(a, b) with float a <> 0 has the exact prox and value of
   x -> f(a x + b) *)
Lemma precomp_prox : forall (E : IPS) (ones : E) (fuel : nat) (f : Op E) (h : efun E)
    (a : R) (ob : operand) (b : E),
  a <> 0 -> impl_prox f h ->
  ob = PArray b \/ (exists r, ob = PFloat r /\ b = r [*] ones) ->
  exists g, precomposition ones (S fuel) f (PFloat a) ob = Ok g /\
    impl_prox g (epre h (fun x => a [*] x [+] b)) /\
    (impl_call f h -> impl_call g (epre h (fun x => a [*] x [+] b))).
Proof.
  intros E ones fuel f h a ob b Ha H Hob. exists (obj (S fuel) (pre_body f a b)).
  split; [destruct Hob as [->|[r [-> ->]]]; reflexivity|]. split.
  - intros x tau Ht; simpl. rewrite check_tau_pos by auto.
    assert (Ha2 : 0 < a ^ 2 * tau) by (apply Rmult_lt_0_compat; auto; nra).
    destruct (H (a [*] x [+] b) (a ^ 2 * tau) Ha2) as [p [Hp Hpp]].
    simpl in Hp; rewrite Hp; simpl. eexists; split; [reflexivity|].
    apply prox_precomp; auto. replace (a * a * tau) with (a ^ 2 * tau) by ring. exact Hpp.
  - intros Hc x Hx; simpl in *. unfold d_call; simpl. apply Hc; auto.
Qed.

(*! C07_precomp_grad : its gradient is a * grad f(a x + b), the gradient of x -> f(a x + b) *)
Lemma precomp_grad : forall (E : IPS) (ones : E) (fuel : nat) (f : Op E) (h : E -> R) (a : R) (b : E),
  impl_grad f h ->
  exists g, precomposition ones (S fuel) f (PFloat a) (PArray b) = Ok g /\
    impl_grad g (fun x => h (a [*] x [+] b)).
Proof.
  intros E ones fuel f h a b H. eexists; split; [reflexivity|].
  intros x; simpl. unfold d_grad; simpl. destruct (H (a [*] x [+] b)) as [g [-> Hg]]. simpl.
  eexists; split; [reflexivity|]. intros eps He.
  assert (Hpos : 0 < Rabs a + 1) by (pose proof (Rabs_pos a); lra).
  destruct (Hg (eps / (Rabs a + 1)) ltac:(apply Rdiv_lt_0_compat; lra)) as [d [Hd Hb]].
  exists (d / (Rabs a + 1)); split; [apply Rdiv_lt_0_compat; lra|].
  intros h' Hh'. pose proof (norm_nonneg h') as Hn.
  assert (Hah : norm (a [*] h') <= d).
  { rewrite norm_scal.
    apply Rle_trans with ((Rabs a + 1) * (d / (Rabs a + 1))).
    - apply Rmult_le_compat; try apply Rabs_pos; lra.
    - apply Req_le; field; lra. }
  specialize (Hb _ Hah).
  replace (a [*] (x [+] h') [+] b) with (a [*] x [+] b [+] a [*] h') by vring.
  replace (<< a [*] g, h' >>) with (<< g, a [*] h' >>) by (inner_lin_all; ring).
  eapply Rle_trans; [exact Hb|]. rewrite norm_scal.
  replace (eps / (Rabs a + 1) * (Rabs a * norm h')) with (eps * norm h' * (Rabs a / (Rabs a + 1))) by (field; lra).
  assert (Rabs a / (Rabs a + 1) <= 1).
  { apply Rmult_le_reg_r with (Rabs a + 1); auto. unfold Rdiv. rewrite Rmult_assoc, Rinv_l; lra. }
  assert (0 <= eps * norm h') by nra. nra.
Qed.

(*! C07_type_errors : an integer a (or a non-array b) is refused *)
Lemma precomp_type_errors : forall (E : IPS) (ones : E) (fuel : nat) (f : Op E) (z : Z) (a : R) (b : E),
  precomposition ones fuel f (PInt z) (PArray b) = Err NotImplementedError /\
  precomposition ones fuel f (PFloat a) (PInt z) = Err NotImplementedError.
Proof. repeat split. Qed.

(*!ex C07_example : the algebra composes: for f(x) = x^2 on R, 3*(f(2x+1)) + 5 x has an exact prox *)
Lemma C07_example_l :
  exists f1 f2 f3,
    precomposition (1 : R_IPS) 2 (obj 2 (sq_body 1)) (PFloat 2) (PFloat 1) = Ok f1 /\
    op_rmul 2 f1 (PFloat 3) = Ok f2 /\ op_add 2 f2 (PArray (5 : R_IPS)) = Ok f3 /\
    impl_prox f3 (elin (escal 3 (epre (sq_fun 1) (fun x : R_IPS => 2 [*] x [+] (1 : R_IPS)))) (5 : R_IPS)).
Proof.
  destruct (C02_example_l 1 ltac:(lra)) as [_ [_ [_ [_ [H1 _]]]]].
  destruct (precomp_prox R_IPS (1 : R_IPS) 1 _ _ 2 (PFloat 1) (1 : R_IPS) ltac:(lra) H1
    ltac:(right; exists 1; split; [reflexivity | simpl; ring])) as [f1 [E1 [P1 _]]].
  destruct (scaling_prox R_IPS 1 f1 _ 3 ltac:(lra) P1) as [f2 [E2 [P2 _]]].
  destruct (affine_prox R_IPS 1 f2 _ (5 : R_IPS) P2) as [f3 [E3 [P3 _]]].
  exists f1, f2, f3; auto.
Qed.

(** ** C08: chains *)

(*! C08_chain_order : the python expression f * g of operators of two different classes is evaluated as
   g.__rmul__(f), i.e. g.chain(f); its prox applies prox_g first and prox_f to the result, with the same tau *)
Lemma chain_order : forall (E : IPS) (fuel : nat) (f g : Op E) fnum x tau,
  0 < tau ->
  exists fg, py_mul false (S fuel) g (POp f fnum) = Ok fg /\
    o_prox fg x tau = (p <- o_prox g x tau ;; o_prox f p tau).
Proof. intros; eexists; split; [reflexivity|]; simpl. rewrite check_tau_pos; auto. Qed.

(*! C08_same_class_refuted : f * g of two operators of the same class raises TypeError (python tries g.__rmul__ only
   when the classes differ), although g.chain(f) exists: the value of the expression depends on the classes *)
Lemma same_class_refuted : forall (E : IPS) (fuel : nat) (f g : Op E) fnum,
  py_mul true fuel g (POp f fnum) = Err TypeError /\ py_mul false fuel g (POp f fnum) = Ok (chain fuel g f fnum).
Proof. intros; split; reflexivity. Qed.

(*! C08_chain_assoc : chaining is associative on prox *)
Lemma chain_assoc : forall (E : IPS) (fuel : nat) (f g h : Op E) num1 num2 num3 num4 x tau,
  0 < tau ->
  o_prox (chain (S fuel) (chain (S fuel) f g num1) h num2) x tau =
  o_prox (chain (S fuel) f (chain (S fuel) g h num3) num4) x tau.
Proof.
  intros; simpl. rewrite !check_tau_pos by auto.
  destruct (o_prox f x tau); simpl; auto. rewrite !check_tau_pos by auto. auto.
Qed.

(*! C08_chain_grad_refuted : the grad of a chain returns None even when both operators are differentiable and
   hasgrad is True (which it is exactly when both operators have a gradient) *)
Lemma chain_grad_refuted : forall (E : IPS) (fuel : nat) (f g : Op E) num x,
  o_grad (chain fuel f g num) x = Ok None /\
  (o_hasgrad (chain fuel f g num) = true <-> o_hasgrad f = true /\ o_hasgrad g = true).
Proof. intros E fuel f g num x; simpl. split; [reflexivity|]. apply Bool.andb_true_iff. Qed.

(*! C08_chain_not_sum_refuted : chaining two prox maps is not the prox of the sum of the functions in
   general (so the documented warning is needed) *)
Lemma chain_not_sum_refuted :
  exists (f g : Op R_IPS) (hf hg : efun R_IPS) (x p : R_IPS),
    impl_prox f hf /\ impl_prox g hg /\ convex hf /\ convex hg /\
    (forall num, o_prox (chain 2 f g num) x 1 = Ok p) /\ ~ is_prox (eadd hf hg) 1 x p.
Proof.
  exists (obj 2 (sq_body 1)), (obj 2 (sum_body (obj 2 (sq_body 1)) (-2 : R_IPS))).
  exists (sq_fun 1), (elin (sq_fun 1) (-2 : R_IPS)), (0 : R_IPS), (2 / 3 : R_IPS).
  destruct (C02_example_l 1 ltac:(lra)) as [_ [_ [Hc [_ [H1 _]]]]].
  split; [exact H1|].
  destruct (affine_prox R_IPS 1 _ _ (-2 : R_IPS) H1) as [g [Eg [Pg _]]].
  injection Eg as <-. split; [exact Pg|]. split; [exact Hc|].
  split; [apply convex_lin; auto|]. split.
  - intro num. simpl. repeat (rewrite check_tau_pos by lra; simpl). f_equal. unfold vsub; simpl. field.
  - intros [_ Hm]. specialize (Hm (2 / 5 : R_IPS) (conj I I)). unfold norm2, vsub in Hm; simpl in Hm.
    simpl in Hm. lra.
Qed.

(** ** C09: default gradient *)

Lemma envelope_bound {E : IPS} (f : efun E) s (e : E -> R) (pr : E -> E) :
  convex f -> 0 < s -> (forall x, is_prox f s x (pr x)) ->
  (forall x, e x = eval f (pr x) + / (2 * s) * norm2 (pr x [-] x)) ->
  forall x h, Rabs (e (x [+] h) - e x - << / s [*] (x [-] pr x), h >>) <= / (2 * s) * norm2 h.
Proof.
  intros Hc Hs Hp He x h.
  assert (Hs' : 0 < / (2 * s)) by (apply Rinv_0_lt_compat; lra).
  assert (Hss : / s = 2 * / (2 * s)) by (field; lra).
  set (a := / (2 * s)) in *.
  pose proof (Hp x) as [Hd1 Hm1]. pose proof (Hp (x [+] h)) as [Hd2 Hm2].
  pose proof (prox_firm f s _ _ _ _ Hc Hs (Hp (x [+] h)) (Hp x)) as Hf.
  rewrite !He.
  set (p := pr x) in *. set (q := pr (x [+] h)) in *.
  specialize (Hm1 q Hd2). specialize (Hm2 p Hd1). fold a in Hm1, Hm2.
  replace (<< q [-] p, x [+] h [-] x >>) with (<< q [-] p, h >>) in Hf by (inner_lin_all; ring).
  assert (E1 : norm2 (p [-] (x [+] h)) = norm2 (p [-] x) - 2 * << p [-] x, h >> + norm2 h) by iring.
  assert (E2 : norm2 (q [-] (x [+] h)) = norm2 (q [-] x) - 2 * << q [-] x, h >> + norm2 h) by iring.
  assert (E3 : << q [-] x, h >> = << p [-] x, h >> + << q [-] p, h >>) by (inner_lin_all; ring).
  assert (E4 : << / s [*] (x [-] p), h >> = - 2 * a * << p [-] x, h >>)
    by (rewrite Hss; inner_lin_all; ring).
  assert (Hdec : norm2 h - << q [-] p, h >> >= 0).
  { pose proof (norm2_nonneg (h [-] (q [-] p))) as Hn.
    replace (norm2 (h [-] (q [-] p))) with (norm2 h - 2 * << q [-] p, h >> + norm2 (q [-] p)) in Hn by iring.
    lra. }
  rewrite E1 in Hm2. rewrite E2, E3 in Hm2 |- *. rewrite E4.
  pose proof (norm2_nonneg (q [-] p)). apply Rabs_le. split; nra.
Qed.

(*! C09_envelope_gradient : for an operator with exact prox of a convex f and inherited grad, grad(x)
   is the gradient of the Moreau envelope e(x) = min_y f(y) + |y-x|^2/(2 sigma), with error
   at most |h|^2/(2 sigma) for every perturbation h, and it is 1/sigma-Lipschitz *)
Lemma envelope_gradient : forall (E : IPS) (fuel : nat) (b : Body E) (f : efun E) m (e : E -> R),
  b_prox b = Some m -> b_grad b = None -> 0 < b_sigmame b -> convex f ->
  (forall x tau, 0 < tau -> exists p, m x tau = Ok p /\ is_prox f tau x p) ->
  (forall x, exists p, is_prox f (b_sigmame b) x p /\
             e x = eval f p + / (2 * b_sigmame b) * norm2 (p [-] x)) ->
  forall x, exists g, o_grad (obj (S fuel) b) x = Ok (Some g) /\
    is_grad e x g /\
    (forall h, Rabs (e (x [+] h) - e x - << g, h >>) <= / (2 * b_sigmame b) * norm2 h) /\
    (forall y g', o_grad (obj (S fuel) b) y = Ok (Some g') ->
        norm (g [-] g') <= / b_sigmame b * norm (x [-] y)).
Proof.
  intros E fuel b f m e Hm Hg Hs Hc Hp He x.
  set (s := b_sigmame b) in *.
  assert (Hpr : forall x, exists p, m x s = Ok p /\ is_prox f s x p) by (intro; apply Hp; auto).
  set (pr := fun x => match m x s with Ok p => p | Err _ => x end).
  assert (Hpr' : forall x, m x s = Ok (pr x) /\ is_prox f s x (pr x)).
  { intro y; unfold pr. destruct (Hpr y) as [p [-> H]]. auto. }
  assert (Hgr : forall x, o_grad (obj (S fuel) b) x = Ok (Some (/ s [*] (x [-] pr x)))).
  { intro y; simpl. unfold d_grad. rewrite Hg. simpl. rewrite Hm. fold s.
    rewrite check_tau_pos by auto. destruct (Hpr' y) as [-> _]. reflexivity. }
  assert (He' : forall x, e x = eval f (pr x) + / (2 * s) * norm2 (pr x [-] x)).
  { intro y. destruct (He y) as [p [Hpp ->]].
    assert (p = pr y) by (eapply prox_unique; eauto; apply Hpr'). subst p; reflexivity. }
  assert (Hb : forall h, Rabs (e (x [+] h) - e x - << / s [*] (x [-] pr x), h >>) <= / (2 * s) * norm2 h).
  { apply (envelope_bound f s e pr); auto. intro; apply Hpr'. }
  exists (/ s [*] (x [-] pr x)). split; [apply Hgr|]. split; [|split; [exact Hb|]].
  - intros eps Heps. exists (2 * s * eps). split; [nra|]. intros h Hh.
    eapply Rle_trans; [apply Hb|]. rewrite <- norm_sq. pose proof (norm_nonneg h).
    apply Rle_trans with (/ (2 * s) * ((2 * s * eps) * norm h)).
    + assert (0 < / (2 * s)) by (apply Rinv_0_lt_compat; lra).
      apply Rmult_le_compat_l; [lra|]. apply Rmult_le_compat_r; auto.
    + apply Req_le; field; lra.
  - intros y g' Hy. rewrite Hgr in Hy. injection Hy as <-.
    replace (/ s [*] (x [-] pr x) [-] / s [*] (y [-] pr y))
      with (/ s [*] ((x [-] y) [-] (pr x [-] pr y))) by vring.
    rewrite norm_scal, Rabs_pos_eq by (left; apply Rinv_0_lt_compat; auto).
    apply Rmult_le_compat_l; [left; apply Rinv_0_lt_compat; auto|].
    apply norm_le_iff. rewrite norm2_sub.
    pose proof (prox_firm f s x y (pr x) (pr y) Hc Hs (proj2 (Hpr' x)) (proj2 (Hpr' y))).
    pose proof (norm2_nonneg (pr x [-] pr y)). rewrite (inner_sym (x [-] y)). nra.
Qed.

(*!ex C09_example : f(x)=x^2 without an overridden grad has an envelope: e(x) = x^2/3 at sigma=1 *)
Lemma C09_example_l : forall x : R_IPS,
  exists g, o_grad (obj 2 (mkBody (E:=R_IPS) None (b_prox (sq_body 1)) None None false 1)) x = Ok (Some g) /\
    is_grad (E:=R_IPS) (fun x : R => x * x / 3) x g.
Proof.
  intros x.
  destruct (envelope_gradient R_IPS 1
    (mkBody (E:=R_IPS) None (b_prox (sq_body 1)) None None false 1) (sq_fun 1)
    _ (fun x : R => x * x / 3) eq_refl eq_refl ltac:(simpl; lra) (sq_convex 1 ltac:(lra))) with (x := x)
    as [g [H1 [H2 _]]].
  - intros y tau Ht; simpl. eexists; split; [reflexivity|]. apply sq_prox; lra.
  - intros y. exists (y / (1 + 2 * 1 * 1) : R_IPS). split; [apply sq_prox; simpl; lra|].
    unfold norm2, vsub; simpl. field.
  - exists g; auto.
Qed.

(** ** C10: moreau *)

Lemma allclose_spec rtol atol a b : length a = length b ->
  (allclose rtol atol a b = true <-> Forall2 (fun u v => Rabs (u - v) <= atol + rtol * Rabs v) a b).
Proof.
  revert b; induction a as [|u a IH]; intros [|v b] H; simpl in *; try discriminate.
  - split; auto.
  - rewrite andb_true_iff, IH by lia. unfold isclose. rewrite Rleb_true.
    split; [intros [? ?]; constructor; auto | intro F; inversion F; subst; auto].
Qed.

(*! C10_moreau_verdict : when both prox calls succeed, moreau() is True iff every entry of x is within
   tol + 1e-5 |entry| of prox + tau*proxdual; otherwise it raises ValueError or returns False
   as requested *)
Lemma moreau_verdict : forall n (f : Op (Vec n)) (x p q : Vec n) tau tol raise,
  o_prox f x tau = Ok p -> o_proxdual f (/ tau [*] x) (1 / tau) = Ok q ->
  let close := Forall2 (fun u v => Rabs (u - v) <= tol + 1 / 100000 * Rabs v)
                 (proj1_sig x) (proj1_sig (p [+] tau [*] q)) in
  (moreau f x tau tol raise = Ok true <-> close) /\
  (~ close -> moreau f x tau tol raise = if raise then Err ValueError else Ok false).
Proof.
  intros n f x p q tau tol raise Hp Hq close.
  assert (Hl : length (proj1_sig x) = length (proj1_sig (p [+] tau [*] q))).
  { rewrite (proj2_sig x), (proj2_sig (p [+] tau [*] q)). reflexivity. }
  pose proof (allclose_spec (1 / 100000) tol _ _ Hl) as Hs.
  unfold moreau. rewrite Hp, Hq. cbn [bind].
  destruct (allclose _ _ _ _).
  - split; [split; auto; intro; apply Hs; auto|]. intro Hn; exfalso; apply Hn, Hs; auto.
  - split; [|intros; reflexivity]. split.
    + destruct raise; intro Habs; inversion Habs.
    + intro Hcl. apply Hs in Hcl. discriminate.
Qed.

(*! C10_moreau_accepts_derived : an operator that defines only one of prox/proxdual always passes its
   moreau() test, whatever function (convex or not) it implements *)
Lemma moreau_accepts_derived : forall n fuel (b : Body (Vec n)) x tau tol raise p,
  (b_prox b = None /\ b_proxdual b <> None) \/ (b_prox b <> None /\ b_proxdual b = None) ->
  0 < tau -> 0 <= tol ->
  o_prox (obj (S (S fuel)) b) x tau = Ok p ->
  moreau (obj (S (S fuel)) b) x tau tol raise = Ok true.
Proof.
  intros n fuel b x tau tol raise p Hov Ht Htol Hp.
  destruct (moreau_identity _ fuel b x tau p Hov Ht Hp) as [q [Hq Hx]].
  apply (moreau_verdict n _ x p q tau tol raise Hp Hq).
  rewrite <- Hx. generalize (proj1_sig x). intro l; induction l; constructor; auto.
  rewrite Rminus_diag_eq, Rabs_R0 by auto. pose proof (Rabs_pos a). lra.
Qed.

(*! C10_moreau_detects : conversely if prox is the exact prox of a convex f and moreau() with exact
   equality holds (tolerance zero on zero entries aside), then proxdual(x/tau,1/tau) is the
   exact prox of the conjugate at that point *)
Lemma moreau_detects : forall n (f : Op (Vec n)) (h hs : efun (Vec n)) (x p q : Vec n) tau,
  convex h -> is_conj h hs -> 0 < tau ->
  o_prox f x tau = Ok p -> is_prox h tau x p ->
  o_proxdual f (/ tau [*] x) (1 / tau) = Ok q ->
  (x = p [+] tau [*] q <-> is_prox hs (1 / tau) (/ tau [*] x) q).
Proof.
  intros n f h hs x p q tau Hc Hcj Ht Hp Hpp Hq.
  assert (Ht' : 0 < 1 / tau) by (apply Rdiv_lt_0_compat; lra).
  pose proof (moreau_decomposition h hs tau x p Hc Hcj Ht Hpp) as Hm.
  replace (1 / tau) with (/ tau) in * by (field; lra).
  split; intro H.
  - replace q with (/ tau [*] (x [-] p)); auto. rewrite H at 1. vfield. lra.
  - assert (q = / tau [*] (x [-] p)) as ->.
    { exact (prox_unique hs (/ tau) _ _ _ (conj_convex h hs Hcj) Ht' H Hm). }
    vfield. lra.
Qed.

(** ** A second concrete operator, on any space: f(x) = |x|^2/2 *)
Definition hsq_fun (E : IPS) : efun E := etot (fun x => norm2 x / 2).
Definition hsq_body (E : IPS) : Body E :=
  mkBody (Some (fun x => Ok (VNum (norm2 x / 2)))) (Some (fun x tau => Ok (/ (1 + tau) [*] x)))
         None (Some (fun x => Ok (Some x))) true 1.

Lemma hsq_convex (E : IPS) : convex (hsq_fun E).
Proof.
  intros x y t _ _ Ht; simpl; split; auto.
  pose proof (norm2_nonneg (x [-] y)) as Hn.
  assert (0 <= t * (1 - t) / 2 * norm2 (x [-] y)) by (apply Rmult_le_pos; nra).
  replace (norm2 ((1 - t) [*] x [+] t [*] y) / 2) with
    ((1 - t) * (norm2 x / 2) + t * (norm2 y / 2) - t * (1 - t) / 2 * norm2 (x [-] y)) by (ifield).
  lra.
Qed.

Lemma hsq_prox (E : IPS) (x : E) tau : 0 < tau -> is_prox (hsq_fun E) tau x (/ (1 + tau) [*] x).
Proof.
  intros Ht. apply subgrad_prox; auto. split; [exact I|]. intros y _; simpl.
  replace (/ tau [*] (x [-] / (1 + tau) [*] x)) with (/ (1 + tau) [*] x) by (vfield; split; lra).
  set (p := / (1 + tau) [*] x). pose proof (norm2_nonneg (y [-] p)) as Hn.
  replace (norm2 (y [-] p)) with (norm2 y - norm2 p - 2 * << p, y [-] p >>) in Hn by iring. lra.
Qed.

Lemma hsq_impl (E : IPS) : impl_prox (obj 2 (hsq_body E)) (hsq_fun E).
Proof.
  intros x tau Ht. simpl. rewrite check_tau_pos by auto. eexists; split; [reflexivity|].
  apply hsq_prox; auto.
Qed.

Lemma hsq_grad (E : IPS) : impl_grad (obj 2 (hsq_body E)) (fun x => norm2 x / 2).
Proof.
  intros x; exists x; split; [reflexivity|]. intros eps He. exists (2 * eps); split; [lra|].
  intros h Hh. replace (norm2 (x [+] h) / 2 - norm2 x / 2 - << x, h >>) with (norm2 h / 2) by ifield.
  rewrite Rabs_pos_eq by (pose proof (norm2_nonneg h); lra). rewrite <- norm_sq.
  pose proof (norm_nonneg h). nra.
Qed.

(*!ex C01_example : a concrete operator: |x|^2/2 on any space rejects tau = 0 and accepts tau = 1 *)
Lemma C01_example_l : forall (E : IPS) (x : E),
  o_prox (obj 2 (hsq_body E)) x 0 = Err ValueError /\
  o_prox (obj 2 (hsq_body E)) x 1 = Ok (/ (1 + 1) [*] x).
Proof.
  intros; split; [apply guard_rejects; lra|].
  exact (proj1 (guard_transparent E 1 (hsq_body E) x 1 ltac:(lra)) _ eq_refl).
Qed.

(*!ex C03_example : a body without prox and proxdual (only a value), e.g. the Nonlinear template
   before it is completed *)
Lemma C03_example_l : forall (E : IPS) (x : E),
  let b := mkBody (Some (fun x : E => Ok (VNum (norm2 x)))) None None None false 1 in
  o_call (obj 1000 b) x = Ok (VNum (norm2 x)) /\ o_prox (obj 1000 b) x 1 = Err RecursionError.
Proof.
  intros E x b; split; [reflexivity|]. apply no_override_diverges; auto; lra.
Qed.

(*!ex C04_example : |x|^2/2 and its conjugate (itself, on R written as sq_fun (1/2)) *)
Lemma C04_example_l : forall s, 0 < s ->
  impl_prox (op_H 1 (obj 2 (sq_body s))) (sq_fun (/ (4 * s))).
Proof.
  intros s Hs. destruct (C02_example_l s Hs) as [_ [_ [_ [_ [H1 H2]]]]].
  apply (adjoint_prox _ 0 _ _ _ H1 H2).
Qed.

(*!ex C05_example : |x|^2/2 + <v,x> on any space: prox, value and gradient *)
Lemma C05_example_l : forall (E : IPS) (v : E), exists g,
  op_add 2 (obj 2 (hsq_body E)) (PArray v) = Ok g /\
  impl_prox g (elin (hsq_fun E) v) /\ impl_call g (elin (hsq_fun E) v) /\ impl_grad g (fun x => norm2 x / 2 + << v, x >>).
Proof.
  intros E v. destruct (affine_prox E 1 _ _ v (hsq_impl E)) as [g [H1 [H2 H3]]].
  destruct (affine_grad E 1 _ _ v (hsq_grad E)) as [g' [H1' H2']].
  exists g. rewrite H1 in H1'. injection H1' as <-.
  split; [auto|]. split; [auto|]. split; auto. apply H3. intros x _; reflexivity.
Qed.

(*!ex C06_example : 3 * (|x|^2/2) has an exact prox and gradient *)
Lemma C06_example_l : forall (E : IPS), exists g,
  op_rmul 2 (obj 2 (hsq_body E)) (PFloat 3) = Ok g /\
  impl_prox g (escal 3 (hsq_fun E)) /\ impl_grad g (fun x => 3 * (norm2 x / 2)).
Proof.
  intros E. destruct (scaling_prox E 1 _ _ 3 ltac:(lra) (hsq_impl E)) as [g [H1 [H2 _]]].
  destruct (scaling_grad E 1 _ _ 3 (hsq_grad E)) as [g' [H1' H2']].
  exists g. rewrite H1 in H1'. injection H1' as <-. auto.
Qed.

(*!ex C08_example : chaining |x|^2/2 with itself: prox_1 twice divides by four *)
Lemma C08_example_l : forall (E : IPS) (x : E),
  forall num, o_prox (chain 2 (obj 2 (hsq_body E)) (obj 2 (hsq_body E)) num) x 1 = Ok (/ 4 [*] x).
Proof.
  intros; simpl. repeat (rewrite check_tau_pos by lra; simpl). f_equal. vfield.
Qed.

(*!ex C10_example : moreau() returns True for |x|^2/2 on vectors of any length *)
Lemma C10_example_l : forall n (x : Vec n) raise,
  moreau (obj 2 (hsq_body (Vec n))) x 2 0 raise = Ok true.
Proof.
  intros. eapply moreau_accepts_derived; try lra.
  - right; split; [discriminate | reflexivity].
  - simpl. rewrite check_tau_pos by lra. reflexivity.
Qed.
