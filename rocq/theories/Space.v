(** * Real inner product spaces

    The coordinate-free setting in which most operators and all solvers of
    PyProximal are modelled: 1-D numpy arrays with [+], scalar [*] and
    [np.dot].  The record lists only what is needed; vector-space laws are
    derived from [inner_ext]. *)
From Verif Require Import Base.
From Coq Require Import Eqdep_dec Psatz.

Record IPS : Type := mkIPS {
  car :> Type;
  vzero : car;
  vadd : car -> car -> car;
  vscal : R -> car -> car;
  inner : car -> car -> R;
  inner_zero_l : forall y, inner vzero y = 0;
  inner_add_l : forall x y z, inner (vadd x y) z = inner x z + inner y z;
  inner_scal_l : forall a x y, inner (vscal a x) y = a * inner x y;
  inner_sym : forall x y, inner x y = inner y x;
  inner_pos : forall x, 0 <= inner x x;
  inner_ext : forall x y, (forall z, inner x z = inner y z) -> x = y
}.

Arguments vzero {_}.
Arguments vadd {_} _ _.
Arguments vscal {_} _ _.
Arguments inner {_} _ _.
Arguments inner_zero_l {_} _.
Arguments inner_add_l {_} _ _ _.
Arguments inner_scal_l {_} _ _ _.
Arguments inner_sym {_} _ _.
Arguments inner_pos {_} _.
Arguments inner_ext {_} _ _ _.

Declare Scope vec_scope.
Delimit Scope vec_scope with vec.
Bind Scope vec_scope with car.

Definition vopp {E : IPS} (x : E) : E := vscal (-1) x.
Definition vsub {E : IPS} (x y : E) : E := vadd x (vscal (-1) y).

Infix "[+]" := vadd (at level 50, left associativity).
Infix "[-]" := vsub (at level 50, left associativity).
Infix "[*]" := vscal (at level 40, no associativity).
Notation "<< x , y >>" := (inner x y) (at level 0, x at level 100, y at level 100).

(** Squared norm and norm ([np.linalg.norm]). *)
Definition norm2 {E : IPS} (x : E) : R := << x , x >>.
Definition norm {E : IPS} (x : E) : R := sqrt (norm2 x).

Section Lemmas.
Context {E : IPS}.
Implicit Types x y z u v w : E.

Lemma inner_zero_r x : << x, vzero >> = 0.
Proof. rewrite inner_sym; apply inner_zero_l. Qed.
Lemma inner_add_r x y z : << x , y [+] z >> = << x, y >> + << x, z >>.
Proof. rewrite inner_sym, inner_add_l, !(inner_sym x); reflexivity. Qed.
Lemma inner_scal_r a x y : << x, a [*] y >> = a * << x, y >>.
Proof. rewrite inner_sym, inner_scal_l, (inner_sym x); reflexivity. Qed.
Lemma inner_sub_l x y z : << x [-] y, z >> = << x, z >> - << y, z >>.
Proof. unfold vsub; rewrite inner_add_l, inner_scal_l; ring. Qed.
Lemma inner_sub_r x y z : << x, y [-] z >> = << x, y >> - << x, z >>.
Proof. unfold vsub; rewrite inner_add_r, inner_scal_r; ring. Qed.
Lemma inner_opp_l x z : << vopp x, z >> = - << x, z >>.
Proof. unfold vopp; rewrite inner_scal_l; ring. Qed.
Lemma inner_opp_r x z : << z, vopp x >> = - << z, x >>.
Proof. unfold vopp; rewrite inner_scal_r; ring. Qed.
End Lemmas.

(** Vector identities: reduce to a scalar identity against a test vector. *)
Ltac inner_lin :=
  rewrite ?inner_sub_l, ?inner_sub_r, ?inner_opp_l, ?inner_opp_r, ?inner_add_l, ?inner_add_r,
    ?inner_scal_l, ?inner_scal_r, ?inner_zero_l, ?inner_zero_r.
Ltac inner_lin_all := repeat progress inner_lin.
Ltac vext w := apply inner_ext; intro w; inner_lin_all.
Ltac vring := let w := fresh "w" in vext w; ring.
Ltac vfield := let w := fresh "w" in vext w; field.

(** Normalise [<<b,a>>] to [<<a,b>>] when both orientations occur. *)
Ltac inner_comm_goal :=
  repeat match goal with
  | |- context [ @inner ?E ?a ?b ] =>
      lazymatch a with
      | b => fail
      | _ => match goal with |- context [ @inner E b a ] => rewrite (@inner_sym E b a) end
      end
  end.
Ltac iexp := unfold norm2; inner_lin_all; inner_comm_goal.
Ltac iring := iexp; ring.
Ltac ifield := iexp; field.

Section Lemmas2.
Context {E : IPS}.
Implicit Types x y z u v w : E.

Lemma vadd_comm x y : x [+] y = y [+] x. Proof. vring. Qed.
Lemma vadd_assoc x y z : x [+] (y [+] z) = (x [+] y) [+] z. Proof. vring. Qed.
Lemma vadd_0_l x : vzero [+] x = x. Proof. vring. Qed.
Lemma vadd_0_r x : x [+] vzero = x. Proof. vring. Qed.
Lemma vsub_0_r x : x [-] vzero = x. Proof. vring. Qed.
Lemma vsub_diag x : x [-] x = vzero. Proof. vring. Qed.
Lemma vscal_1 x : 1 [*] x = x. Proof. vring. Qed.
Lemma vscal_0 x : 0 [*] x = vzero. Proof. vring. Qed.
Lemma vscal_zero a : a [*] (vzero : E) = vzero. Proof. vring. Qed.
Lemma vscal_vscal a b x : a [*] (b [*] x) = (a * b) [*] x. Proof. vring. Qed.
Lemma vsub_add x y : (x [-] y) [+] y = x. Proof. vring. Qed.
Lemma vadd_sub x y : (x [+] y) [-] y = x. Proof. vring. Qed.

Lemma vsub_eq x y : x [-] y = vzero -> x = y.
Proof. intros H. apply inner_ext; intro w.
  assert (<< x [-] y, w >> = 0) by (rewrite H; apply inner_zero_l).
  rewrite inner_sub_l in H0. lra. Qed.

Lemma norm2_nonneg x : 0 <= norm2 x. Proof. apply inner_pos. Qed.
Lemma norm2_zero : norm2 (vzero : E) = 0. Proof. unfold norm2; apply inner_zero_l. Qed.

Lemma norm2_add x y : norm2 (x [+] y) = norm2 x + 2 * << x, y >> + norm2 y.
Proof. iring. Qed.
Lemma norm2_sub x y : norm2 (x [-] y) = norm2 x - 2 * << x, y >> + norm2 y.
Proof. iring. Qed.
Lemma norm2_scal a x : norm2 (a [*] x) = a * a * norm2 x.
Proof. iring. Qed.
Lemma norm2_sub_sym x y : norm2 (x [-] y) = norm2 (y [-] x).
Proof. iring. Qed.

Lemma CS_sq x y : << x, y >> * << x, y >> <= norm2 x * norm2 y.
Proof.
  destruct (Req_dec (norm2 y) 0) as [Hy|Hy].
  - (* degenerate: show <<x,y>> = 0 by scaling *)
    assert (H : forall t, 0 <= norm2 x + 2 * t * << x, y >>).
    { intro t. pose proof (norm2_nonneg (x [+] t [*] y)) as H.
      replace (norm2 (x [+] t [*] y)) with (norm2 x + 2 * t * << x, y >> + t * t * norm2 y) in H
        by (iring).
      rewrite Hy in H. lra. }
    assert (<< x, y >> = 0).
    { destruct (Req_dec (<< x, y >>) 0) as [|Hn]; auto. exfalso.
      specialize (H (- (norm2 x + 1) / (2 * << x, y >>))).
      replace (norm2 x + 2 * (- (norm2 x + 1) / (2 * << x, y >>)) * << x, y >>)
        with (-1) in H by (field; auto). lra. }
    rewrite H0, Hy. lra.
  - assert (0 < norm2 y) by (pose proof (norm2_nonneg y); lra).
    pose proof (norm2_nonneg (norm2 y [*] x [-] << x, y >> [*] y)) as H1.
    replace (norm2 (norm2 y [*] x [-] << x, y >> [*] y))
      with (norm2 y * (norm2 x * norm2 y - << x, y >> * << x, y >>)) in H1
      by (iring).
    assert (0 <= norm2 x * norm2 y - << x, y >> * << x, y >>).
    { apply Rmult_le_reg_l with (norm2 y); auto. lra. }
    lra.
Qed.

Lemma norm2_eq0 x : norm2 x = 0 -> x = vzero.
Proof. intros H. apply inner_ext; intro w. rewrite inner_zero_l.
  pose proof (CS_sq x w) as H1. rewrite H in H1. nra. Qed.

Lemma norm2_sub_eq0 x y : norm2 (x [-] y) = 0 -> x = y.
Proof. intros H; apply vsub_eq, norm2_eq0, H. Qed.

Lemma norm2_pos x : x <> vzero -> 0 < norm2 x.
Proof. intros H. destruct (Req_dec (norm2 x) 0) as [H0|H0].
  - exfalso; apply H, norm2_eq0, H0.
  - pose proof (norm2_nonneg x); lra. Qed.

Lemma norm_nonneg x : 0 <= norm x. Proof. apply sqrt_pos. Qed.
Lemma norm_sq x : norm x * norm x = norm2 x.
Proof. apply sqrt_sqrt, norm2_nonneg. Qed.
Lemma norm_zero : norm (vzero : E) = 0.
Proof. unfold norm; rewrite norm2_zero; apply sqrt_0. Qed.
Lemma norm_eq0 x : norm x = 0 -> x = vzero.
Proof. intro H; apply norm2_eq0; rewrite <- norm_sq, H; ring. Qed.
Lemma norm_pos x : x <> vzero -> 0 < norm x.
Proof. intro H; apply sqrt_lt_R0, norm2_pos, H. Qed.

Lemma CS x y : << x, y >> <= norm x * norm y.
Proof.
  pose proof (CS_sq x y). rewrite <- !norm_sq in H.
  pose proof (norm_nonneg x); pose proof (norm_nonneg y).
  destruct (Rle_or_lt (<< x, y >>) 0); [nra|].
  apply Rsqr_incr_0_var; [unfold Rsqr; nra | nra].
Qed.
Lemma CS_abs x y : Rabs (<< x, y >>) <= norm x * norm y.
Proof.
  apply Rabs_le; split; [|apply CS].
  pose proof (CS (vopp x) y). rewrite inner_opp_l in H.
  assert (norm (vopp x) = norm x).
  { unfold norm; f_equal; unfold vopp; rewrite norm2_scal; ring. }
  rewrite H0 in H; lra.
Qed.

Lemma norm_scal a x : norm (a [*] x) = Rabs a * norm x.
Proof.
  unfold norm. rewrite norm2_scal, sqrt_mult; [|nra|apply norm2_nonneg].
  f_equal. change (a * a) with (Rsqr a). apply sqrt_Rsqr_abs.
Qed.
Lemma norm_triangle x y : norm (x [+] y) <= norm x + norm y.
Proof.
  apply Rsqr_incr_0_var; [|pose proof (norm_nonneg x); pose proof (norm_nonneg y); lra].
  unfold Rsqr. rewrite norm_sq, norm2_add.
  pose proof (CS x y). rewrite <- !norm_sq. lra.
Qed.
Lemma norm_sub_sym x y : norm (x [-] y) = norm (y [-] x).
Proof. unfold norm; rewrite norm2_sub_sym; reflexivity. Qed.
Lemma norm_le_iff x y : norm x <= norm y <-> norm2 x <= norm2 y.
Proof.
  split; intro H.
  - rewrite <- !norm_sq. pose proof (norm_nonneg x). nra.
  - apply sqrt_le_1; auto using norm2_nonneg.
Qed.
Lemma norm_le_of_sq x c : 0 <= c -> norm2 x <= c * c -> norm x <= c.
Proof.
  intros Hc H. apply Rsqr_incr_0_var; auto. unfold Rsqr; rewrite norm_sq; auto.
Qed.
Lemma Young x y c : 0 < c -> 2 * << x, y >> <= c * norm2 x + / c * norm2 y.
Proof.
  intro Hc. pose proof (norm2_nonneg (c [*] x [-] y)) as H.
  replace (norm2 (c [*] x [-] y)) with (c * (c * norm2 x - 2 * << x, y >> + / c * norm2 y)) in H
    by (ifield; lra).
  apply Rmult_le_reg_l with c; auto. nra.
Qed.
End Lemmas2.

(** ** Instances *)

(** The real line. *)
Program Definition R_IPS : IPS :=
  {| car := R; vzero := 0; vadd := Rplus; vscal := Rmult; inner := Rmult |}.
Next Obligation. ring. Qed.
Next Obligation. ring. Qed.
Next Obligation. ring. Qed.
Next Obligation. ring. Qed.
Next Obligation. nra. Qed.
Next Obligation. specialize (H 1). lra. Qed.

(** Product space (pairs of arrays). *)
Program Definition Prod_IPS (E F : IPS) : IPS :=
  {| car := (E * F)%type; vzero := (vzero, vzero);
     vadd := fun a b => (fst a [+] fst b, snd a [+] snd b);
     vscal := fun t a => (t [*] fst a, t [*] snd a);
     inner := fun a b => << fst a, fst b >> + << snd a, snd b >> |}.
Next Obligation. simpl; rewrite !inner_zero_l; ring. Qed.
Next Obligation. simpl; rewrite !inner_add_l; ring. Qed.
Next Obligation. simpl; rewrite !inner_scal_l; ring. Qed.
Next Obligation. simpl; rewrite (inner_sym c1), (inner_sym c2); ring. Qed.
Next Obligation. simpl. pose proof (inner_pos c); pose proof (inner_pos c0); lra. Qed.
Next Obligation.
  f_equal; apply inner_ext; intro z.
  - specialize (H (z, vzero)). simpl in H. rewrite !inner_zero_r in H. lra.
  - specialize (H (vzero, z)). simpl in H. rewrite !inner_zero_r in H. lra.
Qed.

(** [Pow E n]: lists of exactly [n] elements of [E]; [Vec n = Pow R n] is R^n. *)
Definition nlist (A : Type) (n : nat) : Type := { l : list A | length l = n }.

Lemma nlist_eq {A n} (a b : nlist A n) : proj1_sig a = proj1_sig b -> a = b.
Proof.
  destruct a as [a Ha], b as [b Hb]; simpl; intro H; subst b.
  f_equal. apply (UIP_dec Nat.eq_dec).
Qed.

Fixpoint linner {E : IPS} (a b : list E) : R :=
  match a, b with
  | x :: a', y :: b' => << x, y >> + linner a' b'
  | _, _ => 0
  end.

Section LInner.
Context {E : IPS}.
Implicit Types a b c : list E.
Lemma linner_zero_l n b : linner (repeat (vzero : E) n) b = 0.
Proof. revert b; induction n; destruct b; simpl; auto. rewrite inner_zero_l, IHn; ring. Qed.
Lemma linner_add_l a b c : length a = length b ->
  linner (map2 vadd a b) c = linner a c + linner b c.
Proof. revert b c; induction a as [|x a IH]; intros [|y b] [|z c] H; simpl in *; try lra; try discriminate.
  rewrite inner_add_l, IH by lia; ring. Qed.
Lemma linner_scal_l t a c : linner (map (vscal t) a) c = t * linner a c.
Proof. revert c; induction a as [|x a IH]; intros [|z c]; simpl; try lra.
  rewrite inner_scal_l, IH; ring. Qed.
Lemma linner_sym a b : linner a b = linner b a.
Proof. revert b; induction a as [|x a IH]; intros [|y b]; simpl; auto.
  rewrite inner_sym, IH; ring. Qed.
Lemma linner_pos a : 0 <= linner a a.
Proof. induction a as [|x a IH]; simpl; [lra|]. pose proof (inner_pos x); lra. Qed.
Lemma linner_ext a b : length a = length b ->
  (forall c, length c = length a -> linner a c = linner b c) -> a = b.
Proof.
  revert b; induction a as [|x a IH]; intros [|y b] H Hc; simpl in *; try discriminate; auto.
  f_equal.
  - apply inner_ext; intro z. specialize (Hc (z :: repeat vzero (length a))). simpl in Hc.
    rewrite repeat_length in Hc. specialize (Hc eq_refl).
    rewrite (linner_sym a), (linner_sym b), !linner_zero_l in Hc. lra.
  - apply IH; [lia|]. intros c Hl. specialize (Hc (vzero :: c)). simpl in Hc.
    rewrite !inner_zero_r in Hc. rewrite Hl in Hc. specialize (Hc eq_refl). lra.
Qed.
End LInner.

Program Definition Pow (E : IPS) (n : nat) : IPS :=
  {| car := nlist E n;
     vzero := repeat vzero n;
     vadd := fun a b => map2 vadd (proj1_sig a) (proj1_sig b);
     vscal := fun t a => map (vscal t) (proj1_sig a);
     inner := fun a b => linner (proj1_sig a) (proj1_sig b) |}.
Next Obligation. apply repeat_length. Qed.
Next Obligation. destruct a, b; simpl; rewrite map2_length; congruence. Qed.
Next Obligation. destruct a; simpl; rewrite map_length; auto. Qed.
Next Obligation. apply linner_zero_l. Qed.
Next Obligation. destruct x as [x Hx], y as [y Hy]; apply linner_add_l; simpl; congruence. Qed.
Next Obligation. apply linner_scal_l. Qed.
Next Obligation. apply linner_sym. Qed.
Next Obligation. apply linner_pos. Qed.
Next Obligation.
  destruct x as [x Hx], y as [y Hy]; apply nlist_eq; simpl in *.
  apply linner_ext; [congruence|]. intros c Hc. rewrite Hx in Hc.
  exact (H (exist _ c Hc)).
Qed.

Definition Vec (n : nat) : IPS := Pow R_IPS n.

(** ** Linear operators with an adjoint (pylops [LinearOperator]). *)
Record linop (E F : IPS) : Type := mkLinop {
  lapp :> E -> F;                 (* matvec  *)
  ladj : F -> E;                  (* rmatvec *)
  lapp_add : forall x y, lapp (x [+] y) = lapp x [+] lapp y;
  lapp_scal : forall a x, lapp (a [*] x) = a [*] lapp x;
  ladj_spec : forall x y, << lapp x, y >> = << x, ladj y >>
}.
Arguments lapp {E F} _ _.
Arguments ladj {E F} _ _.
Arguments lapp_add {E F} _ _ _.
Arguments lapp_scal {E F} _ _ _.
Arguments ladj_spec {E F} _ _ _.

Section Linop.
Context {E F : IPS} (A : linop E F).
Lemma lapp_sub x y : A (x [-] y) = A x [-] A y.
Proof. unfold vsub; rewrite lapp_add, lapp_scal; reflexivity. Qed.
Lemma lapp_zero : A vzero = vzero.
Proof. rewrite <- (vscal_0 vzero), lapp_scal, vscal_0; reflexivity. Qed.
Lemma ladj_add x y : ladj A (x [+] y) = ladj A x [+] ladj A y.
Proof. apply inner_ext; intro z. rewrite inner_add_l, !(inner_sym (ladj A _)), <- !ladj_spec.
  rewrite inner_add_r; ring. Qed.
Lemma ladj_scal a x : ladj A (a [*] x) = a [*] ladj A x.
Proof. apply inner_ext; intro z. rewrite inner_scal_l, !(inner_sym (ladj A _)), <- !ladj_spec.
  rewrite inner_scal_r; ring. Qed.
Lemma ladj_sub x y : ladj A (x [-] y) = ladj A x [-] ladj A y.
Proof. unfold vsub; rewrite ladj_add, ladj_scal; reflexivity. Qed.
Lemma ladj_zero : ladj A vzero = vzero.
Proof. rewrite <- (vscal_0 vzero), ladj_scal, vscal_0; reflexivity. Qed.
Lemma ladj_spec' x y : << ladj A y, x >> = << y, A x >>.
Proof. rewrite inner_sym, <- ladj_spec, inner_sym; reflexivity. Qed.
End Linop.

Program Definition id_linop (E : IPS) : linop E E :=
  {| lapp := fun x => x; ladj := fun y => y |}.

Program Definition scal_linop (E : IPS) (a : R) : linop E E :=
  {| lapp := fun x => a [*] x; ladj := fun y => a [*] y |}.
Next Obligation. vring. Qed.
Next Obligation. vring. Qed.
Next Obligation. iring. Qed.

Program Definition adj_linop {E F : IPS} (A : linop E F) : linop F E :=
  {| lapp := ladj A; ladj := lapp A |}.
Next Obligation. apply ladj_add. Qed.
Next Obligation. apply ladj_scal. Qed.
Next Obligation. apply ladj_spec'. Qed.

Program Definition comp_linop {E F G : IPS} (B : linop F G) (A : linop E F) : linop E G :=
  {| lapp := fun x => B (A x); ladj := fun y => ladj A (ladj B y) |}.
Next Obligation. rewrite !lapp_add; reflexivity. Qed.
Next Obligation. rewrite !lapp_scal; reflexivity. Qed.
Next Obligation. rewrite !ladj_spec; reflexivity. Qed.
