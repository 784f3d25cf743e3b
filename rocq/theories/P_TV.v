(** * Proofs about total variation (M_TV.v) *)
From Coq Require Import Psatz ZArith.
From Verif Require Import Base Space Spec ConvexFacts VSum MatFacts M_ProxOp M_Loop M_Bilin M_TV DualTV Compact.
From Verif Require Export S_TV.
Open Scope result_scope.
Open Scope R_scope.

(** ** Sums over one axis *)
Lemma nprod_app a b : nprod (a ++ b) = (nprod a * nprod b)%nat.
Proof. unfold nprod. induction a as [|n a IH]; simpl; [lia|]. rewrite IH. lia. Qed.
Lemma nprod_split dims a : (a < length dims)%nat -> nprod dims = (nprod (firstn a dims) * alen dims a * astride dims a)%nat.
Proof.
  intro Ha. unfold alen, astride. rewrite <- (firstn_skipn a dims) at 1. rewrite nprod_app.
  assert (E1 : skipn a dims = nth a dims 0%nat :: skipn (S a) dims).
  { revert a Ha. induction dims as [|n dims IH]; intros a Ha; simpl in Ha; [lia|]. destruct a as [|a]; [reflexivity|]. change (skipn (S a) (n :: dims)) with (skipn a dims). rewrite IH by lia. reflexivity. }
  rewrite E1. cbn [nprod fold_right]. fold (nprod (skipn (S a) dims)). lia.
Qed.
Lemma nprod_pos dims : dims_ok dims -> (1 <= nprod dims)%nat.
Proof. intro H. induction dims as [|n dims IH]; simpl; [lia|]. pose proof (H n (or_introl eq_refl)). specialize (IH (fun k Hk => H k (or_intror Hk))). fold (nprod dims). nia. Qed.
Lemma alen_ok dims a : dims_ok dims -> (a < length dims)%nat -> (2 <= alen dims a)%nat.
Proof. intros H Ha. apply H. apply nth_In. auto. Qed.
Lemma astride_pos dims a : dims_ok dims -> (1 <= astride dims a)%nat.
Proof. intro H. apply nprod_pos. intros n Hn. apply H. rewrite <- (firstn_skipn (S a) dims). apply in_or_app. auto. Qed.
Lemma skipn_skipn {A} (l : list A) : forall a b, skipn a (skipn b l) = skipn (b + a) l.
Proof. induction l as [|x l IH]; intros a [|b]; cbn [skipn Nat.add]; auto using skipn_nil. Qed.

Definition idx (dims : list nat) (a u c b : nat) : nat := ((u * alen dims a + c) * astride dims a + b)%nat.
Lemma RS_axis dims a h : (a < length dims)%nat -> RS (nprod dims) h = RS (nprod (firstn a dims)) (fun u => RS (astride dims a) (fun b => RS (alen dims a) (fun c => h (idx dims a u c b)))).
Proof.
  intro Ha. rewrite (nprod_split dims a Ha), RS_flat, RS_flat. apply RS_ext. intros u Hu. rewrite RS_swap. apply RS_ext. intros b Hb. apply RS_ext. intros c Hc. reflexivity.
Qed.
Lemma coord_idx dims a u c b : (b < astride dims a)%nat -> (c < alen dims a)%nat -> coord dims a (idx dims a u c b) = c.
Proof. intros Hb Hc. unfold coord, idx. rewrite (proj1 (divmod_flat _ (u * alen dims a + c) b Hb)). apply (divmod_flat _ u c Hc). Qed.
Lemma idx_next dims a u c b : (idx dims a u c b + astride dims a = idx dims a u (S c) b)%nat.
Proof. unfold idx. lia. Qed.
Lemma idx_prev dims a u c b : (idx dims a u (S c) b - astride dims a = idx dims a u c b)%nat.
Proof. unfold idx. lia. Qed.

(** one-dimensional difference: bound and adjoint *)
Definition d1 (n : nat) (g : nat -> R) (c : nat) : R := if Nat.ltb (S c) n then g (S c) - g c else 0.
Definition v1 (n : nat) (q : nat -> R) (c : nat) : R := if Nat.eqb c 0 then q c else if Nat.eqb (S c) n then - q (c - 1)%nat else q c - q (c - 1)%nat.
Lemma d1_lt n g c : (S c < n)%nat -> d1 n g c = g (S c) - g c.
Proof. intro H. unfold d1. destruct (Nat.ltb_spec (S c) n); [auto|lia]. Qed.
Lemma d1_last n g c : (n <= S c)%nat -> d1 n g c = 0.
Proof. intro H. unfold d1. destruct (Nat.ltb_spec (S c) n); [lia|auto]. Qed.
Lemma d1_bound n g : RS n (fun c => d1 n g c * d1 n g c) <= 4 * RS n (fun c => g c * g c).
Proof.
  destruct n as [|m]; [simpl; lra|]. cbn [RS]. rewrite (d1_last (S m) g m) by lia.
  assert (H : RS m (fun c => d1 (S m) g c * d1 (S m) g c) <= RS m (fun c => 2 * (g (S c) * g (S c)) + 2 * (g c * g c))).
  { apply RS_le. intros c Hc. rewrite d1_lt by lia. pose proof (Rle_0_sqr (g (S c) + g c)). unfold Rsqr in *. lra. }
  rewrite RS_add, !RS_scal in H. assert (E1 : RS m (fun c => g (S c) * g (S c)) = RS m (fun c => g c * g c) + g m * g m - g 0%nat * g 0%nat).
  { pose proof (RS_shift m (fun c => g c * g c)) as E. cbn [RS] in E. lra. }
  pose proof (Rle_0_sqr (g 0%nat)). pose proof (Rle_0_sqr (g m)). unfold Rsqr in *. lra.
Qed.
Lemma d1_adj n g q : (2 <= n)%nat -> RS n (fun c => d1 n g c * q c) = - RS n (fun c => g c * v1 n q c).
Proof.
  intro Hn. destruct n as [|[|m]]; try lia.
  assert (E1 : RS (S (S m)) (fun c => d1 (S (S m)) g c * q c) = RS (S m) (fun c => g (S c) * q c) - RS (S m) (fun c => g c * q c)).
  { change (RS (S (S m)) (fun c => d1 (S (S m)) g c * q c)) with (RS (S m) (fun c => d1 (S (S m)) g c * q c) + d1 (S (S m)) g (S m) * q (S m)). rewrite d1_last by lia. rewrite <- RS_sub, Rmult_0_l, Rplus_0_r. apply RS_ext. intros c Hc. rewrite d1_lt by lia. ring. }
  rewrite E1, (RS_shift (S m)). change (RS (S m) (fun i => g (S i) * v1 (S (S m)) q (S i))) with (RS m (fun i => g (S i) * v1 (S (S m)) q (S i)) + g (S m) * v1 (S (S m)) q (S m)).
  assert (E2 : v1 (S (S m)) q 0 = q 0%nat) by reflexivity. assert (E3 : v1 (S (S m)) q (S m) = - q m). { unfold v1. rewrite Nat.eqb_refl. cbn [Nat.eqb]. do 2 f_equal. lia. }
  assert (E4 : RS m (fun i => g (S i) * v1 (S (S m)) q (S i)) = RS m (fun i => g (S i) * q (S i)) - RS m (fun i => g (S i) * q i)).
  { rewrite <- RS_sub. apply RS_ext. intros i Hi. unfold v1. cbn [Nat.eqb]. destruct (Nat.eqb_spec i m); [lia|]. replace (S i - 1)%nat with i by lia. ring. }
  rewrite E2, E3, E4. pose proof (RS_shift m (fun c => g c * q c)) as E5. cbn [RS] in E5 |- *. lra.
Qed.

(** ** The gradient operator of the grid *)
Section Grid.
Variable dims : list nat.
Hypothesis Hdims : dims_ok dims.
Let N := nprod dims.
Let d := length dims.

Lemma fdiff_idx x a u c b : (b < astride dims a)%nat -> (c < alen dims a)%nat -> fdiff dims x a (idx dims a u c b) = d1 (alen dims a) (fun k => nth (idx dims a u k b) x 0) c.
Proof. intros Hb Hc. unfold fdiff, d1. rewrite coord_idx, idx_next by auto. reflexivity. Qed.
Lemma div_idx r a u c b : (b < astride dims a)%nat -> (c < alen dims a)%nat -> div_entry dims r a (idx dims a u c b) = v1 (alen dims a) (fun k => ent (nprod dims) r a (idx dims a u k b)) c.
Proof. intros Hb Hc. unfold div_entry, v1. rewrite coord_idx by auto. destruct c as [|c]; [reflexivity|]. rewrite idx_prev. replace (S c - 1)%nat with c by lia. reflexivity. Qed.
Lemma fdiff_bound x a : (a < d)%nat -> RS N (fun i => fdiff dims x a i * fdiff dims x a i) <= 4 * RS N (fun i => nth i x 0 * nth i x 0).
Proof.
  intro Ha. unfold N. rewrite !(RS_axis dims a _ Ha), <- RS_scal. apply RS_le. intros u Hu. rewrite <- RS_scal. apply RS_le. intros b Hb.
  rewrite (RS_ext _ _ (fun c => d1 (alen dims a) (fun k => nth (idx dims a u k b) x 0) c * d1 (alen dims a) (fun k => nth (idx dims a u k b) x 0) c)) by (intros c Hc; rewrite fdiff_idx by auto; reflexivity). apply d1_bound.
Qed.
Lemma fdiff_adj x r a : (a < d)%nat -> RS N (fun i => fdiff dims x a i * ent N r a i) = - RS N (fun i => nth i x 0 * div_entry dims r a i).
Proof.
  intro Ha. unfold N. rewrite !(RS_axis dims a _ Ha), <- RS_opp. apply RS_ext. intros u Hu. rewrite <- RS_opp. apply RS_ext. intros b Hb.
  rewrite (RS_ext _ _ (fun c => d1 (alen dims a) (fun k => nth (idx dims a u k b) x 0) c * ent (nprod dims) r a (idx dims a u c b))) by (intros c Hc; rewrite fdiff_idx by auto; reflexivity).
  rewrite (d1_adj _ _ (fun c => ent (nprod dims) r a (idx dims a u c b))) by (apply alen_ok; auto). f_equal. apply RS_ext. intros c Hc. rewrite div_idx by auto. reflexivity.
Qed.

(** dual entries *)
Definition dent (p : Vec (d * N)) (a i : nat) : R := get p (a * N + i).
Lemma dual_inner (p q : Vec (d * N)) : << p, q >> = RS N (fun i => RS d (fun a => dent p a i * dent q a i)).
Proof. rewrite vec_inner, RS_flat, RS_swap. reflexivity. Qed.
Lemma dual_norm2 (p : Vec (d * N)) : norm2 p = RS N (fun i => RS d (fun a => dent p a i * dent p a i)).
Proof. apply dual_inner. Qed.
Definition dtab (f : nat -> nat -> R) : Vec (d * N) := vtab (d * N) (fun k => f (k / N)%nat (k mod N)%nat).
Lemma dent_dtab f a i : (a < d)%nat -> (i < N)%nat -> dent (dtab f) a i = f a i.
Proof. intros Ha Hi. unfold dent, dtab. rewrite get_vtab by (apply flat_lt; auto). destruct (divmod_flat N a i Hi) as [-> ->]. reflexivity. Qed.
Lemma dual_ext (p q : Vec (d * N)) : (forall a i, (a < d)%nat -> (i < N)%nat -> dent p a i = dent q a i) -> p = q.
Proof.
  intro H. apply vec_ext. intros k Hk. assert (HN : (N <> 0)%nat) by nia. rewrite (Nat.div_mod k N HN). rewrite (Nat.mul_comm N). apply H; [apply Nat.div_lt_upper_bound; lia|apply Nat.mod_upper_bound; auto].
Qed.
Lemma dent_add p q a i : (a < d)%nat -> (i < N)%nat -> dent (p [+] q) a i = dent p a i + dent q a i.
Proof. intros. apply get_add. apply flat_lt; auto. Qed.
Lemma dent_sub p q a i : (a < d)%nat -> (i < N)%nat -> dent (p [-] q) a i = dent p a i - dent q a i.
Proof. intros. apply get_sub. apply flat_lt; auto. Qed.
Lemma dent_scal c p a i : (a < d)%nat -> (i < N)%nat -> dent (c [*] p) a i = c * dent p a i.
Proof. intros. apply get_scal. apply flat_lt; auto. Qed.

Definition gapp (x : Vec N) : Vec (d * N) := dtab (fun a i => fdiff dims (lst x) a i).
Definition gadj (r : Vec (d * N)) : Vec N := vtab N (fun i => - RS d (fun a => div_entry dims (lst r) a i)).
Lemma coord_range a i : (a < d)%nat -> (i < N)%nat -> (S (coord dims a i) < alen dims a)%nat -> (i + astride dims a < N)%nat.
Proof.
  intros Ha Hi Hc. unfold N in *. rewrite (nprod_split dims a Ha) in *. unfold coord in Hc. set (n := alen dims a) in *. set (s := astride dims a) in *. set (o := nprod (firstn a dims)) in *.
  assert (Hs : (1 <= s)%nat) by (apply astride_pos; auto). assert (Hn : (2 <= n)%nat) by (apply alen_ok; auto).
  pose proof (Nat.div_mod i s ltac:(lia)) as E1. pose proof (Nat.mod_upper_bound i s ltac:(lia)). pose proof (Nat.div_mod (i / s) n ltac:(lia)) as E2. set (k := (i / s)%nat) in *. set (u := (k / n)%nat) in *. set (c := (k mod n)%nat) in *.
  assert (Hu : (u < o)%nat). { destruct (le_lt_dec o u) as [Hl|]; [|auto]. exfalso. assert (o * n <= k)%nat by nia. nia. }
  assert (k + 1 < o * n)%nat by nia. nia.
Qed.
Lemma fdiff_lin (T : Vec N) (x y : Vec N) al be a i : (a < d)%nat -> (i < N)%nat -> (forall j, (j < N)%nat -> get T j = al * get x j + be * get y j) -> fdiff dims (lst T) a i = al * fdiff dims (lst x) a i + be * fdiff dims (lst y) a i.
Proof.
  intros Ha Hi HT. unfold fdiff. destruct (Nat.ltb_spec (S (coord dims a i)) (alen dims a)); [|ring]. fold (get T (i + astride dims a)) (get T i) (get x (i + astride dims a)) (get x i) (get y (i + astride dims a)) (get y i). rewrite !HT; [ring|auto|]. apply (coord_range a); auto.
Qed.
Lemma gapp_spec x r : << gapp x, r >> = << x, gadj r >>.
Proof.
  rewrite dual_inner, vec_inner, RS_swap. rewrite (RS_ext d _ (fun a => - RS N (fun i => nth i (lst x) 0 * div_entry dims (lst r) a i))).
  - rewrite RS_opp, RS_swap, <- RS_opp. apply RS_ext. intros i Hi. unfold gadj. rewrite get_vtab by auto. rewrite RS_scal. unfold get. ring.
  - intros a Ha. rewrite <- fdiff_adj by auto. apply RS_ext. intros i Hi. unfold gapp. rewrite dent_dtab by auto. reflexivity.
Qed.
Definition gradop : linop (Vec N) (Vec (d * N)).
Proof.
  refine (mkLinop _ _ gapp gadj _ _ gapp_spec).
  - intros x y. apply dual_ext. intros a i Ha Hi. rewrite dent_add by auto. unfold gapp. rewrite !dent_dtab by auto. rewrite (fdiff_lin (x [+] y) x y 1 1 a i); [ring|auto|auto|]. intros j Hj. rewrite get_add by auto. ring.
  - intros c x. apply dual_ext. intros a i Ha Hi. rewrite dent_scal by auto. unfold gapp. rewrite !dent_dtab by auto. rewrite (fdiff_lin (c [*] x) x x c 0 a i); [ring|auto|auto|]. intros j Hj. rewrite get_scal by auto. ring.
Defined.
Lemma gradop_bound (x : Vec N) : norm2 (gradop x) <= INR (4 * d) * norm2 x.
Proof.
  change (norm2 (gapp x) <= INR (4 * d) * norm2 x). rewrite dual_norm2, RS_swap, vec_norm2, mult_INR. apply Rle_trans with (RS d (fun _ => 4 * RS N (fun i => get x i * get x i))).
  - apply RS_le. intros a Ha. eapply Rle_trans; [|apply (fdiff_bound (lst x) a Ha)]. right. apply RS_ext. intros i Hi. unfold gapp. rewrite dent_dtab by auto. reflexivity.
  - rewrite RS_const. simpl INR. right. ring.
Qed.

(** ** The dual ball and the variation *)
Definition pixball (p : Vec (d * N)) : Prop := forall i, (i < N)%nat -> RS d (fun a => dent p a i * dent p a i) <= 1.
Definition pixnorm (p : Vec (d * N)) (i : nat) : R := sqrt (RS d (fun a => dent p a i * dent p a i)).
Lemma pix_nonneg p i : 0 <= RS d (fun a => dent p a i * dent p a i).
Proof. apply RS_nonneg. intros a _. apply Rle_0_sqr. Qed.
Lemma pixnorm_nonneg p i : 0 <= pixnorm p i. Proof. apply sqrt_pos. Qed.
Lemma pixnorm_sq p i : pixnorm p i * pixnorm p i = RS d (fun a => dent p a i * dent p a i).
Proof. apply sqrt_sqrt. apply pix_nonneg. Qed.
Lemma pix_cs p q i : RS d (fun a => dent p a i * dent q a i) <= pixnorm p i * pixnorm q i.
Proof.
  pose proof (RS_cauchy d (fun a => dent p a i) (fun a => dent q a i)) as H. cbv beta in H. rewrite <- !pixnorm_sq in H. pose proof (pixnorm_nonneg p i). pose proof (pixnorm_nonneg q i). set (v := RS d (fun a => dent p a i * dent q a i)) in *.
  apply Rnot_lt_le. intro Hl. assert (0 <= pixnorm p i * pixnorm q i) by (apply Rmult_le_pos; auto). assert ((pixnorm p i * pixnorm q i) * (pixnorm p i * pixnorm q i) < v * v) by nra. nra.
Qed.
Lemma pixball_norm p : pixball p <-> forall i, (i < N)%nat -> pixnorm p i <= 1.
Proof.
  split; intros H i Hi; specialize (H i Hi); pose proof (pixnorm_nonneg p i); pose proof (pixnorm_sq p i); nra.
Qed.
Lemma pixball_convex : convex_set pixball.
Proof.
  intros p q t Hp Hq Ht i Hi. rewrite pixball_norm in Hp, Hq. specialize (Hp i Hi). specialize (Hq i Hi). pose proof (pixnorm_nonneg p i). pose proof (pixnorm_nonneg q i). pose proof (pix_cs p q i) as Hc.
  rewrite (RS_ext d _ (fun a => (1 - t) * (1 - t) * (dent p a i * dent p a i) + (2 * (1 - t) * t * (dent p a i * dent q a i) + t * t * (dent q a i * dent q a i)))).
  2:{ intros a Ha. rewrite dent_add, !dent_scal by auto. ring. }
  rewrite !RS_add, !RS_scal, <- !pixnorm_sq. set (u := pixnorm p i) in *. set (v := pixnorm q i) in *. set (w := RS d (fun a => dent p a i * dent q a i)) in *.
  assert (2 * (1 - t) * t * w <= 2 * (1 - t) * t * (u * v)) by (apply Rmult_le_compat_l; nra).
  assert (HB : 0 <= (1 - t) * u + t * v <= 1). { assert (0 <= (1 - t) * u <= (1 - t)) by nra. assert (0 <= t * v <= t) by nra. lra. }
  assert ((1 - t) * (1 - t) * (u * u) + 2 * (1 - t) * t * (u * v) + t * t * (v * v) = ((1 - t) * u + t * v) * ((1 - t) * u + t * v)) by ring. nra.
Qed.
Lemma pixball_sym p : pixball p -> pixball (vopp p).
Proof. intros H i Hi. eapply Rle_trans; [|apply (H i Hi)]. right. apply RS_ext. intros a Ha. unfold vopp. rewrite dent_scal by auto. ring. Qed.
Lemma pixball_size p : pixball p -> norm2 p <= INR N.
Proof. intro H. rewrite dual_norm2. replace (INR N) with (RS N (fun _ => 1)) by (rewrite RS_const; ring). apply RS_le. exact H. Qed.

Definition pixproj (q : Vec (d * N)) : Vec (d * N) := dtab (fun a i => dent q a i / Rmax 1 (pixnorm q i)).
Lemma pixproj_ok q : is_proj pixball q (pixproj q).
Proof.
  assert (HM : forall i, 1 <= Rmax 1 (pixnorm q i)) by (intro; apply Rmax_l).
  assert (HP : pixball (pixproj q)).
  { intros i Hi. rewrite (RS_ext d _ (fun a => / (Rmax 1 (pixnorm q i) * Rmax 1 (pixnorm q i)) * (dent q a i * dent q a i))).
    2:{ intros a Ha. unfold pixproj. rewrite dent_dtab by auto. specialize (HM i). field. lra. }
    rewrite RS_scal, <- pixnorm_sq. specialize (HM i). pose proof (Rmax_r 1 (pixnorm q i)). pose proof (pixnorm_nonneg q i). set (m := Rmax 1 (pixnorm q i)) in *. apply Rmult_le_reg_l with (m * m); [nra|]. rewrite <- Rmult_assoc, Rinv_r by nra. nra. }
  apply vi_proj; [exact HP|]. intros w Hw. rewrite dual_inner. rewrite <- (RS_zero N). apply RS_le. intros i Hi. specialize (HM i). rewrite pixball_norm in Hw. specialize (Hw i Hi).
  set (m := Rmax 1 (pixnorm q i)) in *.
  rewrite (RS_ext d _ (fun a => (1 - / m) * (dent q a i * dent w a i) - (1 - / m) * / m * (dent q a i * dent q a i))).
  2:{ intros a Ha. rewrite !dent_sub by auto. unfold pixproj. rewrite !dent_dtab by auto. fold m. field. lra. }
  rewrite RS_sub, !RS_scal, <- pixnorm_sq. pose proof (pix_cs q w i) as Hc. pose proof (pixnorm_nonneg q i). pose proof (pixnorm_nonneg w i). assert (HI : 0 < / m <= 1) by (split; [apply Rinv_0_lt_compat; lra|rewrite <- Rinv_1; apply Rinv_le_contravar; lra]).
  unfold m in *. unfold Rmax in *. destruct (Rle_dec 1 (pixnorm q i)) as [Hl|Hl].
  - replace ((1 - / pixnorm q i) * / pixnorm q i * (pixnorm q i * pixnorm q i)) with ((1 - / pixnorm q i) * pixnorm q i) by (field; lra). assert (RS d (fun a => dent q a i * dent w a i) <= pixnorm q i) by nra. nra.
  - rewrite Rinv_1. lra.
Qed.

(** the isotropic total variation of a grid array *)
Definition tv_fun (x : Vec N) : R := RS N (pixnorm (gapp x)).
Lemma tv_ub (y : Vec N) (p : Vec (d * N)) : pixball p -> << p, gradop y >> <= tv_fun y.
Proof.
  intro Hp. change (<< p, gapp y >> <= tv_fun y). rewrite dual_inner. apply RS_le. intros i Hi. eapply Rle_trans; [apply pix_cs|]. rewrite pixball_norm in Hp. specialize (Hp i Hi). pose proof (pixnorm_nonneg p i). pose proof (pixnorm_nonneg (gapp y) i). nra.
Qed.
Lemma tv_att (y : Vec N) : exists p, pixball p /\ << p, gradop y >> = tv_fun y.
Proof.
  set (g := gapp y). exists (dtab (fun a i => if Reqb (pixnorm g i) 0 then 0 else dent g a i / pixnorm g i)). split.
  - intros i Hi. destruct (Reqb_spec (pixnorm g i) 0) as [[H0 E0]|[H0 E0]].
    + rewrite (RS_ext d _ (fun _ => 0)); [rewrite RS_zero; lra|]. intros a Ha. rewrite dent_dtab by auto. rewrite E0. ring.
    + rewrite (RS_ext d _ (fun a => / (pixnorm g i * pixnorm g i) * (dent g a i * dent g a i))).
      2:{ intros a Ha. rewrite dent_dtab by auto. rewrite E0. field. auto. }
      rewrite RS_scal, <- pixnorm_sq, Rinv_l; [lra|]. intro Hz. apply Rmult_integral in Hz. tauto.
  - change (<< dtab (fun a i => if Reqb (pixnorm g i) 0 then 0 else dent g a i / pixnorm g i), g >> = tv_fun y). rewrite dual_inner. apply RS_ext. intros i Hi. destruct (Reqb_spec (pixnorm g i) 0) as [[H0 E0]|[H0 E0]].
    + rewrite (RS_ext d _ (fun _ => 0)); [rewrite RS_zero; fold g; auto|]. intros a Ha. rewrite dent_dtab by auto. rewrite E0. ring.
    + rewrite (RS_ext d _ (fun a => / pixnorm g i * (dent g a i * dent g a i))).
      2:{ intros a Ha. rewrite dent_dtab by auto. rewrite E0. field. auto. }
      rewrite RS_scal, <- pixnorm_sq. fold g. field. auto.
Qed.
End Grid.
