(** * Proofs about the operators on complex arrays (M_Cx.v): functions of the moduli *)
From Coq Require Import Psatz ZArith Rtrigo1 Ratan Rpower.
From Verif Require Import Base Space Spec SpecOps ConvexFacts Sep VSum MatFacts Cplx M_ProxOp M_L1 M_Pen M_Proj M_L0 M_Cx S_Pen S_Pen3 P_Pen P_Pen2 P_Pen3 P_L1 P_Conv.
From Verif Require Export S_Cx.
Open Scope result_scope.

Lemma cmod_norm (z : C) : norm (z : C_IPS) = cmod z.
Proof. reflexivity. Qed.
Lemma cmod_nonneg z : 0 <= cmod z.
Proof. apply sqrt_pos. Qed.
Lemma cabs2_nonneg z : 0 <= cabs2 z.
Proof. unfold cabs2. nra. Qed.
Lemma cmod_sq z : cmod z * cmod z = cabs2 z.
Proof. apply sqrt_sqrt, cabs2_nonneg. Qed.
Lemma cmod_eq0 z : cmod z = 0 -> z = C0.
Proof.
  intro H. pose proof (cmod_sq z) as E. rewrite H in E. unfold cabs2 in E. destruct z as [a b]; simpl in *.
  unfold C0. f_equal; nra.
Qed.
Lemma cmod_C0 : cmod C0 = 0.
Proof. unfold cmod, cabs2, C0; simpl. replace (0 * 0 + 0 * 0) with 0 by ring. apply sqrt_0. Qed.
Lemma cmod_scal t z : cmod (cscal t z) = Rabs t * cmod z.
Proof.
  unfold cmod. replace (cabs2 (cscal t z)) with ((t * t) * cabs2 z) by (unfold cabs2, cscal; simpl; ring).
  rewrite sqrt_mult_alt by nra. f_equal. apply sqrt_Rsqr_abs.
Qed.

Lemma cg_cvec n f i : (i < n)%nat -> cg (cvec n f) i = f i.
Proof. intro H. unfold cg, entries, cvec; simpl. rewrite (map_nth_lt f _ i 0%nat C0) by (rewrite seq_length; auto). rewrite seq_nth by auto. reflexivity. Qed.
Lemma get_cmodulus n (z : CArr n) i : (i < n)%nat -> get (cmodulus z) i = cmod (cg z i).
Proof. intro H. apply get_vtab. auto. Qed.
Lemma mods_cmodulus n (z : CArr n) : mods z = cmodulus z.
Proof. reflexivity. Qed.

Lemma carr_dist2 n (x y : CArr n) : norm2 (x [-] y) = RS n (fun i => cabs2 (csub (cg x i) (cg y i))).
Proof. rewrite carr_norm2. apply RS_ext. intros i Hi. rewrite cg_sub. reflexivity. Qed.
Lemma vec_dist2 n (x y : Vec n) : norm2 (x [-] y) = RS n (fun i => (get x i - get y i) * (get x i - get y i)).
Proof. rewrite vec_norm2. apply RS_ext. intros i Hi. rewrite get_sub by auto. reflexivity. Qed.

(** Re(conj(w) z) <= |w| |z| *)
Lemma cre_le (w z : C) : fst w * fst z + snd w * snd z <= cmod w * cmod z.
Proof.
  assert (H : Rabs (fst w * fst z + snd w * snd z) <= cmod w * cmod z); [|pose proof (Rle_abs (fst w * fst z + snd w * snd z)); lra].
  unfold cmod. rewrite <- sqrt_mult_alt by apply cabs2_nonneg. rewrite <- sqrt_Rsqr_abs. apply sqrt_le_1_alt.
  unfold Rsqr, cabs2. pose proof (Rle_0_sqr (fst w * snd z - snd w * fst z)) as Hs. unfold Rsqr in Hs. lra.
Qed.
Lemma cdist_ge (w z : C) : (cmod w - cmod z) * (cmod w - cmod z) <= cabs2 (csub w z).
Proof.
  pose proof (cre_le w z). pose proof (cmod_sq w). pose proof (cmod_sq z). unfold cabs2, csub in *; simpl in *. lra.
Qed.
Lemma cdist_turned (z w : C) p : cscal (cmod z) w = cscal p z -> cmod w = Rabs p -> cabs2 (csub w z) = (p - cmod z) * (p - cmod z).
Proof.
  intros H1 H2. pose proof (cmod_sq w) as Hw. pose proof (cmod_sq z) as Hz. rewrite H2 in Hw.
  assert (Hp : Rabs p * Rabs p = p * p) by (rewrite <- Rabs_mult; apply Rabs_right; nra). rewrite Hp in Hw.
  destruct (Req_dec (cmod z) 0) as [E|E].
  - apply cmod_eq0 in E. subst z. rewrite cmod_C0. unfold cabs2, csub, C0 in *; simpl in *. nra.
  - assert (Hin : fst w * fst z + snd w * snd z = p * cmod z).
    { apply (Rmult_eq_reg_l (cmod z)); auto. unfold cscal in H1. injection H1 as Ha Hb.
      transitivity ((cmod z * fst w) * fst z + (cmod z * snd w) * snd z); [ring|]. rewrite Ha, Hb.
      transitivity (p * cabs2 z); [unfold cabs2; ring|]. rewrite <- Hz. ring. }
    unfold cabs2, csub in *; simpl in *. lra.
Qed.

Lemma turned_mod n (z : CArr n) p w i : turned z p w -> (i < n)%nat -> get (cmodulus w) i = Rabs (get p i).
Proof. intros H Hi. rewrite get_cmodulus by auto. apply H; auto. Qed.
Lemma turned_dist n (z : CArr n) p w : turned z p w -> norm2 (w [-] z) = norm2 (p [-] cmodulus z).
Proof.
  intro H. rewrite carr_dist2, vec_dist2. apply RS_ext. intros i Hi. destruct (H i Hi) as [H1 H2].
  rewrite get_cmodulus by auto. apply cdist_turned; auto.
Qed.
Lemma mod_dist n (y z : CArr n) : norm2 (cmodulus y [-] cmodulus z) <= norm2 (y [-] z).
Proof.
  rewrite carr_dist2, vec_dist2. apply RS_le. intros i Hi. rewrite !get_cmodulus by auto. apply cdist_ge.
Qed.
Lemma cphase_mod (z : C) : cmod (cphase z) = 1.
Proof.
  unfold cphase. change (@norm C_IPS z) with (cmod z). destruct (Reqb_spec (cmod z) 0) as [[H ->]|[H ->]].
  - unfold cmod, cabs2; simpl. replace (1 * 1 + 0 * 0) with 1 by ring. apply sqrt_1.
  - change (cmod (cscal (/ cmod z) z) = 1). rewrite cmod_scal. pose proof (cmod_nonneg z).
    rewrite Rabs_right by (left; apply Rinv_0_lt_compat; lra). field; auto.
Qed.
Lemma cphase_scal (z : C) : cscal (cmod z) (cphase z) = z.
Proof.
  unfold cphase. change (@norm C_IPS z) with (cmod z). destruct (Reqb_spec (cmod z) 0) as [[H ->]|[H ->]].
  - rewrite H. apply cmod_eq0 in H. subst z. unfold cscal, C0; simpl. f_equal; ring.
  - destruct z as [a b]. unfold cscal; simpl. f_equal; field; auto.
Qed.
Definition turn {n} (z : CArr n) (p : Vec n) : CArr n := cvec n (fun i => cscal (get p i) (cphase (cg z i))).
Lemma turn_turned n (z : CArr n) p : turned z p (turn z p).
Proof.
  intros i Hi. unfold turn. rewrite cg_cvec by auto. split.
  - rewrite <- (cphase_scal (cg z i)) at 3. unfold cscal; simpl. f_equal; ring.
  - rewrite cmod_scal, cphase_mod. ring.
Qed.

(*! C80_radial : for every function F of n real numbers that does not see their signs and every tau > 0: turning the
   entries of p to the phases of z gives a proximal point of the same function of the moduli at the complex array z
   exactly when p is a proximal point of F at the array of moduli *)
Lemma C80_radial_l : forall n (F : efun (Vec n)) tau (z w : CArr n) (p : Vec n), sign_free F -> 0 < tau -> turned z p w ->
  (is_prox (on_moduli F) tau z w <-> is_prox F tau (cmodulus z) p).
Proof.
  intros n F tau z w p HF Ht HT.
  assert (Hi : 0 <= / (2 * tau)) by (left; apply Rinv_0_lt_compat; lra).
  assert (Hsame : (edom F (cmodulus w) <-> edom F p) /\ (edom F (cmodulus w) -> eval F (cmodulus w) = eval F p)).
  { apply HF. intros i Hi'. rewrite (turned_mod _ _ _ _ _ HT Hi'). apply Rabs_Rabsolu. }
  destruct Hsame as [Hd Hv]. split; intros [H1 H2].
  - cbn [edom on_moduli] in H1. split; [apply Hd; auto|]. intros y Hy.
    pose proof (turn_turned n z y) as Hty.
    assert (Hs : (edom F (cmodulus (turn z y)) <-> edom F y) /\ (edom F (cmodulus (turn z y)) -> eval F (cmodulus (turn z y)) = eval F y)).
    { apply HF. intros i Hi'. rewrite (turned_mod _ _ _ _ _ Hty Hi'). apply Rabs_Rabsolu. }
    destruct Hs as [Hd' Hv']. assert (Hdy := proj2 Hd' Hy). specialize (H2 (turn z y) Hdy). cbn [eval on_moduli] in H2.
    rewrite (turned_dist _ _ _ _ HT), (turned_dist _ _ _ _ Hty), Hv, Hv' in H2 by auto. exact H2.
  - assert (Hdw := proj2 Hd H1). split; [exact Hdw|]. intros y Hy. cbn [edom eval on_moduli] in *.
    specialize (H2 (cmodulus y) Hy). rewrite (turned_dist _ _ _ _ HT), Hv by auto.
    pose proof (Rmult_le_compat_l _ _ _ Hi (mod_dist n y z)). lra.
Qed.
