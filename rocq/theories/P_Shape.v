(** * What every exact proximal operator does to its argument, convex or not *)
From Coq Require Import String ZArith Psatz.
From Verif Require Import Base Space Spec ConvexFacts Sep VSum MatFacts M_ProxOp SpecOps P_ProxOp M_Pen S_Pen S_Pen2 S_Pen3 P_Pen P_Pen2 P_Pen3 M_L0 S_L0 P_L0 P_Cx2 S_Noncvx P_Noncvx.
From Verif Require Export S_Shape.
Open Scope result_scope.
Open Scope R_scope.

Lemma prox_mono_l {E : IPS} (g : efun E) t x y p q : 0 < t -> is_prox g t x p -> is_prox g t y q -> 0 <= << p [-] q, x [-] y >>.
Proof.
  intros Ht [D1 H1] [D2 H2]. specialize (H1 q D2). specialize (H2 p D1).
  assert (Hk : 0 < / (2 * t)) by (apply Rinv_0_lt_compat; lra).
  assert (Id : norm2 (q [-] x) + norm2 (p [-] y) - norm2 (p [-] x) - norm2 (q [-] y) = 2 * << p [-] q, x [-] y >>) by (iexp; ring).
  apply (Rmult_le_reg_l (/ (2 * t) * 2)); [lra|]. rewrite Rmult_0_r, Rmult_assoc, <- Id. lra.
Qed.

(*! C109_monotone : whatever the function g, convex or not, an operator whose prox is exact at step t moves the results of two arguments in no direction opposed to that between the arguments:
   <prox(x) - prox(y), x - y> >= 0 *)
Lemma C109_monotone_l : forall (E : IPS) (o : Op E) (g : efun E) t x y, 0 < t -> prox_at o g t ->
  exists p q, o_prox o x t = Ok p /\ o_prox o y t = Ok q /\ 0 <= << p [-] q, x [-] y >>.
Proof.
  intros E o g t x y Ht H. destruct (H x) as (p & E1 & P1). destruct (H y) as (q & E2 & P2). exists p, q. split; [exact E1|]. split; [exact E2|]. exact (prox_mono_l g t x y p q Ht P1 P2).
Qed.

(*! C109_step : whatever g, with steps s < t: prox(x, t) is at least as far from x as prox(x, s) and has no larger value of g; for x in the domain both have g(prox) + |prox - x|^2/(2 step) <= g(x) *)
Lemma C109_step_l : forall (E : IPS) (o : Op E) (g : efun E) s t x, 0 < s < t -> prox_at o g s -> prox_at o g t ->
  exists p q, o_prox o x s = Ok p /\ o_prox o x t = Ok q /\ norm (p [-] x) <= norm (q [-] x) /\ eval g q <= eval g p /\
    (edom g x -> eval g p + / (2 * s) * norm2 (p [-] x) <= eval g x /\ eval g q + / (2 * t) * norm2 (q [-] x) <= eval g x).
Proof.
  intros E o g s t x Hst Hs Ht. destruct (Hs x) as (p & E1 & [D1 P1]). destruct (Ht x) as (q & E2 & [D2 P2]). exists p, q. split; [exact E1|]. split; [exact E2|].
  pose proof (P1 q D2) as H1. pose proof (P2 p D1) as H2.
  assert (Hk : / (2 * t) < / (2 * s)) by (apply Rinv_lt_contravar; [apply Rmult_lt_0_compat; lra|lra]). assert (Hk2 : 0 < / (2 * t)) by (apply Rinv_0_lt_compat; lra).
  assert (Hn : norm2 (p [-] x) <= norm2 (q [-] x)) by nra. split.
  - unfold norm. apply sqrt_le_1_alt. exact Hn.
  - split; [nra|]. intro Dx. split; [specialize (P1 x Dx)|specialize (P2 x Dx)]; rewrite vsub_diag in *; unfold norm2 at 2 in P1, P2 || idtac.
    + replace (norm2 (vzero : E)) with 0 in P1 by (symmetry; apply inner_zero_l). lra.
    + replace (norm2 (vzero : E)) with 0 in P2 by (symmetry; apply inner_zero_l). lra.
Qed.

Lemma Rabs_mult_self a : Rabs a * Rabs a = a * a.
Proof. rewrite <- Rabs_mult. apply Rabs_right. nra. Qed.
Lemma RS_set n (F : nat -> R -> R) (y : nat -> R) i a : (i < n)%nat -> RS n (fun k => F k (if Nat.eqb k i then a else y k)) = RS n (fun k => F k (y k)) - F i (y i) + F i a.
Proof.
  induction n as [|n IH]; intro Hi; [lia|]. cbn [RS]. destruct (Nat.eq_dec i n) as [->|Hne].
  - rewrite Nat.eqb_refl. rewrite (RS_ext n _ (fun k => F k (y k))); [ring|]. intros k Hk. destruct (Nat.eqb_spec k n); [lia|reflexivity].
  - rewrite IH by lia. destruct (Nat.eqb_spec n i); [lia|]. ring.
Qed.
Lemma dist_set n i a (y x : Vec n) : (i < n)%nat -> norm2 (set_entry i a y [-] x) = norm2 (y [-] x) - (get y i - get x i) * (get y i - get x i) + (a - get x i) * (a - get x i).
Proof.
  intro Hi. rewrite !vec_norm2. rewrite (RS_ext n _ (fun k => (fun k v => (v - get x k) * (v - get x k)) k (if Nat.eqb k i then a else get y k))).
  - rewrite (RS_set n (fun k v => (v - get x k) * (v - get x k)) (get y) i a Hi). cbv beta. rewrite (RS_ext n (fun k => get (y [-] x) k * get (y [-] x) k) (fun k => (get y k - get x k) * (get y k - get x k))) by (intros k Hk; rewrite get_sub by auto; reflexivity). reflexivity.
  - intros k Hk. rewrite get_sub by auto. unfold set_entry. rewrite get_vtab by auto. reflexivity.
Qed.
Lemma get_set n i a (y : Vec n) k : (k < n)%nat -> get (set_entry i a y) k = if Nat.eqb k i then a else get y k.
Proof. intro Hk. unfold set_entry. apply get_vtab. exact Hk. Qed.

(*! C109_entries : if g does not increase when an entry gets smaller in absolute value or changes sign, an exact prox keeps the sign of every entry and does not enlarge any; if also g
   does not depend on the order of the entries, it keeps their order, and the order of their absolute values *)
Lemma C109_entries_l : forall n (o : Op (Vec n)) g t x, 0 < t -> prox_at o g t -> grows_with_size g ->
  exists p, o_prox o x t = Ok p /\ (forall i, (i < n)%nat -> 0 <= get x i * get p i /\ Rabs (get p i) <= Rabs (get x i)) /\
    (order_free g -> forall i j, (i < n)%nat -> (j < n)%nat -> 0 <= (get x i - get x j) * (get p i - get p j) /\ 0 <= (Rabs (get x i) - Rabs (get x j)) * (Rabs (get p i) - Rabs (get p j))).
Proof.
  intros n o g t x Ht Hp Hg. destruct (Hp x) as (p & E1 & [Dp Hm]). exists p. split; [exact E1|].
  assert (Hk : 0 < / (2 * t)) by (apply Rinv_0_lt_compat; lra).
  assert (Hcmp : forall z, edom g z -> eval g z <= eval g p -> norm2 (p [-] x) <= norm2 (z [-] x)).
  { intros z Dz Hz. specialize (Hm z Dz). apply (Rmult_le_reg_l (/ (2 * t))); lra. }
  assert (Hsgn : forall i, (i < n)%nat -> 0 <= get x i * get p i /\ Rabs (get p i) <= Rabs (get x i)).
  { intros i Hi.
    assert (S1 : 0 <= get x i * get p i).
    { destruct (Hg p i (- get p i) Hi ltac:(rewrite Rabs_Ropp; lra) Dp) as [D1 G1]. pose proof (Hcmp _ D1 G1) as H. rewrite dist_set in H by auto. nra. }
    split; [exact S1|]. apply Rnot_lt_le. intro Hlt. destruct (Hg p i (get x i) Hi ltac:(lra) Dp) as [D1 G1]. pose proof (Hcmp _ D1 G1) as H. rewrite dist_set in H by auto.
    assert (get p i = get x i) by nra. rewrite H0 in Hlt. lra. }
  split; [exact Hsgn|]. intros Ho i j Hi Hj. destruct (Nat.eq_dec i j) as [->|Hne]; [split; nra|].
  destruct (Ho p i j Hi Hj Hne Dp) as [D1 G1]. set (z := set_entry i (get p j) (set_entry j (get p i) p)) in *.
  assert (Hij : Nat.eqb i j = false) by (apply Nat.eqb_neq; auto). assert (Hji : Nat.eqb j i = false) by (apply Nat.eqb_neq; auto).
  assert (Nz : norm2 (z [-] x) = norm2 (p [-] x) + 2 * ((get x i - get x j) * (get p i - get p j))) by (unfold z; rewrite dist_set, dist_set, get_set, Hij by auto; ring).
  split; [pose proof (Hcmp z D1 G1); lra|].
  (* also give the two exchanged entries the signs of x *)
  set (sg := fun k v => if Rle_dec 0 (get x k) then Rabs v else - Rabs v).
  assert (Asg : forall k v, Rabs (sg k v) = Rabs v) by (intros k v; unfold sg; destruct (Rle_dec 0 (get x k)); [apply Rabs_Rabsolu|rewrite Rabs_Ropp; apply Rabs_Rabsolu]).
  assert (Zi : get z i = get p j) by (unfold z; rewrite get_set, Nat.eqb_refl by auto; reflexivity).
  assert (Zj : get z j = get p i) by (unfold z; rewrite get_set, Hji, get_set, Nat.eqb_refl by auto; reflexivity).
  destruct (Hg z i (sg i (get z i)) Hi ltac:(rewrite Asg; lra) D1) as [D2 G2]. set (z2 := set_entry i (sg i (get z i)) z) in *.
  assert (Z2j : get z2 j = get p i) by (unfold z2; rewrite get_set, Hji by auto; exact Zj).
  destruct (Hg z2 j (sg j (get z2 j)) Hj ltac:(rewrite Asg; lra) D2) as [D3 G3].
  pose proof (Hcmp _ D3 ltac:(lra)) as H. rewrite dist_set in H by auto. unfold z2 at 1 in H. rewrite dist_set, Nz, Z2j, Zi in H by auto.
  assert (Sx : forall k v, sg k v * get x k = Rabs v * Rabs (get x k)).
  { intros k v. unfold sg. destruct (Rle_dec 0 (get x k)); [rewrite (Rabs_right (get x k)) by lra; ring|rewrite (Rabs_left (get x k)) by lra; ring]. }
  assert (Sq : forall k v, sg k v * sg k v = v * v) by (intros k v; rewrite <- (Rabs_mult_self (sg k v)), Asg; apply Rabs_mult_self).
  assert (Hx : forall k, (k < n)%nat -> get x k * get p k = Rabs (get x k) * Rabs (get p k)) by (intros k Hk'; rewrite <- Rabs_mult; symmetry; apply Rabs_right, Rle_ge, Hsgn; auto).
  pose proof (Sx i (get p j)). pose proof (Sx j (get p i)). pose proof (Sq i (get p j)). pose proof (Sq j (get p i)). pose proof (Hx i Hi). pose proof (Hx j Hj).
  set (a := sg i (get p j)) in *. set (b := sg j (get p i)) in *. nra.
Qed.

Lemma sumf_set n h i a (y : Vec n) : (i < n)%nat -> sumf h (set_entry i a y) = sumf h y - h (get y i) + h a.
Proof.
  intro Hi. rewrite !sumf_RS. rewrite (RS_ext n _ (fun k => h (if Nat.eqb k i then a else get y k))) by (intros k Hk; rewrite get_set by auto; reflexivity).
  apply (RS_set n (fun _ => h) (get y) i a Hi).
Qed.
Lemma sumf_swap n h i j (y : Vec n) : (i < n)%nat -> (j < n)%nat -> i <> j -> sumf h (set_entry i (get y j) (set_entry j (get y i) y)) = sumf h y.
Proof. intros Hi Hj Hne. rewrite !sumf_set, get_set by auto. destruct (Nat.eqb_spec i j); [contradiction|]. ring. Qed.
Lemma sumf_shape n h : (forall a b, Rabs a <= Rabs b -> h a <= h b) -> grows_with_size (n:=n) (etot (sumf h)) /\ order_free (n:=n) (etot (sumf h)).
Proof.
  intro H. split.
  - intros y i a Hi Ha _. split; [exact I|]. cbn [eval etot]. rewrite sumf_set by auto. specialize (H _ _ Ha). lra.
  - intros y i j Hi Hj Hne _ z. split; [exact I|]. cbn [eval etot]. unfold z. rewrite sumf_swap by auto. lra.
Qed.
Definition nz1 (a : R) : R := if Req_EM_T a 0 then 0 else 1.
Lemma nnz_sumf n (x : Vec n) : INR (nnz x) = sumf nz1 x.
Proof.
  rewrite sumf_RS. unfold nnz. generalize (get x). clear x. intro h. induction n as [|n IH]; [reflexivity|]. rewrite seq_S, filter_app, app_length, plus_INR, IH. cbn [RS]. f_equal.
  cbn [filter plus]. unfold nz1. destruct (Reqb_spec (h n) 0) as [[H ->]|[H ->]]; destruct (Req_EM_T (h n) 0); try contradiction; reflexivity.
Qed.
Lemma nz_mono c a b : 0 <= c -> Rabs a <= Rabs b -> (if Req_EM_T a 0 then 0 else c) <= (if Req_EM_T b 0 then 0 else c).
Proof.
  intros Hc H. destruct (Req_EM_T b 0) as [->|Hb]; destruct (Req_EM_T a 0) as [->|Ha]; try lra. rewrite Rabs_R0 in H. pose proof (Rabs_pos_lt a Ha). lra.
Qed.
Lemma l0_ball_shape n r : grows_with_size (n:=n) (indic (l0_ball r)) /\ order_free (n:=n) (indic (l0_ball r)).
Proof.
  split.
  - intros y i a Hi Ha Hy. split; [|apply Rle_refl]. cbn [edom indic] in *. unfold l0_ball in *. apply INR_le. apply le_INR in Hy. rewrite nnz_sumf in *. rewrite sumf_set by auto.
    pose proof (nz_mono 1 _ _ ltac:(lra) Ha). unfold nz1 at 2 3. lra.
  - intros y i j Hi Hj Hne Hy z. split; [|apply Rle_refl]. cbn [edom indic] in *. unfold l0_ball in *. apply INR_le. apply le_INR in Hy. rewrite nnz_sumf in *. unfold z. rewrite sumf_swap by auto. exact Hy.
Qed.
Lemma scad_mono sigma al a b : 0 < sigma -> 2 < al -> Rabs a <= Rabs b -> scad_fun sigma al a <= scad_fun sigma al b.
Proof.
  intros Hs Ha H. unfold scad_fun. rewrite <- (Rabs_mult_self a), <- (Rabs_mult_self b). pose proof (Rabs_pos a) as A. pose proof (Rabs_pos b) as B. set (u := Rabs a) in *. set (v := Rabs b) in *.
  assert (Hi : 0 < / (2 * (al - 1))) by (apply Rinv_0_lt_compat; lra).
  assert (Q : forall w, (- (w * w) + 2 * al * sigma * w - sigma * sigma) / (2 * (al - 1)) = (al + 1) * (sigma * sigma) / 2 - / (2 * (al - 1)) * ((al * sigma - w) * (al * sigma - w))) by (intro w; field; lra).
  assert (Q2 : forall w, (- (w * w) + 2 * al * sigma * w - sigma * sigma) / (2 * (al - 1)) = sigma * sigma + / (2 * (al - 1)) * ((w - sigma) * (2 * al * sigma - w - sigma))) by (intro w; field; lra).
  destruct (Rle_dec u sigma) as [U1|U1]; destruct (Rle_dec v sigma) as [V1|V1]; try lra.
  - apply Rmult_le_compat_l; lra.
  - destruct (Rle_dec v (al * sigma)) as [V2|V2].
    + rewrite Q2. assert (sigma * u <= sigma * sigma) by (apply Rmult_le_compat_l; lra). assert (0 <= / (2 * (al - 1)) * ((v - sigma) * (2 * al * sigma - v - sigma))) by (apply Rmult_le_pos; [lra|apply Rmult_le_pos; nra]). lra.
    + assert (sigma * u <= sigma * sigma) by (apply Rmult_le_compat_l; lra). nra.
  - destruct (Rle_dec u (al * sigma)) as [U2|U2]; destruct (Rle_dec v (al * sigma)) as [V2|V2]; try lra; rewrite ?Q.
    + assert (/ (2 * (al - 1)) * ((al * sigma - v) * (al * sigma - v)) <= / (2 * (al - 1)) * ((al * sigma - u) * (al * sigma - u))) by (apply Rmult_le_compat_l; nra). lra.
    + assert (0 <= / (2 * (al - 1)) * ((al * sigma - u) * (al * sigma - u))) by (apply Rmult_le_pos; nra). lra.
Qed.

Lemma penalty_shape n t (o : Op (Vec n)) g : 0 < t -> penalty t o g -> grows_with_size g /\ order_free g.
Proof.
  intros Ht Hp. destruct Hp as [sigma gamma Hs Hg|W sigma gamma HW Hi|sigma gamma Hi|sigma al Hi Hta|mu Hm Ht1|sigma kappa Hs Hk|sigma Hs|argsort r HA Hr].
  - apply sumf_shape. intros a b H. pose proof (Rabs_pos a). assert (Hl : 0 < ln (gamma + 1)) by (rewrite <- ln_1; apply ln_increasing; lra). apply Rmult_le_compat_l; [apply Rmult_le_pos; [lra|left; apply Rinv_0_lt_compat; lra]|].
    destruct (Rle_lt_or_eq_dec _ _ H) as [Hlt|Heq]; [left; apply ln_increasing; nra|rewrite Heq; lra].
  - unfold etp_init in Hi. destruct (Rltb_spec sigma 0) as [[H1 E1]|[H1 E1]]; rewrite E1 in Hi; [discriminate|]. destruct (Rleb_spec gamma 0) as [[H2 E2]|[H2 E2]]; rewrite E2 in Hi; [discriminate|].
    apply sumf_shape. intros a b H. assert (He : exp (- gamma) < 1) by (rewrite <- exp_0; apply exp_increasing; lra).
    apply Rmult_le_compat_r; [left; apply Rinv_0_lt_compat; lra|]. apply Rmult_le_compat_l; [lra|].
    assert (exp (- gamma * Rabs b) <= exp (- gamma * Rabs a)); [|lra]. destruct (Rle_lt_or_eq_dec _ _ H) as [Hlt|Heq]; [left; apply exp_increasing; nra|rewrite Heq; lra].
  - unfold geman_init in Hi. destruct (Rltb_spec sigma 0) as [[H1 E1]|[H1 E1]]; rewrite E1 in Hi; [discriminate|]. destruct (Rleb_spec gamma 0) as [[H2 E2]|[H2 E2]]; rewrite E2 in Hi; [discriminate|].
    apply sumf_shape. intros a b H. pose proof (Rabs_pos a).
    assert (Q : forall w, 0 <= w -> sigma * w / (w + gamma) = sigma - sigma * gamma * / (w + gamma)) by (intros w Hw; field; lra). rewrite !Q by lra.
    assert (/ (Rabs b + gamma) <= / (Rabs a + gamma)) by (apply Rinv_le_contravar; lra). assert (sigma * gamma * / (Rabs b + gamma) <= sigma * gamma * / (Rabs a + gamma)) by (apply Rmult_le_compat_l; [nra|auto]). lra.
  - unfold scad_init in Hi. destruct (Rleb_spec sigma 0) as [[H1 E1]|[H1 E1]]; rewrite E1 in Hi; [discriminate|]. destruct (Rleb_spec al 2) as [[H2 E2]|[H2 E2]]; rewrite E2 in Hi; [discriminate|].
    apply sumf_shape. intros a b H. apply scad_mono; auto.
  - apply sumf_shape. intros a b H. unfold qec_fun. assert (Rmax 0 (sqrt (2 * mu) - Rabs b) <= Rmax 0 (sqrt (2 * mu) - Rabs a)) by (unfold Rmax; repeat destruct (Rle_dec _ _); lra).
    pose proof (Rmax_l 0 (sqrt (2 * mu) - Rabs b)). nra.
  - apply sumf_shape. intros a b H. rewrite <- (Rabs_mult_self a), <- (Rabs_mult_self b). pose proof (Rabs_pos a). assert (sigma * (Rabs a * Rabs a) <= sigma * (Rabs b * Rabs b)) by (apply Rmult_le_compat_l; nra).
    unfold Rmin. repeat destruct (Rle_dec _ _); lra.
  - apply sumf_shape. intros a b H. apply nz_mono; auto. assert (0 <= t * (sigma * sigma)) by (apply Rmult_le_pos; nra). lra.
  - apply l0_ball_shape.
Qed.

(*! C109_penalties : Log, ETP, Geman, SCAD (t <= a - 1), QuadraticEnvelopeCard (t <= 1), RelaxedMumfordShah, L0 and L0Ball: prox(., t) never raises for t > 0, is monotone
   (<prox(x) - prox(y), x - y> >= 0), keeps the sign of every entry, enlarges none, and keeps the order of the entries and of their absolute values *)
Lemma C109_penalties_l : forall n t (o : Op (Vec n)) g x y, 0 < t -> penalty t o g ->
  exists p q, o_prox o x t = Ok p /\ o_prox o y t = Ok q /\ 0 <= << p [-] q, x [-] y >> /\
    (forall i, (i < n)%nat -> 0 <= get x i * get p i /\ Rabs (get p i) <= Rabs (get x i)) /\
    (forall i j, (i < n)%nat -> (j < n)%nat -> 0 <= (get x i - get x j) * (get p i - get p j) /\ 0 <= (Rabs (get x i) - Rabs (get x j)) * (Rabs (get p i) - Rabs (get p j))).
Proof.
  intros n t o g x y Ht Hp. destruct (C94_penalties_l n t o g Ht Hp) as (Hx & _). destruct (penalty_shape n t o g Ht Hp) as [G1 G2].
  destruct (C109_monotone_l _ o g t x y Ht Hx) as (p & q & E1 & E2 & Hm). destruct (C109_entries_l n o g t x Ht Hx G1) as (p' & E1' & H1 & H2). assert (p' = p) as -> by congruence.
  exists p, q. split; [exact E1|]. split; [exact E2|]. split; [exact Hm|]. split; [exact H1|exact (H2 G2)].
Qed.

Lemma get_vmap_sh n f (x : Vec n) i : (i < n)%nat -> get (vmap f x) i = f (get x i).
Proof. intro H. destruct x as [l Hl]. unfold get, vmap. cbn [proj1_sig lst]. rewrite (nth_indep (map f l) 0 (f 0)) by exact (eq_ind_r (fun k => (i < k)%nat) H (eq_trans (map_length f l) Hl)). apply map_nth. Qed.
Lemma l0_prox_eq n sigma t (x : Vec n) : 0 < t -> o_prox (obj 1 (sep_body (n:=n) l0_elem (l0_pr sigma))) x t = Ok (vmap (l0_pr sigma t) x).
Proof. intro Ht. cbn [obj o_prox d_prox sep_body b_prox]. apply check_tau_pos; auto. Qed.

(*! C109_lipschitz_refuted : unlike for convex functions, the prox of these penalties does not have to be Lipschitz: for L0(sigma) with sigma > 0 and every K there are vectors of one entry with
   |prox(x) - prox(y)| > K |x - y| *)
Lemma C109_lipschitz_refuted_l : forall sigma t K, 0 < sigma -> 0 < t -> exists (x y p q : Vec 1), let o := obj 1 (sep_body (n:=1) l0_elem (l0_pr sigma)) in
  penalty t o (etot (card_fun (t * sigma * sigma / 2))) /\ o_prox o x t = Ok p /\ o_prox o y t = Ok q /\ K * norm (x [-] y) < norm (p [-] q).
Proof.
  intros sigma t K Hs Ht. set (c := t * sigma). assert (Hc : 0 < c) by (apply Rmult_lt_0_compat; auto).
  set (d := c / (Rabs K + 1)). pose proof (Rabs_pos K) as HK. assert (Hd : 0 < d) by (apply Rdiv_lt_0_compat; lra).
  set (v := fun a : R => vtab 1 (fun _ => a)). exists (v (c + d)), (v c), (v (c + d)), (v 0). cbv zeta. split; [apply pen_l0; lra|].
  assert (P : forall a, o_prox (obj 1 (sep_body (n:=1) l0_elem (l0_pr sigma))) (v a) t = Ok (v (hard c a))).
  { intro a. rewrite l0_prox_eq by auto. f_equal. apply vec_ext. intros i Hi. unfold v. rewrite get_vmap_sh, !get_vtab by auto. reflexivity. }
  assert (N : forall a b : R, norm (v a [-] v b) = Rabs (a - b)).
  { intros a b. unfold norm, norm2. rewrite vec_inner. cbn [RS]. rewrite Rplus_0_l, get_sub by lia. unfold v. rewrite !get_vtab by lia. apply sqrt_Rsqr_abs. }
  rewrite !P, !N. unfold hard. rewrite (Rabs_right (c + d)), (Rabs_right c) by lra. destruct (Rleb_spec (c + d) c) as [[H _]|[_ ->]]; [lra|]. destruct (Rleb_spec c c) as [[_ ->]|[H _]]; [|lra].
  split; [reflexivity|]. split; [reflexivity|]. replace (c + d - c) with d by ring. rewrite (Rabs_right d), (Rabs_right (c + d - 0)) by lra.
  pose proof (Rle_abs K). assert (K * d <= Rabs K * d) by (apply Rmult_le_compat_r; lra). assert (Rabs K * d + d = c) by (unfold d; field; lra). lra.
Qed.

(*!ex C109_example : on vectors of two entries, Log(1, 1), SCAD(1, 3.7) and L0Ball(1) objects with t = 1 are among these penalties, and L0.prox with sigma = 1, t = 2 sends (3, 1) to (3, 0) *)
Lemma C109_example_l : penalty (n:=2) 1 (obj 1 (sep_body (log_elem 1 1) (log_pr 1 1))) (etot (sumf (fun a => 1 / ln (1 + 1) * ln (1 * Rabs a + 1)))) /\
  penalty (n:=2) 1 (obj 1 (sep_body (scad_elem 1 (37/10)) (scad_pr 1 (37/10)))) (etot (sumf (scad_fun 1 (37/10)))) /\
  (exists argsort, penalty (n:=2) 1 (l0ball_op argsort 1) (indic (l0_ball (Z.to_nat 1)))) /\
  o_prox (obj 1 (sep_body (n:=2) l0_elem (l0_pr 1))) (vtab 2 (fun i => if Nat.eqb i 0 then 3 else 1)) 2 = Ok (vtab 2 (fun i => if Nat.eqb i 0 then 3 else 0)).
Proof.
  split; [apply pen_log; lra|]. split.
  - apply pen_scad; [|lra]. unfold scad_init. destruct (Rleb_spec 1 0) as [[H _]|[_ ->]]; [lra|]. destruct (Rleb_spec (37/10) 2) as [[H _]|[_ ->]]; [lra|]. reflexivity.
  - split; [exists isort; apply pen_l0ball; [apply isort_ok|lia]|]. rewrite l0_prox_eq by lra. f_equal. apply vec_ext. intros i Hi. rewrite get_vmap_sh, !get_vtab by auto.
    unfold l0_pr, hard. destruct (Nat.eqb i 0); rewrite Rabs_right by lra; destruct (Rleb_spec 3 (2 * 1)) as [[H H']|[H H']]; destruct (Rleb_spec 1 (2 * 1)) as [[K K']|[K K']]; rewrite ?H', ?K'; lra.
Qed.
