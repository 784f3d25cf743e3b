(** * Proofs about image segmentation (M_Seg.v) *)
From Coq Require Import Psatz.
From Verif Require Import Base Space Spec SpecOps ConvexFacts VSum MatFacts M_ProxOp P_ProxOp M_Bilin M_L1 M_VStack P_VStack M_Loop LoopFacts M_PG M_PD P_PD M_Proj P_Proj P_Proj2 M_TV P_TV P_TV3 M_Seg.
From Verif Require Export S_Seg.
Open Scope result_scope.
Open Scope R_scope.

(** ** argmax *)
Lemma argmax_from_spec : forall l pre best bi, (bi < length pre)%nat -> nth bi pre 0 = best -> (forall j, (j < length pre)%nat -> nth j pre 0 <= best) -> (forall j, (j < bi)%nat -> nth j pre 0 < best) ->
  let k := argmax_from best bi (length pre) l in
  (k < length (pre ++ l))%nat /\ (forall j, (j < length (pre ++ l))%nat -> nth j (pre ++ l) 0 <= nth k (pre ++ l) 0) /\ (forall j, (j < k)%nat -> nth j (pre ++ l) 0 < nth k (pre ++ l) 0).
Proof.
  induction l as [|a l IH]; intros pre best bi Hb He Hm Hl; cbn [argmax_from].
  - rewrite app_nil_r, He. auto.
  - replace (pre ++ a :: l) with ((pre ++ [a]) ++ l) by (rewrite <- app_assoc; reflexivity). assert (EL : length (pre ++ [a]) = S (length pre)) by (rewrite app_length; cbn; lia).
    assert (N1 : forall j, (j < length pre)%nat -> nth j (pre ++ [a]) 0 = nth j pre 0) by (intros; apply app_nth1; auto).
    assert (N2 : nth (length pre) (pre ++ [a]) 0 = a) by (rewrite app_nth2, Nat.sub_diag by lia; reflexivity).
    rewrite <- EL. destruct (Rltb_spec best a) as [[H ->]|[H ->]].
    + apply IH; [lia|auto| |].
      * intros j Hj. destruct (Nat.eq_dec j (length pre)) as [->|]; [lra|]. rewrite N1 by lia. specialize (Hm j ltac:(lia)). lra.
      * intros j Hj. rewrite N1 by auto. specialize (Hm j Hj). lra.
    + apply IH; [lia|rewrite N1; auto| |].
      * intros j Hj. destruct (Nat.eq_dec j (length pre)) as [->|]; [lra|]. rewrite N1 by lia. apply Hm. lia.
      * intros j Hj. rewrite N1 by lia. auto.
Qed.
Lemma argmax_spec l : l <> [] -> let k := argmax l in (k < length l)%nat /\ (forall j, (j < length l)%nat -> nth j l 0 <= nth k l 0) /\ (forall j, (j < k)%nat -> nth j l 0 < nth k l 0).
Proof.
  destruct l as [|a l]; [congruence|]. intros _. apply (argmax_from_spec l [a] a 0); cbn; [lia|auto| |]; intros j Hj; [|lia].
  replace j with 0%nat by lia. lra.
Qed.

(** ** Rows and columns *)
Lemma get_row {r c} (x : Vec (r * c)) i j : (j < c)%nat -> get (rowv x i) j = get x (i * c + j).
Proof. intro. unfold rowv. rewrite get_vtab by auto. reflexivity. Qed.
Lemma get_col {r c} (x : Vec (r * c)) i j : (i < r)%nat -> get (colv x j) i = get x (i * c + j).
Proof. intro. unfold colv. rewrite get_vtab by auto. reflexivity. Qed.
Lemma row_ext {r c} (x y : Vec (r * c)) : (forall i, (i < r)%nat -> rowv x i = rowv y i) -> x = y.
Proof.
  intro H. apply vec_ext. intros p Hp. destruct (flat_inv r c p Hp) as [H1 H2]. rewrite (Nat.div_mod p c) by nia. rewrite (Nat.mul_comm c). rewrite <- !get_row by auto. rewrite H by auto. reflexivity.
Qed.
Lemma flat_inner_col r c (x y : Vec (r * c)) : << x, y >> = RS c (fun j => << colv x j, colv y j >>).
Proof. rewrite vec_inner, RS_flat, RS_swap. apply RS_ext. intros j Hj. rewrite vec_inner. apply RS_ext. intros i Hi. rewrite !get_col by auto. reflexivity. Qed.
Lemma col_sub {r c} (x y : Vec (r * c)) j : (j < c)%nat -> colv (x [-] y) j = colv x j [-] colv y j.
Proof. intro Hj. apply vec_ext. intros i Hi. rewrite get_sub, !get_col by auto. apply get_sub. apply flat_lt; auto. Qed.
Lemma col_comb {r c} a b (x y : Vec (r * c)) j : (j < c)%nat -> colv (a [*] x [+] b [*] y) j = a [*] colv x j [+] b [*] colv y j.
Proof. intro Hj. apply vec_ext. intros i Hi. rewrite get_add, !get_scal, !get_col by auto. rewrite get_add, !get_scal by (apply flat_lt; auto). reflexivity. Qed.

(** ** The simplex constraint: every pixel has a probability vector *)
Definition feasible {r c} (x : Vec (r * c)) : Prop := forall j, (j < c)%nat -> simplex_set 1 (colv x j).
Lemma simplex_convex n rad : convex_set (simplex_set (n:=n) rad).
Proof.
  intros x y t [Hx1 Hx2] [Hy1 Hy2] Ht. split.
  - rewrite (RS_ext n _ (fun i => (1 - t) * get x i + t * get y i)) by (intros i Hi; rewrite get_add, !get_scal by auto; reflexivity). rewrite RS_add, !RS_scal, Hx1, Hy1. ring.
  - intros i Hi. rewrite get_add, !get_scal by auto. specialize (Hx2 i Hi). specialize (Hy2 i Hi). assert (0 <= (1 - t) * get x i) by (apply Rmult_le_pos; lra). assert (0 <= t * get y i) by (apply Rmult_le_pos; lra). lra.
Qed.
Lemma feasible_convex r c : convex_set (feasible (r:=r) (c:=c)).
Proof. intros x y t Hx Hy Ht j Hj. rewrite col_comb by auto. apply simplex_convex; auto. Qed.
Lemma simplex_op_ok r c (P : Vec r -> result (Vec r)) : exact_simplex P -> impl_prox (simplex_op (c:=c) P) (indic feasible).
Proof.
  intros HP x tau Ht. set (pr := fun v => match P v with Ok p => p | Err _ => vzero end).
  assert (Hpr : forall v, P v = Ok (pr v) /\ is_proj (simplex_set 1) v (pr v)) by (intro v; destruct (HP v) as [p [E Hp]]; unfold pr; rewrite E; auto).
  set (y := vtab (r * c) (fun p => get (pr (colv x (p mod c))) (p / c)) : Vec (r * c)).
  assert (Hy : forall j, (j < c)%nat -> colv y j = pr (colv x j)).
  { intros j Hj. apply vec_ext. intros i Hi. rewrite get_col by auto. unfold y. rewrite get_vtab by (apply flat_lt; auto). destruct (divmod_flat c i j Hj) as [-> ->]. reflexivity. }
  exists y. split.
  - unfold simplex_op, obj, o_prox. cbn [d_prox b_prox]. rewrite check_pos by auto. apply (proj2 (C23_dims_l r c x y tau Ht) P). intros j Hj. rewrite Hy by auto. apply Hpr.
  - apply proj_prox; auto. split.
    + intros j Hj. rewrite Hy by auto. apply Hpr.
    + intros w Hw. apply norm_le_iff. unfold norm2. rewrite !flat_inner_col. apply RS_le. intros j Hj. rewrite !col_sub by auto. rewrite Hy by auto. destruct (Hpr (colv x j)) as [_ [_ H]].
      apply (norm_le_iff (E:=Vec r)). apply H. apply Hw; auto.
Qed.

(** ** The regulariser: kappa times the sum over classes and pixels of the length of the pixel's vector *)
Section Groups.
Variable dims : list nat.
Local Notation N := (nprod dims).
Local Notation d := (length dims).
Hypothesis Hd1 : (1 <= d)%nat.
Variable kappa : R.
Hypothesis Hk : 0 < kappa.

Definition block_fun (w : Vec (d * N)) : R := kappa * RS N (pixnorm dims w).
Definition block_out (tau : R) (w : Vec (d * N)) : Vec (d * N) := dtab dims (fun a i => (1 - tau * kappa / Rmax (pixnorm dims w i) (tau * kappa)) * dent dims w a i).
Lemma pixnorm_scaled (w : Vec (d * N)) (v : Vec (d * N)) th i : 0 <= th -> (forall a, (a < d)%nat -> dent dims v a i = th * dent dims w a i) -> pixnorm dims v i = th * pixnorm dims w i.
Proof.
  intros Ht H. unfold pixnorm. rewrite (RS_ext _ _ (fun a => (th * th) * (dent dims w a i * dent dims w a i))); [|intros a Ha; rewrite H by auto; ring].
  rewrite RS_scal, sqrt_mult_alt by nra. rewrite sqrt_square by auto. reflexivity.
Qed.
Lemma block_prox tau w : 0 < tau -> is_prox (etot block_fun) tau w (block_out tau w).
Proof.
  intro Ht. apply subgrad_prox; auto. split; [exact I|]. intros y _. cbn [eval etot]. set (p := block_out tau w). unfold block_fun. rewrite inner_scal_l, dual_inner.
  rewrite <- !RS_scal, <- RS_add. apply RS_le. intros i Hi. set (M := Rmax (pixnorm dims w i) (tau * kappa)). assert (HM : 0 < M) by (unfold M; eapply Rlt_le_trans; [|apply Rmax_r]; nra).
  set (th := 1 - tau * kappa / M). assert (Hq : tau * kappa / M <= 1). { apply (Rmult_le_reg_r M); auto. unfold Rdiv. rewrite Rmult_assoc, Rinv_l, Rmult_1_r, Rmult_1_l by lra. apply Rmax_r. }
  assert (Hth : 0 <= th) by (unfold th; lra). assert (Hp : forall a, (a < d)%nat -> dent dims p a i = th * dent dims w a i) by (intros a Ha; unfold p, block_out; rewrite dent_dtab by auto; reflexivity).
  rewrite (pixnorm_scaled w p th i Hth Hp).
  rewrite (RS_ext _ _ (fun a => (tau * kappa / M) * (dent dims w a i * dent dims y a i) - (tau * kappa / M) * th * (dent dims w a i * dent dims w a i))).
  2:{ intros a Ha. rewrite !dent_sub by auto. rewrite !Hp by auto. unfold th. ring. }
  rewrite RS_sub, !RS_scal, <- pixnorm_sq. pose proof (pix_cs dims w y i) as Hc. set (X := pixnorm dims w i) in *. set (Y := pixnorm dims y i) in *.
  assert (HX : 0 <= X) by apply pixnorm_nonneg. assert (HY : 0 <= Y) by apply pixnorm_nonneg. set (C := RS d (fun a => dent dims w a i * dent dims y a i)) in *.
  replace (/ tau * (tau * kappa / M * C - tau * kappa / M * th * (X * X))) with (kappa / M * C - kappa / M * th * (X * X)) by (field; lra).
  assert (HXM : X <= M) by apply Rmax_l. assert (0 < kappa / M) by (apply Rdiv_lt_0_compat; auto).
  assert (H1 : kappa / M * C <= kappa * Y). { apply Rle_trans with (kappa / M * (M * Y)); [apply Rmult_le_compat_l; [lra|nra]|]. right. field. lra. }
  assert (H2 : th * X * (M - X) = 0). { unfold th, M, Rmax. destruct (Rle_dec X (tau * kappa)); [replace (tau * kappa / (tau * kappa)) with 1 by (field; nra); ring|ring]. }
  assert (H3 : kappa * (th * X) - kappa / M * th * (X * X) = kappa / M * (th * X * (M - X))) by (field; lra). rewrite H2 in H3. lra.
Qed.
Definition lblock : lfun := mkLfun (fun _ => True) (fun x => kappa * RS N (colnorm d N x)).
Lemma l21_lop_ok : limpl_prox (l21_lop d kappa) lblock (d * N).
Proof.
  intros x tau Hx Ht. set (w := exist _ x Hx : Vec (d * N)). exists (lst (block_out tau w)). split.
  - unfold l21_lop, l21_lprox. cbn [l_prox]. rewrite check_pos by auto. unfold resh. rewrite Hx. replace (d * N / d)%nat with N by (rewrite Nat.mul_comm, Nat.div_mul; lia). rewrite Nat.eqb_refl. reflexivity.
  - change x with (lst w). apply (lprox_vec (d * N) lblock tau w). exact (block_prox tau w Ht).
Qed.

Variable ncl : nat.
Hypothesis Hn : (1 <= ncl)%nat.
Definition group_fun (v : Vec (ncl * (d * N))) : R := kappa * RS ncl (fun c => RS N (pixnorm dims (rowv v c))).
Definition group_ball (v : Vec (ncl * (d * N))) : Prop := forall c i, (c < ncl)%nat -> (i < N)%nat -> pixnorm dims (rowv v c) i <= kappa.

Lemma nsum_repeat k m : nsum (repeat k m) = (m * k)%nat.
Proof. induction m as [|m IH]; cbn; auto. Qed.
Lemma firstn_repeat {A} (a : A) i m : (i <= m)%nat -> firstn i (repeat a m) = repeat a i.
Proof. revert m. induction i as [|i IH]; intros [|m] H; cbn; auto; [lia|]. f_equal. apply IH. lia. Qed.
Lemma nth_rep {A} (a b : A) i m : (i < m)%nat -> nth i (repeat a m) b = a.
Proof. revert m. induction i as [|i IH]; intros [|m] H; cbn; auto; try lia. apply IH. lia. Qed.
Lemma nth_firstn_lt {A} (l : list A) b : forall i j, (j < i)%nat -> nth j (firstn i l) b = nth j l b.
Proof. induction l as [|a l IH]; intros [|i] [|j] H; cbn; auto; try lia. apply IH. lia. Qed.
Lemma nth_skipn {A} (l : list A) b : forall i j, nth j (skipn i l) b = nth (i + j) l b.
Proof. induction l as [|a l IH]; intros [|i] j; cbn; auto. destruct j; reflexivity. Qed.
Lemma part_row (v : Vec (ncl * (d * N))) c : (c < ncl)%nat -> part_nn (repeat (d * N)%nat ncl) c (lst v) = lst (rowv v c).
Proof.
  intro Hc. unfold part_nn. rewrite nth_rep by auto. rewrite firstn_repeat, nsum_repeat by lia. apply nth_ext with 0 0.
  - rewrite firstn_length, skipn_length, !lst_length. nia.
  - rewrite firstn_length, skipn_length, lst_length. intros j Hj. assert (Hj' : (j < d * N)%nat) by nia.
    rewrite nth_firstn_lt by auto. rewrite nth_skipn. change (get v (c * (d * N) + j) = get (rowv v c) j). rewrite get_row by auto. reflexivity.
Qed.
Lemma stack_prox tau (x : Vec (ncl * (d * N))) : 0 < tau -> exists v, vstack_init (repeat (l21_lop d kappa) ncl) (Some (repeat (d * N)%nat ncl)) None = Ok v /\
  exists p : Vec (ncl * (d * N)), (q <- vstack_prox v (lst x) tau ;; as_vec (ncl * (d * N)) q) = Ok p /\ is_prox (etot group_fun) tau x p.
Proof.
  intro Ht. destruct (C22_prox_l (repeat (l21_lop d kappa) ncl) (repeat (d * N)%nat ncl) (fun _ => lblock) (lst x) tau) as (v & p & E1 & E2 & HP & _).
  - destruct ncl; [lia|discriminate].
  - rewrite !repeat_length. reflexivity.
  - intros i op Ho. assert (Hi : (i < ncl)%nat) by (rewrite <- (repeat_length (l21_lop d kappa) ncl); apply nth_error_Some; congruence). rewrite nth_error_repeat in Ho by auto. injection Ho as <-. rewrite nth_rep by auto. apply l21_lop_ok.
  - rewrite lst_length, nsum_repeat. reflexivity.
  - exact Ht.
  - exists v. split; [exact E1|]. rewrite E2. cbn [bind]. assert (Hl : length p = (ncl * (d * N))%nat) by (rewrite (proj1 HP); apply lst_length).
    unfold as_vec. destruct (Nat.eq_dec (length p) (ncl * (d * N))) as [e|]; [|contradiction]. exists (exist _ p e). split; [reflexivity|].
    change p with (lst (exist _ p e : Vec (ncl * (d * N)))) in HP. apply lprox_vec in HP. rewrite repeat_length in HP. destruct HP as [_ HP]. split; [exact I|]. intros y _.
    assert (EV : forall u : Vec (ncl * (d * N)), eval (vfun (ncl * (d * N)) (stacked ncl (fun _ => lblock) (part_nn (repeat (d * N)%nat ncl)))) u = group_fun u).
    { intro u. unfold group_fun. cbn [eval vfun lval stacked]. rewrite <- RS_scal. apply RS_ext. intros c Hc. rewrite part_row by auto. reflexivity. }
    specialize (HP y). rewrite !EV in HP. apply HP. intros i Hi. exact I.
Qed.

Lemma rowv_comb (x y : Vec (ncl * (d * N))) a b c : (c < ncl)%nat -> rowv (a [*] x [+] b [*] y) c = a [*] rowv x c [+] b [*] rowv y c.
Proof. intro. rewrite row_add, !row_scal by auto. reflexivity. Qed.
Lemma pix_triangle (x y : Vec (d * N)) i : (i < N)%nat -> pixnorm dims (x [+] y) i <= pixnorm dims x i + pixnorm dims y i.
Proof.
  intro Hi. pose proof (pix_cs dims x y i) as Hc. pose proof (pixnorm_nonneg dims x i). pose proof (pixnorm_nonneg dims y i). pose proof (pixnorm_nonneg dims (x [+] y) i).
  assert (H3 : pixnorm dims (x [+] y) i * pixnorm dims (x [+] y) i = pixnorm dims x i * pixnorm dims x i + 2 * RS d (fun a => dent dims x a i * dent dims y a i) + pixnorm dims y i * pixnorm dims y i).
  { rewrite !pixnorm_sq, <- RS_scal, <- !RS_add. apply RS_ext. intros a Ha. rewrite dent_add by auto. ring. }
  apply Rnot_lt_le. intro Hl. assert ((pixnorm dims x i + pixnorm dims y i) * (pixnorm dims x i + pixnorm dims y i) < pixnorm dims (x [+] y) i * pixnorm dims (x [+] y) i) by nra. lra.
Qed.
Lemma pix_scal a (x : Vec (d * N)) i : 0 <= a -> (i < N)%nat -> pixnorm dims (a [*] x) i = a * pixnorm dims x i.
Proof. intros Ha Hi. apply pixnorm_scaled; auto. intros j Hj. apply dent_scal; auto. Qed.
Lemma group_convex : convex (etot group_fun).
Proof.
  intros x y t _ _ Ht. split; [exact I|]. cbn [eval etot]. unfold group_fun.
  replace ((1 - t) * (kappa * RS ncl (fun c => RS N (pixnorm dims (rowv x c)))) + t * (kappa * RS ncl (fun c => RS N (pixnorm dims (rowv y c)))))
    with (kappa * ((1 - t) * RS ncl (fun c => RS N (pixnorm dims (rowv x c))) + t * RS ncl (fun c => RS N (pixnorm dims (rowv y c))))) by ring.
  apply Rmult_le_compat_l; [lra|]. rewrite <- !RS_scal, <- RS_add. apply RS_le. intros c Hc. rewrite <- !RS_scal, <- RS_add. apply RS_le. intros i Hi. rewrite rowv_comb by auto.
  eapply Rle_trans; [apply pix_triangle; auto|]. rewrite !pix_scal by (auto; lra). lra.
Qed.
Lemma group_pair v (y : Vec (ncl * (d * N))) : group_ball v -> << v, y >> <= group_fun y.
Proof.
  intro Hv. rewrite flat_inner. unfold group_fun. rewrite <- RS_scal. apply RS_le. intros c Hc. rewrite dual_inner, <- RS_scal. apply RS_le. intros i Hi.
  eapply Rle_trans; [apply pix_cs|]. specialize (Hv c i Hc Hi). pose proof (pixnorm_nonneg dims (rowv y c) i). apply Rmult_le_compat_r; auto.
Qed.
Lemma group_zero : group_fun vzero = 0.
Proof.
  unfold group_fun. rewrite (RS_ext ncl _ (fun _ => 0)); [rewrite RS_zero; ring|]. intros c Hc. rewrite (RS_ext N _ (fun _ => 0)); [apply RS_zero|]. intros i Hi. unfold pixnorm. rewrite (RS_ext _ _ (fun _ => 0)); [rewrite RS_zero; apply sqrt_0|].
  intros a Ha. unfold dent. rewrite get_row by (apply flat_lt; auto). rewrite get_zero. ring.
Qed.
Lemma row_stackv (F : nat -> Vec (d * N)) c : (c < ncl)%nat -> rowv (vtab (ncl * (d * N)) (fun p => get (F (p / (d * N))%nat) (p mod (d * N))) : Vec (ncl * (d * N))) c = F c.
Proof. intro Hc. apply vec_ext. intros j Hj. rewrite get_row by auto. rewrite get_vtab by (apply flat_lt; auto). destruct (divmod_flat (d * N) c j Hj) as [-> ->]. reflexivity. Qed.
Lemma group_conj : is_conj (etot group_fun) (indic group_ball).
Proof.
  split; [exists vzero; exact I|]. intro z. split.
  - cbn [edom indic etot]. split.
    + intro Hz. exists 0. intros y _. cbn [eval etot]. pose proof (group_pair z y Hz). lra.
    + intros [M HM] c i Hc Hi. apply Rnot_lt_le. intro Hl. set (q := pixnorm dims (rowv z c) i) in *.
      set (F := fun c' => dtab dims (fun a j => if (Nat.eqb c' c && Nat.eqb j i)%bool then dent dims (rowv z c) a i else 0)).
      set (y1 := vtab (ncl * (d * N)) (fun p => get (F (p / (d * N))%nat) (p mod (d * N))) : Vec (ncl * (d * N))).
      assert (Hr : forall c', (c' < ncl)%nat -> rowv y1 c' = dtab dims (fun a j => if (Nat.eqb c' c && Nat.eqb j i)%bool then dent dims (rowv z c) a i else 0)) by (intros c' Hc'; exact (row_stackv F c' Hc')).
      assert (HI : << z, y1 >> = q * q).
      { rewrite flat_inner. rewrite (RS_ext ncl _ (fun c' => (q * q) * (if Nat.eqb c c' then 1 else 0))); [apply (RS_delta ncl c (fun _ => q * q) Hc)|]. intros c' Hc'. rewrite Hr, dual_inner by auto.
        rewrite (Nat.eqb_sym c c'). destruct (Nat.eqb_spec c' c) as [->|Hne].
        - rewrite Rmult_1_r. rewrite (RS_ext N _ (fun j => (q * q) * (if Nat.eqb i j then 1 else 0))); [apply (RS_delta N i (fun _ => q * q) Hi)|]. intros j Hj. rewrite (Nat.eqb_sym i j). destruct (Nat.eqb_spec j i) as [->|Hj'].
          + unfold q. rewrite Rmult_1_r, pixnorm_sq. apply RS_ext. intros a Ha. rewrite dent_dtab by auto. rewrite Nat.eqb_refl. reflexivity.
          + rewrite Rmult_0_r. rewrite (RS_ext _ _ (fun _ => 0)); [apply RS_zero|]. intros a Ha. rewrite dent_dtab by auto. destruct (Nat.eqb_spec j i); [contradiction|]. cbn. ring.
        - rewrite Rmult_0_r. rewrite (RS_ext N _ (fun _ => 0)); [apply RS_zero|]. intros j Hj. rewrite (RS_ext _ _ (fun _ => 0)); [apply RS_zero|]. intros a Ha. rewrite dent_dtab by auto. cbn. ring. }
      assert (HG : group_fun y1 = kappa * q).
      { unfold group_fun. f_equal. rewrite (RS_ext ncl _ (fun c' => q * (if Nat.eqb c c' then 1 else 0))); [apply (RS_delta ncl c (fun _ => q) Hc)|]. intros c' Hc'. rewrite Hr by auto.
        rewrite (Nat.eqb_sym c c'). destruct (Nat.eqb_spec c' c) as [->|Hne].
        - rewrite Rmult_1_r. rewrite (RS_ext N _ (fun j => q * (if Nat.eqb i j then 1 else 0))); [apply (RS_delta N i (fun _ => q) Hi)|]. intros j Hj. rewrite (Nat.eqb_sym i j). unfold pixnorm at 1. destruct (Nat.eqb_spec j i) as [->|Hj'].
          + rewrite Rmult_1_r. unfold q, pixnorm. f_equal. apply RS_ext. intros a Ha. rewrite dent_dtab by auto. rewrite Nat.eqb_refl. reflexivity.
          + rewrite Rmult_0_r. rewrite (RS_ext _ _ (fun _ => 0)); [rewrite RS_zero; apply sqrt_0|]. intros a Ha. rewrite dent_dtab by auto. destruct (Nat.eqb_spec j i); [contradiction|]. cbn. ring.
        - rewrite Rmult_0_r. rewrite (RS_ext N _ (fun _ => 0)); [apply RS_zero|]. intros j Hj. unfold pixnorm. rewrite (RS_ext _ _ (fun _ => 0)); [rewrite RS_zero; apply sqrt_0|]. intros a Ha. rewrite dent_dtab by auto. cbn. ring. }
      assert (Hq : 0 < q * q - kappa * q) by nra. set (t := (Rabs M + 1) / (q * q - kappa * q)). assert (Ht : 0 < t) by (apply Rdiv_lt_0_compat; auto; pose proof (Rabs_pos M); lra).
      specialize (HM (t [*] y1) I). cbn [eval etot] in HM. rewrite inner_scal_r, HI in HM.
      assert (HG' : group_fun (t [*] y1) = t * (kappa * q)).
      { rewrite <- HG. unfold group_fun. rewrite <- Rmult_assoc, (Rmult_comm t kappa), Rmult_assoc. f_equal. rewrite <- RS_scal. apply RS_ext. intros c' Hc'. rewrite row_scal by auto. rewrite <- RS_scal. apply RS_ext. intros j Hj. apply pix_scal; auto. lra. }
      rewrite HG' in HM. assert (E : t * (q * q) - t * (kappa * q) = Rabs M + 1) by (unfold t; field; lra). pose proof (Rle_abs M). lra.
  - intro Hz. cbn [edom eval indic etot] in *. split.
    + intros r [y [_ ->]]. pose proof (group_pair z y Hz). lra.
    + intros b Hb. apply Hb. exists vzero. split; [exact I|]. rewrite inner_zero_r, group_zero. ring.
Qed.
Lemma vstack_op_ok : exists v, vstack_init (repeat (l21_lop d kappa) ncl) (Some (repeat (d * N)%nat ncl)) None = Ok v /\ impl_proxdual (vstack_op (ncl * (d * N)) v) (indic group_ball).
Proof.
  destruct (stack_prox 1 vzero) as [v [E _]]; [lra|]. exists v. split; [exact E|].
  unfold vstack_op. match goal with |- impl_proxdual (obj 2 ?b) _ => refine (proj2 (default_proxdual _ 0 b (etot group_fun) (indic group_ball) _ eq_refl eq_refl group_convex group_conj _)) end.
  intros x tau Ht. destruct (stack_prox tau x Ht) as [v' [E' H]]. rewrite E in E'. injection E' as <-. exact H.
Qed.
Lemma group_size v : group_ball v -> norm2 v <= INR ncl * (INR N * (kappa * kappa)).
Proof.
  intro Hv. unfold norm2. rewrite flat_inner. rewrite <- RS_const. apply RS_le. intros c Hc. change (norm2 (rowv v c) <= INR N * (kappa * kappa)). rewrite dual_norm2, <- RS_const. apply RS_le. intros i Hi.
  rewrite <- pixnorm_sq. specialize (Hv c i Hc Hi). pose proof (pixnorm_nonneg dims (rowv v c) i). nra.
Qed.
End Groups.

Lemma choice_fin {A} (a0 : A) n (Q : nat -> A -> Prop) : (forall i, (i < n)%nat -> exists a, Q i a) -> exists F, forall i, (i < n)%nat -> Q i (F i).
Proof.
  induction n as [|n IH]; intro H; [exists (fun _ => a0); intros; lia|]. destruct IH as [F HF]; [intros; apply H; lia|]. destruct (H n ltac:(lia)) as [a Ha'].
  exists (fun i => if Nat.eqb i n then a else F i). intros i Hi. destruct (Nat.eqb_spec i n) as [->|]; [auto|]. apply HF. lia.
Qed.
(** ** Specification of the segmentation problem *)
Lemma prob_feasible ncl N (x : Vec (ncl * N)) : feasible x <-> probabilities x.
Proof.
  split; intros H i Hi; destruct (H i Hi) as [H1 H2]; split.
  - rewrite <- H1. apply RS_ext. intros c Hc. rewrite get_col by auto. reflexivity.
  - intros c Hc. specialize (H2 c Hc). rewrite get_col in H2 by auto. exact H2.
  - rewrite <- H1. apply RS_ext. intros c Hc. rewrite get_col by auto. reflexivity.
  - intros c Hc. rewrite get_col by auto. auto.
Qed.
Lemma sigmas_ok ncl cs : sds_ok ncl cs -> seg_sigmas ncl cs = Ok (sd cs) /\ forall c, (c < ncl)%nat -> sd cs c <> 0.
Proof.
  destruct cs as [s|]; cbn; [|split; auto; lra]. intros [H1 H2]. destruct (existsb (fun a => Reqb a 0) s) eqn:Ee.
  - exfalso. apply existsb_exists in Ee as [a [Ha Hb]]. apply Reqb_true in Hb. apply (H2 a); auto.
  - rewrite H1, Nat.eqb_refl. split; auto. intros c Hc. apply H2. apply nth_In. lia.
Qed.

Section Seg.
Variables (dims : list nat) (G : linop (Vec (nprod dims)) (Vec (length dims * nprod dims))) (y : Vec (nprod dims)) (cl : list R) (sigma alpha : R) (cs : option (list R))
  (z : option (Vec (length cl * nprod dims))) (x0 : option (Vec (length cl * nprod dims))) (P : Vec (length cl) -> result (Vec (length cl))).
Local Notation N := (nprod dims).
Local Notation d := (length dims).
Local Notation ncl := (length cl).
Hypothesis HG : forward_gradient dims G.
Hypothesis Hdims : dims_ok dims.
Hypothesis Hd : (1 <= d <= 2)%nat.
Hypothesis Hcl : (1 <= ncl)%nat.
Hypothesis Ha : 0 < alpha.
Hypothesis Hs : sds_ok ncl cs.
Hypothesis HP : exact_simplex P.
Local Notation kappa := (1 / 2 * alpha).
Let A := blockdiag ncl G.
Let g := seg_data N ncl sigma y cl (sd cs).
Let zz : Vec (ncl * N) := match z with None => g | Some z => g [+] z end.
Let xi : Vec (ncl * N) := match x0 with Some x => x | None => vzero end.
Let J := seg_obj dims y cl sigma alpha cs z.

Lemma row_A u c : (c < ncl)%nat -> rowv (A u) c = G (rowv u c).
Proof. apply row_bd_app. Qed.
Lemma G_grad x : G x = gradop dims Hdims x.
Proof. apply dual_ext. intros a i Ha' Hi. unfold dent. rewrite HG by auto. change (forward_diff dims (get x) a i = dent dims (gapp dims x) a i). unfold gapp. rewrite dent_dtab by auto. reflexivity. Qed.
Lemma A_bound u : 1 * (1 / (1 * 8)) * norm2 (A u) <= norm2 u.
Proof.
  assert (H : norm2 (A u) <= INR (4 * d) * norm2 u).
  { unfold norm2. rewrite !flat_inner. rewrite <- RS_scal. apply RS_le. intros c Hc. rewrite row_A by auto. rewrite G_grad. apply gradop_bound. }
  assert (INR (4 * d) <= 8) by (replace 8 with (INR 8) by (simpl; lra); apply le_INR; lia). pose proof (norm2_nonneg u). nra.
Qed.
Lemma A_var u : group_fun dims kappa ncl (A u) = alpha / 2 * RS ncl (fun c => variation dims (get (rowv u c))).
Proof.
  unfold group_fun. replace (alpha / 2) with kappa by field. f_equal. apply RS_ext. intros c Hc. rewrite row_A by auto. rewrite <- tv_fun_var. unfold tv_fun. apply RS_ext. intros i Hi. rewrite G_grad. reflexivity.
Qed.
Lemma J_split u : J u = << zz, u >> + group_fun dims kappa ncl (A u).
Proof.
  rewrite A_var. unfold J, seg_obj. assert (Eg : << g, u >> = sigma / 2 * RS ncl (fun c => RS N (fun i => get u (c * N + i) * ((get y i - nth c cl 0) * (get y i - nth c cl 0) / sd cs c)))).
  { rewrite flat_inner, <- RS_scal. apply RS_ext. intros c Hc. rewrite vec_inner, <- RS_scal. apply RS_ext. intros i Hi. rewrite !get_row by auto. unfold g, seg_data. rewrite get_vtab by (apply flat_lt; auto).
    destruct (divmod_flat N c i Hi) as [-> ->]. unfold Rdiv. ring. }
  unfold zz. destruct z as [z'|].
  - rewrite inner_add_l, Eg, (inner_sym z' u). reflexivity.
  - rewrite Eg. ring.
Qed.
Lemma J_ub u v : group_ball dims kappa ncl v -> << zz, u >> + << A u, v >> <= J u.
Proof. intro Hv. rewrite J_split, (inner_sym (A u)). pose proof (group_pair dims kappa ncl v (A u) Hv). lra. Qed.
Lemma J_att u : exists v, group_ball dims kappa ncl v /\ << zz, u >> + << A u, v >> = J u.
Proof.
  destruct (choice_fin (vzero : Vec (d * N)) ncl (fun c p => pixball dims p /\ << p, gradop dims Hdims (rowv u c) >> = tv_fun dims (rowv u c))) as [F HF]; [intros c _; apply tv_att|].
  set (v := vtab (ncl * (d * N)) (fun p => get ((kappa [*] F (p / (d * N))%nat) : Vec (d * N)) (p mod (d * N))) : Vec (ncl * (d * N))).
  assert (Hr : forall c, (c < ncl)%nat -> rowv v c = kappa [*] F c) by (intros c Hc; exact (row_stackv dims ncl (fun c => kappa [*] F c) c Hc)).
  exists v. split.
  - intros c i Hc Hi. rewrite Hr by auto. rewrite pix_scal by (auto; lra). destruct (HF c Hc) as [HB _]. rewrite pixball_norm in HB. specialize (HB i Hi). nra.
  - rewrite J_split. f_equal. unfold group_fun. rewrite flat_inner, <- RS_scal. apply RS_ext. intros c Hc. rewrite Hr, row_A by auto. rewrite inner_scal_r, G_grad. rewrite (inner_sym (gradop dims Hdims (rowv u c))). rewrite (proj2 (HF c Hc)). reflexivity.
Qed.

Lemma seg_run n : exists xs, Segment dims G y cl sigma alpha cs z n x0 P =
    Ok (transp (r:=ncl) (c:=N) (xs n), map (fun i => argmax (lst (rowv (r:=N) (c:=ncl) (transp (r:=ncl) (c:=N) (xs n)) i))) (seq 0 N), map xs (seq 1 n)) /\
  xs 0%nat = xi /\ (forall j, (1 <= j <= n)%nat -> feasible (xs j)) /\
  forall M, (1 <= M <= n)%nat -> feasible (avg M (fun j => xs (S j))) /\
    forall u, feasible u -> J (avg M (fun j => xs (S j))) - J u <= (1 / 2 * norm2 (xi [-] u) + INR ncl * INR N * (alpha * alpha)) / INR M.
Proof.
  assert (Hk : 0 < kappa) by lra.
  destruct (vstack_op_ok dims (proj1 Hd) kappa Hk ncl Hcl) as [v [Ev Hv]].
  pose proof (simplex_op_ok ncl N P HP) as Hsx.
  pose proof (group_conj dims kappa Hk ncl) as Hcj.
  assert (Cv : convex (indic (group_ball dims kappa ncl))) by (apply (conj_convex _ _ Hcj)).
  assert (Cf : convex (indic (feasible (r:=ncl) (c:=N)))) by (apply indic_convex, feasible_convex).
  destruct (C57_certificates_l _ _ A (simplex_op P) (vstack_op (ncl * (d * N)) v) (indic feasible) (indic (group_ball dims kappa ncl)) None xi 1 (1 / (1 * 8)) None (Some zz) n true Hsx Hv Cf Cv ltac:(lra) ltac:(lra) (or_introl eq_refl) A_bound)
    as [xs [ys [E [X0 [Y0 [_ [Hst [_ Hgap]]]]]]]].
  exists xs. split; [|split; [exact X0|]].
  - unfold Segment. rewrite (proj1 (sigmas_ok ncl cs Hs)). cbn [bind]. rewrite Ev. cbn [bind]. fold g. fold A.
    replace (match x0 with Some x => x | None => vzero end) with xi by reflexivity. change (match z with None => g | Some z => g [+] z end) with zz. rewrite E. cbn [bind fst snd]. rewrite map_map. reflexivity.
  - assert (Hfe : forall j, (1 <= j <= n)%nat -> feasible (xs j)).
    { destruct (pd_run A (simplex_op P) (vstack_op (ncl * (d * N)) v) (indic feasible) (indic (group_ball dims kappa ncl)) None xi (Scalar 1) (Scalar (1 / (1 * 8))) None (Some zz) 1 n true Hsx Hv ltac:(cbn; lra) ltac:(cbn; lra) (or_introl eq_refl)) as [xs' [hs' [ys' [E' [X0' [_ [_ Hdoc]]]]]]].
      intros j Hj. rewrite E in E'. assert (Em : map (fun j => (xs j, ys j)) (seq 1 n) = map (fun j => (xs' j, ys' j)) (seq 1 n)) by congruence.
      assert (Ej : nth (j - 1) (map (fun j => (xs j, ys j)) (seq 1 n)) (vzero, vzero) = nth (j - 1) (map (fun j => (xs' j, ys' j)) (seq 1 n)) (vzero, vzero)) by (rewrite Em; reflexivity).
      rewrite !(map_nth_lt _ _ _ 0%nat) in Ej by (rewrite seq_length; lia). rewrite seq_nth in Ej by lia. replace (1 + (j - 1))%nat with (S (j - 1)) in Ej by lia. assert (Ex : xs (S (j - 1)) = xs' (S (j - 1))) by congruence.
      replace (S (j - 1)) with j in Ex by lia. rewrite Ex. destruct (Hdoc (j - 1)%nat ltac:(lia)) as [_ [_ [Hf _]]]. replace (S (j - 1)) with j in Hf by lia. exact Hf. }
    split; [exact Hfe|]. intros M HM.
    destruct (convex_avg (indic (feasible (r:=ncl) (c:=N))) M (fun j => xs (S j)) Cf ltac:(lia) (fun j Hj => Hfe (S j) ltac:(lia))) as [Hav _].
    split; [exact Hav|]. intros u Hu. set (am := avg M (fun j => xs (S j))) in *. destruct (J_att am) as [w [Hw Ew]]. specialize (Hgap M u w HM Hu Hw). fold am in Hgap.
    set (bm := avg M (fun j => ys (S j))) in *.
    assert (Hb : group_ball dims kappa ncl bm).
    { destruct (convex_avg (indic (group_ball dims kappa ncl)) M (fun j => ys (S j)) Cv ltac:(lia)) as [Hb _]; [|exact Hb].
      destruct (pd_run A (simplex_op P) (vstack_op (ncl * (d * N)) v) (indic feasible) (indic (group_ball dims kappa ncl)) None xi (Scalar 1) (Scalar (1 / (1 * 8))) None (Some zz) 1 n true Hsx Hv ltac:(cbn; lra) ltac:(cbn; lra) (or_introl eq_refl)) as [xs' [hs' [ys' [E' [X0' [_ [_ Hdoc]]]]]]].
      intros j Hj. rewrite E in E'. assert (Em : map (fun j => (xs j, ys j)) (seq 1 n) = map (fun j => (xs' j, ys' j)) (seq 1 n)) by congruence.
      assert (Ej : nth j (map (fun j => (xs j, ys j)) (seq 1 n)) (vzero, vzero) = nth j (map (fun j => (xs' j, ys' j)) (seq 1 n)) (vzero, vzero)) by (rewrite Em; reflexivity).
      rewrite !(map_nth_lt _ _ _ 0%nat) in Ej by (rewrite seq_length; lia). rewrite seq_nth in Ej by lia. change (1 + j)%nat with (S j) in Ej. assert (Ex : ys (S j) = ys' (S j)) by congruence. rewrite Ex.
      destruct (Hdoc j ltac:(lia)) as [_ [[Hf _] _]]. exact Hf. }
    pose proof (J_ub u bm Hb) as Hub. unfold lagr in Hgap. cbn [zvec eval indic] in Hgap.
    assert (HI : 0 < INR M) by (apply lt_0_INR; lia).
    assert (HP0 : pd_potential A 1 (1 / (1 * 8)) true xs ys 0 u w <= 1 / 2 * norm2 (xi [-] u) + INR ncl * INR N * (alpha * alpha)).
    { unfold pd_potential, pd_pot, pd_dist. cbn [Nat.sub]. rewrite vsub_diag, lapp_zero, inner_zero_l, norm2_zero, X0, Y0. cbn [y0vec]. rewrite (norm2_sub_sym vzero w), vsub_0_r.
      pose proof (group_size dims kappa ncl w Hw) as Hsz.
      replace (/ (2 * 1)) with (1 / 2) by field. replace (/ (2 * (1 / (1 * 8)))) with 4 by field.
      assert (INR ncl * (INR N * (kappa * kappa)) = INR ncl * INR N * (alpha * alpha) / 4) by field. lra. }
    apply Rle_trans with (pd_potential A 1 (1 / (1 * 8)) true xs ys 0 u w / INR M).
    + lra.
    + apply Rmult_le_compat_r; [left; apply Rinv_0_lt_compat; auto|exact HP0].
Qed.
End Seg.

(** ** Output of Segment, for any projection *)
Lemma for_loop_post {S} (body : nat -> S -> result (S * bool)) (Q : S -> Prop) : (forall i s r, body i s = Ok r -> Q (fst r)) -> forall n i s r, for_loop body (Datatypes.S n) i s = Ok r -> Q (fst r).
Proof.
  intros H. induction n as [|n IH]; intros i s r; cbn [for_loop]; destruct (body i s) as [[s' b]|e] eqn:Eb; cbn [bind fst snd]; try discriminate; pose proof (H i s _ Eb) as Hq; cbn [fst] in Hq.
  - destruct b; intro E; apply Ok_inj in E; subst r; exact Hq.
  - destruct b; [intro E; apply Ok_inj in E; subst r; exact Hq|]. apply IH.
Qed.
Lemma seg_rows dims G y (cl : list R) sigma alpha cs z n x0 P X lab tr (Q : Vec (length cl) -> Prop) : (forall v w, P v = Ok w -> Q w) ->
  Segment dims G y cl sigma alpha cs z (S n) x0 P = Ok (X, lab, tr) -> forall i, (i < nprod dims)%nat -> Q (rowv X i).
Proof.
  intros HQ. unfold Segment. destruct (seg_sigmas _ cs) as [s|]; cbn [bind]; [|discriminate]. destruct (vstack_init _ _ _) as [v|]; cbn [bind]; [|discriminate].
  unfold PrimalDual. match goal with |- context [for_loop ?b (S n) 0 ?s0] => destruct (for_loop b (S n) 0 s0) as [[st k]|] eqn:El end; cbn [bind fst snd]; [|discriminate].
  intro E. assert (EX : transp (r:=length cl) (c:=nprod dims) (pd_x st) = X) by congruence. rewrite <- EX. clear E EX.
  intros i Hi. rewrite rowv_transp by auto. revert i Hi. refine (for_loop_post _ (fun st : pd_state => forall i, (i < nprod dims)%nat -> Q (colv (pd_x st) i)) _ n 0%nat _ _ El).
  intros j s0 r. unfold pd_body. destruct (getitem _ j) as [mu|]; cbn [bind]; [|discriminate]. destruct (o_proxdual _ _ _) as [y'|]; cbn [bind]; [|discriminate]. unfold rmatvec_plus.
  destruct (getitem _ j) as [tau|]; cbn [bind]; [|discriminate].
  destruct (o_prox (simplex_op P) _ tau) as [x'|] eqn:Ex; cbn [bind]; [|discriminate]. intro E. apply Ok_inj in E. subst r. cbn [fst pd_x]. intros i Hi.
  unfold simplex_op, obj, o_prox in Ex. cbn [d_prox b_prox] in Ex. unfold check_tau in Ex. destruct (Rleb_spec tau 0) as [[? Et]|[Ht Et]]; rewrite Et in Ex; [discriminate|].
  apply (HQ (colv (pd_x s0 [-] tau [*] (ladj (blockdiag (length cl) G) y' [+] match z with Some z0 => seg_data (nprod dims) (length cl) sigma y cl s [+] z0 | None => seg_data (nprod dims) (length cl) sigma y cl s end)) i)).
  apply (proj2 (C23_dims_l (length cl) (nprod dims) _ x' tau ltac:(lra)) P); auto.
Qed.
Lemma seg_labels dims G y (cl : list R) sigma alpha cs z n x0 P X lab tr : Segment dims G y cl sigma alpha cs z n x0 P = Ok (X, lab, tr) ->
  length lab = nprod dims /\ forall i, (i < nprod dims)%nat -> nth i lab 0%nat = argmax (lst (rowv X i)).
Proof.
  unfold Segment. destruct (seg_sigmas _ cs) as [s|]; cbn [bind]; [|discriminate]. destruct (vstack_init _ _ _) as [v|]; cbn [bind]; [|discriminate].
  destruct (PrimalDual _ _ _ _ _ _ _ _ _ _ _ _) as [r|]; cbn [bind]; [|discriminate]. intro E.
  assert (EX : transp (r:=length cl) (c:=nprod dims) (fst (fst r)) = X) by congruence. assert (EL : map (fun i => argmax (lst (rowv (r:=nprod dims) (c:=length cl) (transp (fst (fst r))) i))) (seq 0 (nprod dims)) = lab) by congruence.
  rewrite <- EL, <- EX. split; [rewrite map_length, seq_length; reflexivity|]. intros i Hi. rewrite (map_nth_lt _ _ _ 0%nat) by (rewrite seq_length; auto). rewrite seq_nth by auto. reflexivity.
Qed.
