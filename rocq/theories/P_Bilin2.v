(** * LowRankFactorizedMatrix: theorems *)
From Verif Require Import Base Space Spec SpecOps ConvexFacts Smooth M_ProxOp M_Norms P_Norms M_Loop VSum MatFacts M_Bilin M_PALM P_PALM P_Bilin.
From Coq Require Import Psatz.
From Verif Require Export S_Bilin2.
Open Scope result_scope.

Lemma firstn_lst {a b} (x : Vec a) (y : Vec b) : firstn a (lst x ++ lst y) = lst x.
Proof. rewrite <- (lst_length a x) at 1. rewrite firstn_app, Nat.sub_diag, firstn_all. simpl. apply app_nil_r. Qed.
Lemma skipn_lst {a b} (x : Vec a) (y : Vec b) : skipn a (lst x ++ lst y) = lst y.
Proof. rewrite <- (lst_length a x) at 1. rewrite skipn_app, Nat.sub_diag, skipn_all. reflexivity. Qed.
Lemma lst_inj n (x y : Vec n) : lst x = lst y -> x = y.
Proof. apply nlist_eq. Qed.
Lemma holds_sizex H n k m p (X : Vec (n * k)) (Y : Vec (k * m)) (d : Vec p) A : lr_holds H X Y d A -> sizex H = (n * k)%nat.
Proof. intros [H1 [H2 _]]. unfold sizex. rewrite H1, H2. reflexivity. Qed.

(*! C61_call : for all sizes n, k, m, factors, data and linear operators, call(x, y) and call of the concatenation return 1/2 |d - Op(XY)|^2 and leave the object exactly as it was *)
Lemma C61_call_l : forall H n k m p (X : Vec (n * k)) (Y : Vec (k * m)) (d : Vec p) (A : linop (Vec (n * m)) (Vec p)), lr_holds H X Y d A ->
  forall (x : Vec (n * k)) (y : Vec (k * m)),
    lr_call H (lst x) (Some (lst y)) = (Ok (lr_fun A d x y), H) /\ lr_call H (lst x ++ lst y) None = (Ok (lr_fun A d x y), H).
Proof.
  intros H n k m p X Y d A HH x y. pose proof (lr_call_ok H n k m p X Y d A HH x y) as E. split; [exact E|].
  rewrite <- E. unfold lr_call at 1. rewrite (holds_sizex _ _ _ _ _ _ _ _ _ HH), firstn_lst, skipn_lst. reflexivity.
Qed.

(*! C61_call_failure_refuted : call does not restore the stored factor when it raises: a y of the wrong length raises ValueError and leaves x stored in the object *)
Lemma C61_call_failure_refuted_l : forall H (x y : list R), length y <> (lr_k H * lr_m H)%nat -> lr_call H x (Some y) = (Err ValueError, updatex H x).
Proof. intros H x y Hy. unfold lr_call, matvecy, reshape. simpl. apply Nat.eqb_neq in Hy. rewrite Hy. reflexivity. Qed.

(*! C61_gradients : gradx and grady return the Frechet gradients of call in the first (second) argument, with the other factor at its stored value; any sizes and any linear operator *)
Lemma C61_gradients_l : forall H n k m p (X : Vec (n * k)) (Y : Vec (k * m)) (d : Vec p) (A : linop (Vec (n * m)) (Vec p)), lr_holds H X Y d A ->
  (forall x : Vec (n * k), exists g : Vec (n * k), lr_gradx H (lst x) = Ok (lst g) /\ is_grad (fun x' => lr_fun A d x' Y) x g) /\
  (forall y : Vec (k * m), exists g : Vec (k * m), lr_grady H (lst y) = Ok (lst g) /\ is_grad (fun y' => lr_fun A d X y') y g).
Proof.
  intros H n k m p X Y d A HH. split; intro z; eexists; (split; [first [apply (lr_gradx_ok H X Y d A HH z)|apply (lr_grady_ok H X Y d A HH z)]|]).
  - destruct (vec_bounded _ _ (comp_linop A (mulY n k m Y))) as [C [C0 HC]]. exact (half_sq_grad (comp_linop A (mulY n k m Y)) d C HC C0 z).
  - destruct (vec_bounded _ _ (comp_linop A (mulX n k m X))) as [C [C0 HC]]. exact (half_sq_grad (comp_linop A (mulX n k m X)) d C HC C0 z).
Qed.

Lemma mYt_sub n k m (a b : Vec (n * m)) Y : mYt n k m a Y [-] mYt n k m b Y = mYt n k m (a [-] b) Y.
Proof. symmetry. exact (ladj_sub (mulY n k m Y) a b). Qed.
Lemma mXt_sub n k m X (a b : Vec (n * m)) : mXt n k m X a [-] mXt n k m X b = mXt n k m X (a [-] b).
Proof. symmetry. exact (ladj_sub (mulX n k m X) a b). Qed.
Lemma mm_sub_l n k m X X' Y : mm n k m X Y [-] mm n k m X' Y = mm n k m (X [-] X') Y.
Proof. symmetry. exact (lapp_sub (mulY n k m Y) X X'). Qed.
Lemma mm_sub_r n k m X Y Y' : mm n k m X Y [-] mm n k m X Y' = mm n k m X (Y [-] Y').
Proof. symmetry. exact (lapp_sub (mulX n k m X) Y Y'). Qed.

(*! C61_constants : without a linear operator lx(x) (ly(y)) is a Lipschitz constant of the gradient in y with x stored (in x with y stored) *)
Lemma C61_constants_l : forall H n k m (X : Vec (n * k)) (Y : Vec (k * m)) (d : Vec (n * m)), lr_holds H X Y d (id_linop _) -> lr_op H = None ->
  (forall x : Vec (n * k), exists (L : R) (gy : Vec (k * m) -> Vec (k * m)), lr_lx H (lst x) = Ok L /\ (forall y : Vec (k * m), lr_grady (updatex H (lst x)) (lst y) = Ok (lst (gy y))) /\ lipschitz L gy) /\
  (forall y : Vec (k * m), exists (L : R) (gx : Vec (n * k) -> Vec (n * k)), lr_ly H (lst y) = Ok L /\ (forall x : Vec (n * k), lr_gradx (updatey H (lst y)) (lst x) = Ok (lst (gx x))) /\ lipschitz L gx).
Proof.
  intros H n k m X Y d HH Ho. pose proof HH as [H1 [H2 [H3 _]]]. split.
  - intro x. exists (frob k (gramX n k x)), (fun y => vopp (mXt n k m x (d [-] mm n k m x y))). split; [|split].
    + unfold lr_lx. rewrite Ho, H1, H2, reshape_vec. reflexivity.
    + intro y. apply (lr_grady_ok _ x Y d (id_linop _) (holds_updatex _ _ _ _ _ _ x _ _ _ HH) y).
    + intros a b. replace (vopp (mXt n k m x (d [-] mm n k m x a)) [-] vopp (mXt n k m x (d [-] mm n k m x b))) with (mXt n k m x (mm n k m x (a [-] b))).
      2:{ rewrite <- mm_sub_r, <- !mXt_sub. vring. }
      apply norm_le_of_sq; [apply Rmult_le_pos; [apply sqrt_pos|apply norm_nonneg]|].
      replace (frob k (gramX n k x) * norm (a [-] b) * (frob k (gramX n k x) * norm (a [-] b))) with (frob k (gramX n k x) * frob k (gramX n k x) * (norm (a [-] b) * norm (a [-] b))) by ring.
      rewrite norm_sq. apply mXt_mm.
  - intro y. exists (frob k (gramY k m y)), (fun x => vopp (mYt n k m (d [-] mm n k m x y) y)). split; [|split].
    + unfold lr_ly. rewrite Ho, H2, H3, reshape_vec. reflexivity.
    + intro x. apply (lr_gradx_ok _ X y d (id_linop _) (holds_updatey _ _ _ _ _ _ _ y _ _ HH) x).
    + intros a b. replace (vopp (mYt n k m (d [-] mm n k m a y) y) [-] vopp (mYt n k m (d [-] mm n k m b y) y)) with (mYt n k m (mm n k m (a [-] b) y) y).
      2:{ rewrite <- mm_sub_l, <- !mYt_sub. vring. }
      apply norm_le_of_sq; [apply Rmult_le_pos; [apply sqrt_pos|apply norm_nonneg]|].
      replace (frob k (gramY k m y) * norm (a [-] b) * (frob k (gramY k m y) * norm (a [-] b))) with (frob k (gramY k m y) * frob k (gramY k m y) * (norm (a [-] b) * norm (a [-] b))) by ring.
      rewrite norm_sq. apply mYt_mm.
Qed.

(*! C61_constants_with_op_refuted : with a linear operator lx and ly always raise ValueError *)
Lemma C61_constants_with_op_refuted_l : forall H o x, lr_op H = Some o -> lr_lx H x = Err ValueError /\ lr_ly H x = Err ValueError.
Proof. intros H o x Ho. unfold lr_lx, lr_ly. rewrite Ho. auto. Qed.

(*! C61_matvec : n <> m and k > 0: an argument of length n k is multiplied as X by the stored Y, one of length k m as Y by the stored X, any other length raises ValueError; n = m always raises NotImplementedError *)
Lemma C61_matvec_l : forall H n k m p (X : Vec (n * k)) (Y : Vec (k * m)) (d : Vec p) (A : linop (Vec (n * m)) (Vec p)), lr_holds H X Y d A ->
  (n <> m -> (0 < k)%nat ->
    (forall x : Vec (n * k), lr_matvec H (lst x) = Ok (lst (A (mm n k m x Y)))) /\
    (forall y : Vec (k * m), lr_matvec H (lst y) = Ok (lst (A (mm n k m X y)))) /\
    (forall l, length l <> (n * k)%nat -> length l <> (k * m)%nat -> lr_matvec H l = Err ValueError)) /\
  (n = m -> forall l, lr_matvec H l = Err NotImplementedError).
Proof.
  intros H n k m p X Y d A HH. pose proof HH as [H1 [H2 [H3 _]]]. split.
  - intros Hnm Hk. apply Nat.eqb_neq in Hnm as Hnm'. unfold lr_matvec. rewrite H1, H3, Hnm', (holds_sizex _ _ _ _ _ _ _ _ _ HH). split; [|split].
    + intro x. rewrite lst_length, Nat.eqb_refl. apply (matvecx_ok H X Y d A HH).
    + intro y. rewrite lst_length. replace (Nat.eqb (k * m) (n * k)) with false by (symmetry; apply Nat.eqb_neq; nia). apply (matvecy_ok H X Y d A HH).
    + intros l Hl1 Hl2. apply Nat.eqb_neq in Hl1. rewrite Hl1. unfold matvecy, reshape. rewrite H2, H3. apply Nat.eqb_neq in Hl2. rewrite Hl2. reflexivity.
  - intros -> l. unfold lr_matvec. rewrite H1, H3, Nat.eqb_refl. reflexivity.
Qed.

(** ** the stacked gradient *)
Lemma firstn_vfst {a b} (v : Vec (a + b)) : firstn a (lst v) = lst (vfst v).
Proof.
  apply (nth_ext _ _ 0 0).
  - rewrite firstn_length, !lst_length. lia.
  - intros i Hi. rewrite firstn_length, lst_length in Hi. change (nth i (lst (vfst v)) 0) with (get (vfst v) i). unfold vfst. rewrite get_vtab by lia.
    unfold get. generalize (lst v). intro l. assert (i < a)%nat by lia. clear -H. revert a i H. induction l; intros [|a'] [|i] H; simpl; auto; try lia. apply IHl. lia.
Qed.
Lemma skipn_vsnd {a b} (v : Vec (a + b)) : skipn a (lst v) = lst (vsnd v).
Proof.
  apply (nth_ext _ _ 0 0).
  - rewrite skipn_length, !lst_length. lia.
  - intros i Hi. rewrite skipn_length, lst_length in Hi. change (nth i (lst (vsnd v)) 0) with (get (vsnd v) i). unfold vsnd. rewrite get_vtab by lia.
    unfold get. generalize (lst v). intro l. clear. revert a. induction l; intros [|a']; simpl; auto. destruct i; reflexivity.
Qed.
Lemma vfst_add {a b} (u v : Vec (a + b)) : vfst (u [+] v) = vfst u [+] vfst v.
Proof. apply vec_ext. intros i Hi. rewrite get_add by auto. unfold vfst. rewrite !get_vtab by auto. apply get_add. lia. Qed.
Lemma vsnd_add {a b} (u v : Vec (a + b)) : vsnd (u [+] v) = vsnd u [+] vsnd v.
Proof. apply vec_ext. intros i Hi. rewrite get_add by auto. unfold vsnd. rewrite !get_vtab by auto. apply get_add. lia. Qed.
Lemma inner_split {a b} (u v : Vec (a + b)) : << u, v >> = << vfst u, vfst v >> + << vsnd u, vsnd v >>.
Proof.
  rewrite !vec_inner, RS_split. f_equal; apply RS_ext; intros i Hi; unfold vfst, vsnd; rewrite !get_vtab by auto; reflexivity.
Qed.
Definition vcat {a b} (u : Vec a) (w : Vec b) : Vec (a + b) := vtab (a + b) (fun i => if Nat.ltb i a then get u i else get w (i - a)).
Lemma vfst_cat {a b} (u : Vec a) (w : Vec b) : vfst (vcat u w) = u.
Proof. apply vec_ext. intros i Hi. unfold vfst, vcat. rewrite !get_vtab by lia. replace (Nat.ltb i a) with true by (symmetry; apply Nat.ltb_lt; auto). reflexivity. Qed.
Lemma vsnd_cat {a b} (u : Vec a) (w : Vec b) : vsnd (vcat u w) = w.
Proof.
  apply vec_ext. intros i Hi. unfold vsnd, vcat. rewrite !get_vtab by lia. replace (Nat.ltb (a + i) a) with false by (symmetry; apply Nat.ltb_ge; lia). f_equal. lia.
Qed.
Lemma lst_cat {a b} (u : Vec a) (w : Vec b) : lst (vcat u w) = lst u ++ lst w.
Proof. rewrite <- (firstn_skipn a (lst (vcat u w))), firstn_vfst, skipn_vsnd, vfst_cat, vsnd_cat. reflexivity. Qed.

Lemma mm_norm n k m X Y : norm (mm n k m X Y) <= norm X * norm Y.
Proof.
  apply norm_le_of_sq; [apply Rmult_le_pos; apply norm_nonneg|].
  replace (norm X * norm Y * (norm X * norm Y)) with (norm X * norm X * (norm Y * norm Y)) by ring. rewrite !norm_sq. unfold norm2. rewrite !vec_inner2.
  rewrite (RS_swap k m). rewrite RS_mult. apply RS_le. intros i Hi. apply RS_le. intros j Hj. rewrite get_mm by auto. apply RS_cauchy.
Qed.

(*! C61_grad_updated : right after updatexy(v), grad(v) is the gradient of call at v on the concatenated variable; any sizes and any linear operator *)
Lemma C61_grad_updated_l : forall H n k m p (X : Vec (n * k)) (Y : Vec (k * m)) (d : Vec p) (A : linop (Vec (n * m)) (Vec p)), lr_holds H X Y d A ->
  forall v : Vec (n * k + k * m), exists g, lr_grad (updatexy H (lst v)) (lst v) = Ok (lst g) /\
    (forall u : Vec (n * k + k * m), lr_call H (lst u) None = (Ok (lr_fun A d (vfst u : Vec (n * k)) (vsnd u : Vec (k * m))), H)) /\ is_grad (fun u : Vec (n * k + k * m) => lr_fun A d (vfst u : Vec (n * k)) (vsnd u : Vec (k * m))) v g.
Proof.
  intros H n k m p X Y d A HH v. set (x := vfst v). set (y := vsnd v).
  assert (Hs : sizex H = (n * k)%nat) by (apply (holds_sizex _ _ _ _ _ _ _ _ _ HH)).
  assert (HU : lr_holds (updatexy H (lst v)) x y d A).
  { unfold updatexy. rewrite Hs, firstn_vfst, skipn_vsnd. apply holds_updatey with (Y := Y), holds_updatex with (X := X), HH. }
  set (r := d [-] A (mm n k m x y)).
  exists (vcat (vopp (mYt n k m (ladj A r) y)) (vopp (mXt n k m x (ladj A r)))). split; [|split].
  - unfold lr_grad. rewrite (holds_sizex _ _ _ _ _ _ _ _ _ HU), firstn_vfst, skipn_vsnd. fold x y.
    rewrite (lr_gradx_ok _ x y d A HU x), (lr_grady_ok _ x y d A HU y). cbn [bind]. rewrite lst_cat. reflexivity.
  - intro u. unfold lr_call. rewrite Hs, firstn_vfst, skipn_vsnd. exact (lr_call_ok _ _ _ _ _ _ _ _ _ HH (vfst u) (vsnd u)).
  - destruct (vec_bounded _ _ A) as [C [C0 HC]]. set (c := sqrt C).
    assert (Hc : forall w, norm (A w) <= c * norm w).
    { intro w. apply norm_le_of_sq; [apply Rmult_le_pos; [apply sqrt_pos|apply norm_nonneg]|].
      replace (c * norm w * (c * norm w)) with (c * c * (norm w * norm w)) by ring. unfold c. rewrite sqrt_sqrt, norm_sq by auto. apply HC. }
    assert (Hc0 : 0 <= c) by apply sqrt_pos.
    set (M := c * (norm y + norm x + 1)). set (K := M * M / 2 + norm r * c).
    assert (HM : 0 <= M) by (apply Rmult_le_pos; auto; pose proof (norm_nonneg x); pose proof (norm_nonneg y); lra).
    assert (HK : 0 <= K) by (unfold K; pose proof (norm_nonneg r); nra).
    intros eps He. exists (Rmin 1 (eps / (K + 1))). split; [apply Rmin_glb_lt; [lra|apply Rdiv_lt_0_compat; lra]|]. intros h Hh.
    set (dx := vfst h). set (dy := vsnd h).
    assert (Hdx : norm dx <= norm h) by (apply norm_le_of_sq; [apply norm_nonneg|]; rewrite norm_sq; unfold norm2; rewrite (inner_split h h); pose proof (inner_pos (vsnd h)); unfold dx; lra).
    assert (Hdy : norm dy <= norm h) by (apply norm_le_of_sq; [apply norm_nonneg|]; rewrite norm_sq; unfold norm2; rewrite (inner_split h h); pose proof (inner_pos (vfst h)); unfold dy; lra).
    assert (Hh1 : norm h <= 1) by (eapply Rle_trans; [exact Hh|apply Rmin_l]).
    assert (Hh2 : norm h <= eps / (K + 1)) by (eapply Rle_trans; [exact Hh|apply Rmin_r]).
    rewrite inner_split, vfst_cat, vsnd_cat, vfst_add, vsnd_add. fold x y dx dy.
    set (w := mm n k m dx y [+] mm n k m x dy [+] mm n k m dx dy). set (q := mm n k m dx dy).
    assert (E1 : d [-] A (mm n k m (x [+] dx) (y [+] dy)) = r [-] A w).
    { unfold r, w. rewrite mm_add_l, !mm_add_r, !lapp_add. vring. }
    assert (E2 : << vopp (mYt n k m (ladj A r) y), dx >> + << vopp (mXt n k m x (ladj A r)), dy >> = - << r, A w >> + << r, A q >>).
    { rewrite !inner_opp_l. rewrite (inner_sym (mYt _ _ _ _ _)), (inner_sym (mXt _ _ _ _ _)), <- mm_adjY, <- mm_adjX.
      rewrite !(inner_sym (mm _ _ _ _ _)), !ladj_spec'. unfold w, q. rewrite !lapp_add, !inner_add_r. ring. }
    unfold lr_fun. rewrite E1, E2. fold r.
    replace (norm2 (r [-] A w) / 2 - norm2 r / 2 - (- << r, A w >> + << r, A q >>)) with (norm2 (A w) / 2 - << r, A q >>) by (unfold norm2; iexp; field).
    assert (Hw : norm (A w) <= M * norm h).
    { eapply Rle_trans; [apply Hc|]. unfold M. rewrite Rmult_assoc. apply Rmult_le_compat_l; auto.
      unfold w. eapply Rle_trans; [apply norm_triangle|]. eapply Rle_trans; [apply Rplus_le_compat_r, norm_triangle|].
      pose proof (mm_norm n k m dx y). pose proof (mm_norm n k m x dy). pose proof (mm_norm n k m dx dy).
      pose proof (norm_nonneg x). pose proof (norm_nonneg y). pose proof (norm_nonneg dx). pose proof (norm_nonneg dy). pose proof (norm_nonneg h).
      assert (norm dx * norm y <= norm y * norm h) by nra. assert (norm x * norm dy <= norm x * norm h) by nra. assert (norm dx * norm dy <= 1 * norm h) by nra. nra. }
    assert (Hq : norm (A q) <= c * (norm h * norm h)).
    { eapply Rle_trans; [apply Hc|]. apply Rmult_le_compat_l; auto. eapply Rle_trans; [apply mm_norm|]. pose proof (norm_nonneg dx). pose proof (norm_nonneg dy). nra. }
    assert (Hn : norm2 (A w) <= M * M * (norm h * norm h)). { rewrite <- norm_sq. pose proof (norm_nonneg (A w)). nra. }
    pose proof (CS_abs r (A q)) as HC2. pose proof (norm_nonneg r). pose proof (norm_nonneg h).
    assert (Hb : Rabs (norm2 (A w) / 2 - << r, A q >>) <= K * (norm h * norm h)).
    { eapply Rle_trans; [apply Rabs_triang|]. rewrite Rabs_Ropp. pose proof (inner_pos (A w)). unfold norm2 in Hn |- *. rewrite (Rabs_right (<< A w, A w >> / 2)) by lra.
      assert (norm r * norm (A q) <= norm r * (c * (norm h * norm h))) by (apply Rmult_le_compat_l; auto). unfold K. nra. }
    eapply Rle_trans; [exact Hb|].
    assert (norm h * (K + 1) <= eps). { replace eps with (eps / (K + 1) * (K + 1)) by (field; lra). apply Rmult_le_compat_r; lra. }
    nra.
Qed.

(*! C61_grad_stale_refuted : without the update grad is not the gradient of call: with n = k = m = 1, d = 0 and stored factors 0, call(1,1) is
   1/2 and near (1,1) call is half the square of x y, but grad(1,1) is 0, which is not its gradient *)
Lemma C61_grad_stale_refuted_l : let H := mkLR 1 1 1 [0] [0] [0] None in
  (forall x y, lr_call H [x; y] None = (Ok (x * y * (x * y) / 2), H)) /\ lr_grad H [1; 1] = Ok [0; 0] /\
  ~ is_grad (E:=Vec 2) (fun u => get u 0 * get u 1 * (get u 0 * get u 1) / 2) (vtab 2 (fun _ => 1)) (vtab 2 (fun _ => 0)).
Proof.
  intro H. split; [|split].
  - intros x y. unfold H, lr_call, matvecy, reshape, matmul, tab, ent, np_sub, RS, Rsum. simpl. apply pair_equal_spec. split; [f_equal; field|reflexivity].
  - unfold H, lr_grad, lr_gradx, lr_grady, matvecx, matvecy, pull, reshape, matmul, tab, ent, np_sub, RS, Rsum. simpl. match goal with |- Ok [?a; ?b] = Ok [?c; ?d] => replace a with c by ring; replace b with d by ring end. reflexivity.
  - intro G. destruct (G (1 / 2)) as [dl [Hd G1]]; [lra|]. set (t := Rmin 1 dl). assert (Ht : 0 < t <= 1 /\ t <= dl).
    { unfold t. split; [split; [apply Rmin_glb_lt; lra|apply Rmin_l]|apply Rmin_r]. }
    set (h := vtab 2 (fun i => if Nat.eqb i 0 then t else 0) : Vec 2).
    assert (Hn : norm h = t).
    { unfold norm, norm2. rewrite vec_inner. unfold RS, Rsum. simpl. unfold h. rewrite !get_vtab by lia. simpl.
      replace (0 + t * t + 0 * 0) with (t * t) by ring. apply sqrt_square. lra. }
    specialize (G1 h). rewrite Hn in G1. specialize (G1 (proj2 Ht)). rewrite !get_add in G1 by lia. unfold h in G1. rewrite vec_inner in G1.
    unfold RS, Rsum in G1. cbn [fold_right seq map] in G1. rewrite !get_vtab in G1 by lia. simpl in G1.
    rewrite Rabs_right in G1 by nra. nra.
Qed.

(** ** The object as seen by PALM *)
Lemma to_vec_lst n (x : Vec n) : to_vec n (lst x) = Ok x.
Proof. unfold to_vec. destruct (Nat.eq_dec _ _) as [e|e]; [|elim e; apply lst_length]. f_equal. apply lst_inj. reflexivity. Qed.

Lemma lr_bilin_spec H n k m (X : Vec (n * k)) (Y : Vec (k * m)) (d : Vec (n * m)) : lr_holds H X Y d (id_linop _) -> lr_op H = None ->
  bilin_spec (lr_bilin H n k m) (lr_fun (id_linop _) d) (fun x y => vopp (mYt n k m (d [-] mm n k m x y) y)) (fun x y => vopp (mXt n k m x (d [-] mm n k m x y)))
    (fun x => frob k (gramX n k x)) (fun y => frob k (gramY k m y)).
Proof.
  intros HH Ho. pose proof HH as [H1 [H2 [H3 _]]]. constructor.
  - intros x y. simpl. rewrite (lr_call_ok _ _ _ _ _ _ _ _ _ HH). reflexivity.
  - intros x y. simpl. rewrite (lr_gradx_ok _ X y d (id_linop _) (holds_updatey _ _ _ _ _ _ _ y _ _ HH) x). cbn [bind]. apply to_vec_lst.
  - intros x y. simpl. rewrite (lr_grady_ok _ x Y d (id_linop _) (holds_updatex _ _ _ _ _ _ x _ _ _ HH) y). cbn [bind]. apply to_vec_lst.
  - intro x. simpl. split; [|apply frob_nonneg]. unfold lr_lx. rewrite Ho, H1, H2, reshape_vec. reflexivity.
  - intro y. simpl. split; [|apply frob_nonneg]. unfold lr_ly. rewrite Ho, H2, H3, reshape_vec. reflexivity.
  - intro y. exact (half_sq_upper (mulY n k m y) d _ (fun v => mm_bound_Y n k m v y)).
  - intro x. exact (half_sq_upper (mulX n k m x) d _ (fun v => mm_bound_X n k m x v)).
Qed.

(*! C61_palm : end to end: PALM with fixed steps (gamma >= 1) on the low-rank object with stored y equal to y0 and no linear operator, any f and g
   with correct proximal operators, any sizes, starts and iteration count: whenever it returns, no iterate has a larger f(x) + g(y) + 1/2 |d - XY|^2
   than the previous one *)
Lemma C61_palm_l : forall H n k m (X : Vec (n * k)) (Y : Vec (k * m)) (d : Vec (n * m)), lr_holds H X Y d (id_linop _) -> lr_op H = None ->
  forall (f : efun (Vec (n * k))) (g : efun (Vec (k * m))) proxf proxg x0 gammaf gammag beta niter nb r,
  opt_impl (option_map on_x proxf) f -> opt_impl proxg g -> 1 <= gammaf -> 1 <= gammag -> 0 < beta < 1 -> edom f x0 -> edom g Y ->
  PALM (lr_bilin H n k m) X Y proxf proxg x0 Y (Some gammaf) (Some gammag) beta niter nb = Ok r ->
  exists xs ys, r = (xs niter, ys niter, map (fun j => (xs j, ys j)) (seq 1 niter)) /\ xs 0%nat = x0 /\ ys 0%nat = Y /\
    forall j, (j < niter)%nat ->
      eval f (xs (S j)) + eval g (ys (S j)) + norm2 (d [-] mm n k m (xs (S j)) (ys (S j))) / 2 <= eval f (xs j) + eval g (ys j) + norm2 (d [-] mm n k m (xs j) (ys j)) / 2.
Proof.
  intros H n k m X Y d HH Ho f g proxf proxg x0 gammaf gammag beta niter nb r Hf Hg G1 G2 Hb Dx Dy Hr.
  destruct (C60_palm_descent_l _ _ _ _ _ _ _ _ X proxf proxg f g x0 Y (Some gammaf) (Some gammag) beta 1 niter nb r (lr_bilin_spec H n k m X Y d HH Ho) Hb Hf Hg) as [xs [ys [E1 [E2 [E3 [_ [E4 _]]]]]]]; auto.
  exists xs, ys. split; auto. split; auto. split; auto. intros j Hj. specialize (E4 j Hj). unfold palm_obj, lr_fun in E4. cbn [mode_gain id_linop lapp] in E4.
  pose proof (frob_nonneg k (gramX n k (xs (S j)))). pose proof (frob_nonneg k (gramY k m (ys j))).
  assert (0 <= norm2 (xs (S j) [-] xs j)) by apply inner_pos. assert (0 <= norm2 (ys (S j) [-] ys j)) by apply inner_pos.
  assert (0 <= (gammaf - 1) * frob k (gramY k m (ys j)) / 2 * norm2 (xs (S j) [-] xs j)) by (apply Rmult_le_pos; auto; nra).
  assert (0 <= (gammag - 1) * frob k (gramX n k (xs (S j))) / 2 * norm2 (ys (S j) [-] ys j)) by (apply Rmult_le_pos; auto; nra). lra.
Qed.

(*! C61_palm_with_op_refuted : with a linear operator fixed-step PALM always raises ValueError *)
Lemma C61_palm_with_op_refuted_l : forall H o n k m X Y proxf proxg x0 y0 gammaf gammag beta niter nb, lr_op H = Some o -> (0 < niter)%nat ->
  PALM (lr_bilin H n k m) X Y proxf proxg x0 y0 (Some gammaf) gammag beta niter nb = Err ValueError.
Proof.
  intros H o n k m X Y proxf proxg x0 y0 gammaf gammag beta niter nb Ho Hn. destruct niter; [lia|]. unfold PALM. cbn [for_loop]. unfold palm_body at 1.
  unfold palm_fixed. cbn [lr_bilin h_ly ps_y]. unfold lr_ly. rewrite Ho. reflexivity.
Qed.

(** A 2 x 1 times 1 x 3 factorisation with a linear operator that doubles. *)
Definition ex_op : FlatOp := mkFlatOp 6 6 (map (Rmult 2)) (map (Rmult 2)).
Definition ex_lr (o : option FlatOp) : LR := mkLR 2 1 3 [1; 2] [1; 0; -1] [1; 1; 1; 1; 1; 1] o.
Definition v2 : Vec (2 * 1) := exist _ [1; 2] eq_refl.
Definition v3 : Vec (1 * 3) := exist _ [1; 0; -1] eq_refl.
Definition v6 : Vec (2 * 3) := exist _ [1; 1; 1; 1; 1; 1] eq_refl.
(*!ex C61_example : the hypotheses hold for a 2 x 1 by 1 x 3 factorisation, with and without a linear operator; PALM runs on it for one iteration *)
Lemma C61_example_l : lr_holds (ex_lr None) v2 v3 v6 (id_linop (Vec (2 * 3))) /\ lr_holds (ex_lr (Some ex_op)) v2 v3 v6 (scal_linop (Vec (2 * 3)) 2) /\
  exists r, PALM (lr_bilin (ex_lr None) 2 1 3) v2 v3 None None v2 v3 (Some 2) (Some 2) (1 / 2) 1 5 = Ok r.
Proof.
  assert (H0 : lr_holds (ex_lr None) v2 v3 v6 (id_linop (Vec (2 * 3)))).
  { unfold lr_holds, ex_lr, op_spec. simpl. repeat split; auto. }
  split; auto. split.
  - unfold lr_holds, ex_lr, op_spec. cbn [lr_n lr_k lr_m lr_x lr_y lr_d lr_op]. do 6 (split; [reflexivity|]).
    split; intros v; unfold apply_op, apply_adj, fo_apply; cbn [ex_op fo_in fo_out fo_mv fo_rmv]; rewrite lst_length; reflexivity.
  - destruct (lr_bilin_spec (ex_lr None) 2 1 3 v2 v3 v6 H0 eq_refl) as [Hc Hgx Hgy Hlx Hly Hux Huy].
    unfold PALM. cbn [for_loop]. unfold palm_body at 1. cbn [ps_x ps_y ps_hy ps_tauf ps_taug option_map is_none].
    assert (F1 : forall G, frob 1 G = Rabs (G 0%nat 0%nat)).
    { intro G. unfold frob, RS. replace (0 + (0 + G 0%nat 0%nat * G 0%nat 0%nat)) with (Rsqr (G 0%nat 0%nat)) by (unfold Rsqr; ring). apply sqrt_Rsqr_abs. }
    assert (F2 : frob 1 (gramY 1 3 v3) = 2) by (rewrite F1; unfold gramY, RS, get, lst; cbn; rewrite Rabs_right; lra).
    unfold palm_fixed, opt_prox. rewrite (proj1 (Hly _)), F2. cbn [bind]. rewrite pydiv_ok by lra. rewrite Hgx. cbn [bind fst snd].
    set (x1 := vsub v2 _). assert (F3 : frob 1 (gramX 2 1 x1) = 5 / 4).
    { assert (G0 : get x1 0 = 1 / 2) by (unfold x1, get, lst, mYt, mm, vtab, get, lst; cbn -[Rplus Rmult Rdiv Ropp]; field).
      assert (G1 : get x1 1 = 1) by (unfold x1, get, lst, mYt, mm, vtab, get, lst; cbn -[Rplus Rmult Rdiv Ropp]; field).
      rewrite F1. unfold gramX, RS. change (0 * 1 + 0)%nat with 0%nat. change (1 * 1 + 0)%nat with 1%nat. rewrite G0, G1. rewrite Rabs_right; lra. }
    rewrite (proj1 (Hlx _)), F3. cbn [bind]. rewrite pydiv_ok by lra. rewrite Hgy. cbn [bind fst snd]. eexists. reflexivity.
Qed.
