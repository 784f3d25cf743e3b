(** * LowRankFactorizedMatrix: call, gradients, constants, dispatch *)
From Verif Require Import Base Space Spec SpecOps ConvexFacts Smooth M_ProxOp M_Loop VSum MatFacts M_Bilin M_PALM P_PALM.
From Coq Require Import Psatz.
From Verif Require Export S_Bilin.
Open Scope result_scope.

Section Mat.
Context (n k m : nat).
Local Notation mm := (S_Bilin.mm n k m).
(** R Y^T and X^T R *)
Definition mYt (r : Vec (n * m)) (Y : Vec (k * m)) : Vec (n * k) :=
  vtab (n * k) (fun p => RS m (fun j => get r (p / k * m + j) * get Y (p mod k * m + j))).
Definition mXt (X : Vec (n * k)) (r : Vec (n * m)) : Vec (k * m) :=
  vtab (k * m) (fun p => RS n (fun i => get X (i * k + p / m) * get r (i * m + p mod m))).

Lemma get_mm X Y i j : (i < n)%nat -> (j < m)%nat -> get (mm X Y) (i * m + j) = RS k (fun l => get X (i * k + l) * get Y (l * m + j)).
Proof. intros Hi Hj. unfold S_Bilin.mm. rewrite get_vtab by (apply flat_lt; auto). destruct (divmod_flat m i j Hj) as [-> ->]. reflexivity. Qed.
Lemma get_mYt r Y i l : (i < n)%nat -> (l < k)%nat -> get (mYt r Y) (i * k + l) = RS m (fun j => get r (i * m + j) * get Y (l * m + j)).
Proof. intros Hi Hj. unfold mYt. rewrite get_vtab by (apply flat_lt; auto). destruct (divmod_flat k i l Hj) as [-> ->]. reflexivity. Qed.
Lemma get_mXt X r l j : (l < k)%nat -> (j < m)%nat -> get (mXt X r) (l * m + j) = RS n (fun i => get X (i * k + l) * get r (i * m + j)).
Proof. intros Hi Hj. unfold mXt. rewrite get_vtab by (apply flat_lt; auto). destruct (divmod_flat m l j Hj) as [-> ->]. reflexivity. Qed.

Lemma vec_ext2 a b (x y : Vec (a * b)) : (forall i j, (i < a)%nat -> (j < b)%nat -> get x (i * b + j) = get y (i * b + j)) -> x = y.
Proof.
  intro H. apply vec_ext. intros p Hp. destruct b as [|b]; [lia|]. rewrite (Nat.div_mod p (S b)) by lia. rewrite (Nat.mul_comm (S b)).
  apply H; [apply Nat.div_lt_upper_bound; lia|apply Nat.mod_upper_bound; lia].
Qed.
Lemma vec_inner2 a b (x y : Vec (a * b)) : << x, y >> = RS a (fun i => RS b (fun j => get x (i * b + j) * get y (i * b + j))).
Proof. rewrite vec_inner. apply RS_flat. Qed.

Lemma mm_adjY X Y r : << mm X Y, r >> = << X, mYt r Y >>.
Proof.
  rewrite !vec_inner2. apply RS_ext. intros i Hi.
  transitivity (RS m (fun j => RS k (fun l => get X (i * k + l) * (get r (i * m + j) * get Y (l * m + j))))).
  - apply RS_ext. intros j Hj. rewrite get_mm by auto. rewrite <- RS_scal_r. apply RS_ext. intros. ring.
  - rewrite RS_swap. apply RS_ext. intros l Hl. rewrite RS_scal, get_mYt by auto. reflexivity.
Qed.
Lemma mm_adjX X Y r : << mm X Y, r >> = << Y, mXt X r >>.
Proof.
  rewrite !vec_inner2.
  transitivity (RS n (fun i => RS m (fun j => RS k (fun l => get Y (l * m + j) * (get X (i * k + l) * get r (i * m + j)))))).
  - apply RS_ext. intros i Hi. apply RS_ext. intros j Hj. rewrite get_mm by auto. rewrite <- RS_scal_r. apply RS_ext. intros. ring.
  - transitivity (RS n (fun i => RS k (fun l => RS m (fun j => get Y (l * m + j) * (get X (i * k + l) * get r (i * m + j)))))).
    + apply RS_ext. intros. apply RS_swap.
    + rewrite RS_swap. apply RS_ext. intros l Hl. rewrite RS_swap. apply RS_ext. intros j Hj. rewrite RS_scal, get_mXt by auto. reflexivity.
Qed.

Lemma mm_add_l X X' Y : mm (X [+] X') Y = mm X Y [+] mm X' Y.
Proof.
  apply vec_ext2. intros i j Hi Hj. rewrite get_add by (apply flat_lt; auto). rewrite !get_mm by auto. rewrite <- RS_add. apply RS_ext. intros l Hl.
  rewrite get_add by (apply flat_lt; auto). ring.
Qed.
Lemma mm_add_r X Y Y' : mm X (Y [+] Y') = mm X Y [+] mm X Y'.
Proof.
  apply vec_ext2. intros i j Hi Hj. rewrite get_add by (apply flat_lt; auto). rewrite !get_mm by auto. rewrite <- RS_add. apply RS_ext. intros l Hl.
  rewrite get_add by (apply flat_lt; auto). ring.
Qed.
Lemma mm_scal_l a X Y : mm (a [*] X) Y = a [*] mm X Y.
Proof.
  apply vec_ext2. intros i j Hi Hj. rewrite get_scal by (apply flat_lt; auto). rewrite !get_mm by auto. rewrite <- RS_scal. apply RS_ext. intros l Hl.
  rewrite get_scal by (apply flat_lt; auto). ring.
Qed.
Lemma mm_scal_r a X Y : mm X (a [*] Y) = a [*] mm X Y.
Proof.
  apply vec_ext2. intros i j Hi Hj. rewrite get_scal by (apply flat_lt; auto). rewrite !get_mm by auto. rewrite <- RS_scal. apply RS_ext. intros l Hl.
  rewrite get_scal by (apply flat_lt; auto). ring.
Qed.
Definition mulY (Y : Vec (k * m)) : linop (Vec (n * k)) (Vec (n * m)) :=
  mkLinop _ _ (fun X => mm X Y) (fun r => mYt r Y) (fun X X' => mm_add_l X X' Y) (fun a X => mm_scal_l a X Y) (fun X r => mm_adjY X Y r).
Definition mulX (X : Vec (n * k)) : linop (Vec (k * m)) (Vec (n * m)) :=
  mkLinop _ _ (fun Y => mm X Y) (fun r => mXt X r) (fun Y Y' => mm_add_r X Y Y') (fun a Y => mm_scal_r a X Y) (fun Y r => mm_adjX X Y r).

(** ** Frobenius bounds *)
Definition gramX (X : Vec (n * k)) (a b : nat) : R := RS n (fun i => get X (i * k + a) * get X (i * k + b)).
Definition gramY (Y : Vec (k * m)) (a b : nat) : R := RS m (fun j => get Y (a * m + j) * get Y (b * m + j)).

(** sum of |G v|^2 over rows is at most |G|_F^2 |v|^2 *)
Lemma frob_apply (G : nat -> nat -> R) (v : nat -> R) :
  RS k (fun a => RS k (fun b => G a b * v b) * RS k (fun b => G a b * v b)) <= RS k (fun a => RS k (fun b => G a b * G a b)) * RS k (fun b => v b * v b).
Proof. rewrite <- RS_scal_r. apply RS_le. intros a Ha. apply RS_cauchy. Qed.

(** X Y Y^T *)
Lemma mYt_mm X Y : norm2 (mYt (mm X Y) Y) <= frob k (gramY Y) * frob k (gramY Y) * norm2 X.
Proof.
  unfold frob. set (G := gramY Y). rewrite sqrt_sqrt by (apply RS_nonneg; intros; apply RS_nonneg; intros; apply Rle_0_sqr).
  unfold norm2. rewrite !vec_inner2. rewrite <- RS_scal. apply RS_le. intros i Hi.
  eapply Rle_trans; [|apply (frob_apply G (fun l => get X (i * k + l)))]. apply Req_le. apply RS_ext. intros l Hl.
  assert (E : get (mYt (mm X Y) Y) (i * k + l) = RS k (fun b => G l b * get X (i * k + b))).
  { rewrite get_mYt by auto. transitivity (RS m (fun j => RS k (fun b => get X (i * k + b) * (get Y (l * m + j) * get Y (b * m + j))))).
    - apply RS_ext. intros j Hj. rewrite get_mm by auto. rewrite <- RS_scal_r. apply RS_ext. intros. ring.
    - rewrite RS_swap. apply RS_ext. intros b Hb. rewrite RS_scal. unfold G, gramY. ring. }
  rewrite E. reflexivity.
Qed.
Lemma mXt_mm X Y : norm2 (mXt X (mm X Y)) <= frob k (gramX X) * frob k (gramX X) * norm2 Y.
Proof.
  unfold frob. set (G := gramX X). rewrite sqrt_sqrt by (apply RS_nonneg; intros; apply RS_nonneg; intros; apply Rle_0_sqr).
  unfold norm2. rewrite !vec_inner2. rewrite RS_swap, (RS_swap k m (fun i j => get Y (i * m + j) * get Y (i * m + j))). rewrite <- RS_scal. apply RS_le. intros j Hj.
  eapply Rle_trans; [|apply (frob_apply G (fun l => get Y (l * m + j)))]. apply Req_le. apply RS_ext. intros l Hl.
  assert (E : get (mXt X (mm X Y)) (l * m + j) = RS k (fun b => G l b * get Y (b * m + j))).
  { rewrite get_mXt by auto. transitivity (RS n (fun i => RS k (fun b => get Y (b * m + j) * (get X (i * k + l) * get X (i * k + b))))).
    - apply RS_ext. intros i Hi. rewrite get_mm by auto. rewrite <- RS_scal. apply RS_ext. intros. ring.
    - rewrite RS_swap. apply RS_ext. intros b Hb. rewrite RS_scal. unfold G, gramX. ring. }
  rewrite E. reflexivity.
Qed.
Lemma frob_nonneg (G : nat -> nat -> R) : 0 <= frob k G.
Proof. apply sqrt_pos. Qed.
Lemma mm_bound_Y X Y : norm2 (mm X Y) <= frob k (gramY Y) * norm2 X.
Proof.
  unfold norm2 at 1. rewrite mm_adjY. eapply Rle_trans; [apply CS|].
  assert (norm (mYt (mm X Y) Y) <= frob k (gramY Y) * norm X).
  { apply norm_le_of_sq; [apply Rmult_le_pos; [apply frob_nonneg|apply norm_nonneg]|].
    replace (frob k (gramY Y) * norm X * (frob k (gramY Y) * norm X)) with (frob k (gramY Y) * frob k (gramY Y) * (norm X * norm X)) by ring. rewrite norm_sq. apply mYt_mm. }
  pose proof (norm_nonneg X). rewrite <- (norm_sq X). nra.
Qed.
Lemma mm_bound_X X Y : norm2 (mm X Y) <= frob k (gramX X) * norm2 Y.
Proof.
  unfold norm2 at 1. rewrite mm_adjX. eapply Rle_trans; [apply CS|].
  assert (norm (mXt X (mm X Y)) <= frob k (gramX X) * norm Y).
  { apply norm_le_of_sq; [apply Rmult_le_pos; [apply frob_nonneg|apply norm_nonneg]|].
    replace (frob k (gramX X) * norm Y * (frob k (gramX X) * norm Y)) with (frob k (gramX X) * frob k (gramX X) * (norm Y * norm Y)) by ring. rewrite norm_sq. apply mXt_mm. }
  pose proof (norm_nonneg Y). rewrite <- (norm_sq Y). nra.
Qed.
End Mat.

(** ** half squared residuals *)
Lemma half_sq_expand {E F : IPS} (B : linop E F) (d : F) x h :
  norm2 (d [-] B (x [+] h)) / 2 = norm2 (d [-] B x) / 2 + << vopp (ladj B (d [-] B x)), h >> + norm2 (B h) / 2.
Proof. rewrite lapp_add, inner_opp_l, ladj_spec'. unfold norm2. iexp. field. Qed.
Lemma half_sq_grad {E F : IPS} (B : linop E F) (d : F) C : (forall v, norm2 (B v) <= C * norm2 v) -> 0 <= C ->
  forall x, is_grad (fun x => norm2 (d [-] B x) / 2) x (vopp (ladj B (d [-] B x))).
Proof.
  intros HC HC0 x eps He. exists (eps / (C + 1)). split; [apply Rdiv_lt_0_compat; lra|]. intros h Hh.
  rewrite half_sq_expand. match goal with |- Rabs ?a <= _ => replace a with (norm2 (B h) / 2) by ring end.
  pose proof (inner_pos (B h)) as Hp. fold (norm2 (B h)) in Hp. rewrite Rabs_right by lra. specialize (HC h). rewrite <- (norm_sq h) in HC. pose proof (norm_nonneg h).
  assert (norm h * (C + 1) <= eps). { replace eps with (eps / (C + 1) * (C + 1)) by (field; lra). apply Rmult_le_compat_r; lra. }
  assert (C * norm h * norm h <= eps * norm h) by nra. nra.
Qed.
Lemma half_sq_upper {E F : IPS} (B : linop E F) (d : F) C : (forall v, norm2 (B v) <= C * norm2 v) ->
  q_upper (fun x => norm2 (d [-] B x) / 2) (fun x => vopp (ladj B (d [-] B x))) C.
Proof.
  intros HC x y. replace y with (x [+] (y [-] x)) at 1 by vring. rewrite half_sq_expand. specialize (HC (y [-] x)). lra.
Qed.
Lemma half_sq_lower {E F : IPS} (B : linop E F) (d : F) x y :
  norm2 (d [-] B x) / 2 + << vopp (ladj B (d [-] B x)), y [-] x >> <= norm2 (d [-] B y) / 2.
Proof. replace (norm2 (d [-] B y)) with (norm2 (d [-] B (x [+] (y [-] x)))) by (do 3 f_equal; vring). rewrite half_sq_expand. pose proof (inner_pos (B (y [-] x))). unfold norm2 at 3. lra. Qed.

(** ** lists and vectors *)
Lemma np_sub_vec p (d v : Vec p) : np_sub (lst d) (lst v) = Ok (lst (d [-] v)).
Proof.
  destruct d as [d Hd], v as [v Hv]. unfold np_sub, lst; simpl.
  assert (Hl : Nat.eqb (length (A:=R) d) (length (A:=R) v) = true) by (apply Nat.eqb_eq; transitivity p; [exact Hd|symmetry; exact Hv]).
  rewrite Hl. f_equal. clear Hd Hv Hl. revert v.
  induction d as [|a d IH]; intros [|b v]; simpl; auto. rewrite IH. f_equal. ring.
Qed.
Lemma reshape_vec r c (x : Vec (r * c)) : reshape r c (lst x) = Ok (lst x).
Proof. unfold reshape. assert (Hl : Nat.eqb (length (A:=R) (lst x)) (r * c) = true) by (apply Nat.eqb_eq, (lst_length _ x)). rewrite Hl. reflexivity. Qed.
Lemma matmul_vec n k m (X : Vec (n * k)) (Y : Vec (k * m)) : matmul n k m (lst X) (lst Y) = lst (mm n k m X Y).
Proof. reflexivity. Qed.
Lemma Rsum_sq_vec p (v : Vec p) : Rsum (map (fun r => r * r) (lst v)) = norm2 v.
Proof. unfold norm2, lst. destruct v as [v Hv]; simpl. clear Hv. induction v; simpl; auto. rewrite IHv. ring. Qed.
Lemma tab_neg_Yt n k m (r : Vec (n * m)) (Y : Vec (k * m)) :
  tab n k (fun i l => RS m (fun j => - ent m (lst r) i j * ent m (lst Y) l j)) = lst (vopp (mYt n k m r Y)).
Proof.
  unfold vopp, lst at 3; simpl. rewrite map_map. apply map_ext. intro p. rewrite <- RS_scal. apply RS_ext. intros j Hj.
  match goal with |- - ?a * ?b = _ => change (- a * b = -1 * (a * b)) end. ring.
Qed.
Lemma tab_neg_Xt n k m (X : Vec (n * k)) (r : Vec (n * m)) :
  tab k m (fun l j => RS n (fun i => - ent k (lst X) i l * ent m (lst r) i j)) = lst (vopp (mXt n k m X r)).
Proof.
  unfold vopp, lst at 3; simpl. rewrite map_map. apply map_ext. intro p. rewrite <- RS_scal. apply RS_ext. intros j Hj.
  match goal with |- - ?a * ?b = _ => change (- a * b = -1 * (a * b)) end. ring.
Qed.

(** *** Specification: the object holds matrices X, Y, data d and an operator A *)
Section LRS.
Context (H : LR) {n k m p : nat} (X : Vec (n * k)) (Y : Vec (k * m)) (d : Vec p) (A : linop (Vec (n * m)) (Vec p)) (HH : lr_holds H X Y d A).

Lemma matvecx_ok (x : Vec (n * k)) : matvecx H (lst x) = Ok (lst (A (mm n k m x Y))).
Proof.
  destruct HH as [H1 [H2 [H3 [H4 [H5 [H6 [H7 H8]]]]]]]. unfold matvecx. rewrite H1, H2, H3, H5. rewrite !reshape_vec. cbn [bind]. rewrite matmul_vec. apply H7.
Qed.
Lemma matvecy_ok (y : Vec (k * m)) : matvecy H (lst y) = Ok (lst (A (mm n k m X y))).
Proof.
  destruct HH as [H1 [H2 [H3 [H4 [H5 [H6 [H7 H8]]]]]]]. unfold matvecy. rewrite H1, H2, H3, H4. rewrite !reshape_vec. cbn [bind]. rewrite matmul_vec. apply H7.
Qed.
Lemma pull_ok (r : Vec p) : pull H (lst r) = Ok (lst (ladj A r)).
Proof.
  destruct HH as [H1 [H2 [H3 [H4 [H5 [H6 [H7 H8]]]]]]]. unfold pull. rewrite (H8 r). cbn [bind]. rewrite H1, H3. apply reshape_vec.
Qed.
Lemma lr_gradx_ok (x : Vec (n * k)) : lr_gradx H (lst x) = Ok (lst (vopp (mYt n k m (ladj A (d [-] A (mm n k m x Y))) Y))).
Proof.
  unfold lr_gradx. rewrite matvecx_ok. cbn [bind]. destruct HH as [H1 [H2 [H3 [H4 [H5 [H6 _]]]]]]. rewrite H6, np_sub_vec. cbn [bind].
  rewrite pull_ok. cbn [bind]. rewrite H1, H2, H3, H5, reshape_vec. cbn [bind]. rewrite tab_neg_Yt. reflexivity.
Qed.
Lemma lr_grady_ok (y : Vec (k * m)) : lr_grady H (lst y) = Ok (lst (vopp (mXt n k m X (ladj A (d [-] A (mm n k m X y)))))).
Proof.
  unfold lr_grady. rewrite matvecy_ok. cbn [bind]. destruct HH as [H1 [H2 [H3 [H4 [H5 [H6 _]]]]]]. rewrite H6, np_sub_vec. cbn [bind].
  rewrite pull_ok. cbn [bind]. rewrite H1, H2, H3, H4, reshape_vec. cbn [bind]. rewrite tab_neg_Xt. reflexivity.
Qed.
End LRS.

Lemma holds_updatex H n k m p (X X' : Vec (n * k)) (Y : Vec (k * m)) (d : Vec p) A : lr_holds H X Y d A -> lr_holds (updatex H (lst X')) X' Y d A.
Proof. unfold lr_holds. simpl. tauto. Qed.
Lemma holds_updatey H n k m p (X : Vec (n * k)) (Y Y' : Vec (k * m)) (d : Vec p) A : lr_holds H X Y d A -> lr_holds (updatey H (lst Y')) X Y' d A.
Proof. unfold lr_holds. simpl. tauto. Qed.
Lemma updatex_twice H a b : updatex (updatex H a) b = updatex H b. Proof. reflexivity. Qed.
Lemma updatex_same H : updatex H (lr_x H) = H. Proof. destruct H; reflexivity. Qed.

Lemma lr_call_ok H n k m p (X : Vec (n * k)) (Y : Vec (k * m)) (d : Vec p) A : lr_holds H X Y d A ->
  forall (x : Vec (n * k)) (y : Vec (k * m)), lr_call H (lst x) (Some (lst y)) = (Ok (lr_fun A d x y), H).
Proof.
  intros HH x y. unfold lr_call. rewrite (matvecy_ok _ x Y d A (holds_updatex _ _ _ _ _ _ x _ _ _ HH) y). cbn [bind].
  destruct HH as [H1 [H2 [H3 [H4 [H5 [H6 _]]]]]]. rewrite H6, np_sub_vec. rewrite Rsum_sq_vec, updatex_twice, updatex_same. reflexivity.
Qed.
