(** * Proofs about the Hankel projection (M_L0.v) *)
From Coq Require Import ZArith Psatz.
From Verif Require Import Base Space Spec SpecOps ConvexFacts M_ProxOp MatFacts VSum M_Proj M_L0 P_Proj.
From Verif Require Export S_Hankel.
Open Scope result_scope.

(** ** Specification: a matrix is Hankel when entries on the same antidiagonal agree *)

Lemma hankel_ind_eq m n i j : (i < m)%nat -> (j < n)%nat -> hankel_ind m n i j = (i + j)%nat.
Proof.
  intros Hi Hj. unfold hankel_ind, sp_hankel. rewrite seq_length. destruct (Nat.ltb_spec (i + j) m) as [H|H]; [rewrite seq_nth by auto; lia|].
  rewrite (map_nth_lt _ (seq 0 n) _ 0%nat 0%nat) by (rewrite seq_length; lia). rewrite seq_nth by lia. lia.
Qed.
Definition hsum m n (w : nat -> nat -> R) k : R := RS m (fun i => RS n (fun j => if Nat.eqb (i + j) k then w i j else 0)).
Lemma bincount_hsum m n w k : bincount m n (hankel_ind m n) w k = hsum m n w k.
Proof. apply RS_ext. intros i Hi. apply RS_ext. intros j Hj. rewrite hankel_ind_eq by auto. reflexivity. Qed.
Lemma hsum_pos m n i j : (i < m)%nat -> (j < n)%nat -> 0 < hsum m n (fun _ _ => 1) (i + j).
Proof.
  intros Hi Hj. apply Rlt_le_trans with 1; [lra|]. unfold hsum.
  apply Rle_trans with (RS m (fun i' => (if Nat.eqb i i' then 1 else 0))).
  - rewrite (RS_ext m _ (fun i' => 1 * (if Nat.eqb i i' then 1 else 0))) by (intros; ring). rewrite RS_delta by auto. lra.
  - apply RS_le. intros i' Hi'. destruct (Nat.eqb_spec i i') as [<-|]; [|apply RS_nonneg; intros; destruct (Nat.eqb _ _); lra].
    rewrite (RS_ext n _ (fun j' => 1 * (if Nat.eqb j j' then 1 else 0))); [rewrite RS_delta by auto; lra|].
    intros j' _. destruct (Nat.eqb_spec (i + j') (i + j)), (Nat.eqb_spec j j'); try lia; lra.
Qed.
Definition hmean {m n} (X : Vec (m * n)) k : R := hsum m n (fun i j => get X (i * n + j)) k / hsum m n (fun _ _ => 1) k.
Lemma get_hankel m n (X : Vec (m * n)) i j : (i < m)%nat -> (j < n)%nat -> get (hankel_proj X) (i * n + j) = hmean X (i + j).
Proof.
  intros Hi Hj. unfold hankel_proj. rewrite get_vtab by (apply flat_lt; auto). destruct (divmod_flat n i j Hj) as [-> ->]. rewrite hankel_ind_eq by auto.
  rewrite !bincount_hsum. reflexivity.
Qed.
(** a sum over all entries, regrouped by antidiagonals *)
Lemma regroup m n (F : nat -> R) (w : nat -> nat -> R) : RS m (fun i => RS n (fun j => w i j * F (i + j)%nat)) = RS (m + n) (fun k => F k * hsum m n w k).
Proof.
  transitivity (RS m (fun i => RS n (fun j => RS (m + n) (fun k => F k * (if Nat.eqb (i + j) k then w i j else 0))))).
  - apply RS_ext. intros i Hi. apply RS_ext. intros j Hj. rewrite (RS_ext (m + n) _ (fun k => (F k * w i j) * (if Nat.eqb (i + j) k then 1 else 0))).
    + rewrite RS_delta by lia. ring.
    + intros k _. destruct (Nat.eqb _ _); ring.
  - rewrite (RS_ext m _ (fun i => RS (m + n) (fun k => RS n (fun j => F k * (if Nat.eqb (i + j) k then w i j else 0))))) by (intros; apply RS_swap).
    rewrite RS_swap. apply RS_ext. intros k _. unfold hsum. rewrite <- RS_scal. apply RS_ext. intros i _. apply RS_scal.
Qed.
Lemma hsum_sub m n v w k : hsum m n (fun i j => v i j - w i j) k = hsum m n v k - hsum m n w k.
Proof. unfold hsum. rewrite <- RS_sub. apply RS_ext. intros i _. rewrite <- RS_sub. apply RS_ext. intros j _. destruct (Nat.eqb _ _); ring. Qed.
Lemma hsum_diag m n (F : nat -> R) k : hsum m n (fun i j => F (i + j)%nat) k = F k * hsum m n (fun _ _ => 1) k.
Proof. unfold hsum. rewrite <- RS_scal. apply RS_ext. intros i _. rewrite <- RS_scal. apply RS_ext. intros j _. destruct (Nat.eqb_spec (i + j) k) as [->|]; ring. Qed.
Lemma hsum_ext m n v w k : (forall i j, (i < m)%nat -> (j < n)%nat -> v i j = w i j) -> hsum m n v k = hsum m n w k.
Proof. intro H. apply RS_ext. intros i Hi. apply RS_ext. intros j Hj. rewrite H by auto. reflexivity. Qed.
(** the residual sums to zero on every antidiagonal *)
Lemma hankel_resid m n (X : Vec (m * n)) k : hsum m n (fun i j => get X (i * n + j) - hmean X (i + j)) k = 0.
Proof.
  rewrite hsum_sub, (hsum_diag m n (hmean X)). unfold hmean. destruct (Req_dec (hsum m n (fun _ _ => 1) k) 0) as [E|E]; [|field; auto].
  rewrite E. ring_simplify.
  assert (H : forall i j, (i < m)%nat -> (j < n)%nat -> (i + j =? k)%nat = false).
  { intros i j Hi Hj. destruct (Nat.eqb_spec (i + j) k) as [<-|]; auto. pose proof (hsum_pos m n i j Hi Hj). lra. }
  unfold hsum. rewrite (RS_ext m _ (fun _ => 0)); [apply RS_zero|]. intros i Hi. rewrite (RS_ext n _ (fun _ => 0)); [apply RS_zero|]. intros j Hj. rewrite H by auto. reflexivity.
Qed.
Lemma hankel_fun m n (Z : Vec (m * n)) : hankel_mat Z -> exists F : nat -> R, forall i j, (i < m)%nat -> (j < n)%nat -> get Z (i * n + j) = F (i + j)%nat.
Proof.
  intro H. exists (fun k => get Z (Nat.min k (m - 1) * n + (k - Nat.min k (m - 1)))). intros i j Hi Hj. apply H; auto; try lia.
Qed.
Lemma hankel_proj_in m n (X : Vec (m * n)) : hankel_mat (hankel_proj X).
Proof. intros i j i' j' Hi Hj Hi' Hj' E. rewrite !get_hankel, E by auto. reflexivity. Qed.
Lemma hankel_exact m n (X : Vec (m * n)) : is_proj hankel_mat X (hankel_proj X).
Proof.
  apply vi_proj; [apply hankel_proj_in|]. intros Z HZ. destruct (hankel_fun m n Z HZ) as [F HF]. rewrite vec_inner, RS_flat. right.
  transitivity (RS m (fun i => RS n (fun j => (get X (i * n + j) - hmean X (i + j)) * (fun k => F k - hmean X k) (i + j)%nat))).
  - apply RS_ext. intros i Hi. apply RS_ext. intros j Hj. rewrite !get_sub by (apply flat_lt; auto). rewrite get_hankel, HF by auto. reflexivity.
  - rewrite (regroup m n (fun k => F k - hmean X k) (fun i j => get X (i * n + j) - hmean X (i + j))). rewrite (RS_ext (m + n) _ (fun _ => 0)); [apply RS_zero|].
    intros k _. rewrite hankel_resid. ring.
Qed.
Lemma hankel_convex m n : convex_set (@hankel_mat m n).
Proof.
  intros x y t Hx Hy Ht i j i' j' Hi Hj Hi' Hj' E. rewrite !get_add, !get_scal by (apply flat_lt; auto). rewrite (Hx i j i' j'), (Hy i j i' j') by auto. reflexivity.
Qed.
Lemma hankel_fix m n (X : Vec (m * n)) : hankel_mat X -> hankel_proj X = X.
Proof. intro H. apply (proj_of_mem _ _ _ H), hankel_exact. Qed.
Lemma allclose_refl n (x : Vec n) : allclose x x = true.
Proof.
  unfold allclose. apply forallb_forall. intros i _. match goal with |- Rleb ?a ?b = true => destruct (Rleb_spec a b) as [[_ ->]|[H _]]; [reflexivity|] end.
  rewrite Rminus_diag_eq, Rabs_R0 in H by auto. pose proof (Rabs_pos (get x i)). assert (0 < 10 ^ 8) by (apply pow_lt; lra). assert (0 < 10 ^ 5) by (apply pow_lt; lra).
  assert (0 < 1 / 10 ^ 8) by (apply Rdiv_lt_0_compat; lra). assert (0 < 1 / 10 ^ 5) by (apply Rdiv_lt_0_compat; lra). nra.
Qed.
Lemma allclose_iff n (x y : Vec n) : allclose x y = true <-> forall i, (i < n)%nat -> Rabs (get x i - get y i) <= 1 / 10 ^ 8 + 1 / 10 ^ 5 * Rabs (get y i).
Proof.
  unfold allclose. rewrite forallb_forall. split; intros H i Hi.
  - specialize (H i ltac:(apply in_seq; lia)). match type of H with Rleb ?a ?b = true => destruct (Rleb_spec a b) as [[? _]|[_ E]]; [auto|rewrite E in H; discriminate] end.
  - apply in_seq in Hi. match goal with |- Rleb ?a ?b = true => destruct (Rleb_spec a b) as [[_ ->]|[E _]]; [reflexivity|] end. pose proof (H i ltac:(lia)). lra.
Qed.

(*! C26_prox : every matrix shape, matrix and positive tau: Hankel.prox returns the Euclidean projection on the Hankel matrices (antidiagonal
   means), independent of tau; applying it again changes nothing, a Hankel input is returned as is, the map is 1-Lipschitz, and Hankel.__call__
   accepts the result and every Hankel matrix *)
Lemma C26_prox_l : forall m n (x : Vec (m * n)) tau, 0 < tau -> exists p, hankel_prox x tau = Ok p /\ is_proj hankel_mat x p /\
  (forall tau', 0 < tau' -> hankel_prox p tau' = Ok p) /\ hankel_call p = true /\
  (hankel_mat x -> p = x /\ hankel_call x = true) /\
  (forall x' tau' p', 0 < tau' -> hankel_prox x' tau' = Ok p' -> norm (p [-] p') <= norm (x [-] x')).
Proof.
  intros m n x tau Ht. exists (hankel_proj x).
  assert (P : forall (z : Vec (m * n)) t, 0 < t -> hankel_prox z t = Ok (hankel_proj z)) by (intros z t H; unfold hankel_prox; destruct (Rleb_spec t 0) as [[? ->]|[_ ->]]; [lra|reflexivity]).
  split; [apply P; auto|]. split; [apply hankel_exact|]. split; [intros t H; rewrite P by auto; rewrite (hankel_fix m n (hankel_proj x)) by apply hankel_proj_in; reflexivity|].
  split; [unfold hankel_call; rewrite (hankel_fix m n (hankel_proj x)) by apply hankel_proj_in; apply allclose_refl|]. split.
  - intro H. unfold hankel_call. rewrite !(hankel_fix m n x H). split; auto. apply allclose_refl.
  - intros x' t p' H E. rewrite P in E by auto. apply Ok_inj in E. subst p'. apply (proj_nonexp (@hankel_mat m n)); [apply hankel_convex|apply hankel_exact|apply hankel_exact].
Qed.

(*! C26_means : every entry of the result is the arithmetic mean of the input over its antidiagonal *)
Lemma C26_means_l : forall m n (x : Vec (m * n)) tau p i j, 0 < tau -> hankel_prox x tau = Ok p -> (i < m)%nat -> (j < n)%nat ->
  let onanti i' j' v := if Nat.eqb (i' + j') (i + j) then v else 0 in
  0 < RS m (fun i' => RS n (fun j' => onanti i' j' 1)) /\
  get p (i * n + j) * RS m (fun i' => RS n (fun j' => onanti i' j' 1)) = RS m (fun i' => RS n (fun j' => onanti i' j' (get x (i' * n + j')))).
Proof.
  intros m n x tau p i j Ht E Hi Hj oa. unfold hankel_prox in E. destruct (Rleb_spec tau 0) as [[? _]|[_ Hb]]; [lra|]. rewrite Hb in E. apply Ok_inj in E. subst p.
  rewrite get_hankel by auto. pose proof (hsum_pos m n i j Hi Hj) as Hp. split; [exact Hp|]. unfold hmean. 
  change (RS m (fun i' => RS n (fun j' => oa i' j' 1))) with (hsum m n (fun _ _ => 1) (i + j)). 
  change (RS m (fun i' => RS n (fun j' => oa i' j' (get x (i' * n + j'))))) with (hsum m n (fun i j => get x (i * n + j)) (i + j)). field. lra.
Qed.

(*! C26_call_refuted : Hankel.__call__ is not a membership test: it accepts the 2x2 matrix with antidiagonal entries 1000000 and 1000001, which is not Hankel and which prox changes *)
Lemma C26_call_refuted_l : hankel_call hk_x = true /\ ~ hankel_mat hk_x /\ forall tau p, hankel_prox hk_x tau = Ok p -> p <> hk_x.
Proof.
  assert (G : forall p, (p < 4)%nat -> get hk_x p = nth p [0; 1000000; 1000001; 0] 0) by (intros p Hp; unfold hk_x; rewrite get_vtab by auto; reflexivity).
  assert (NH : ~ hankel_mat hk_x). { intro H. specialize (H 0%nat 1%nat 1%nat 0%nat ltac:(lia) ltac:(lia) ltac:(lia) ltac:(lia) eq_refl). cbn [Nat.mul Nat.add] in H. rewrite !G in H by lia. cbn [nth] in H. lra. }
  split; [|split; auto].
  - unfold hankel_call. apply allclose_iff. intros p Hp.
    assert (Ep : exists i j, (i < 2)%nat /\ (j < 2)%nat /\ p = (i * 2 + j)%nat). { exists (p / 2)%nat, (p mod 2)%nat. split; [apply Nat.div_lt_upper_bound; lia|]. split; [apply Nat.mod_upper_bound; lia|]. pose proof (Nat.div_mod p 2 ltac:(lia)). lia. }
    destruct Ep as [i [j [Hi [Hj ->]]]]. rewrite get_hankel by auto. unfold hmean, hsum.
    assert (V1 : forall k, RS 2 (fun i => RS 2 (fun j => if (i + j =? k)%nat then get hk_x (i * 2 + j) else 0)) = match k with 1%nat => 2000001 | _ => 0 end).
    { intro k. cbn [RS Nat.add Nat.mul]. rewrite !G by lia. cbn [nth]. destruct k as [|[|[|k]]]; cbn [Nat.eqb]; lra. }
    assert (V2 : forall k, RS 2 (fun i => RS 2 (fun j => if (i + j =? k)%nat then 1 else 0)) = match k with 0%nat => 1 | 1%nat => 2 | 2%nat => 1 | _ => 0 end).
    { intro k. cbn [RS Nat.add Nat.mul]. destruct k as [|[|[|k]]]; cbn [Nat.eqb]; lra. }
    rewrite V1, V2. assert (E5 : 10 ^ 5 = 100000) by (simpl; lra). assert (E8 : 10 ^ 8 = 100000000) by (simpl; lra). rewrite E5, E8, G by (apply (flat_lt 2 2); auto).
    destruct i as [|[|i]], j as [|[|j]]; try lia; cbn [Nat.mul Nat.add nth]; unfold Rabs; repeat destruct (Rcase_abs _); lra.
  - intros tau p E Ep. unfold hankel_prox in E. destruct (Rleb tau 0); [discriminate|]. apply Ok_inj in E. apply NH. rewrite <- Ep, <- E. apply hankel_proj_in.
Qed.

(*!ex C26_example : the 2x2 matrix [[1,2],[4,3]] projects to [[1,3],[3,3]] *)
Lemma C26_example_l : hankel_prox (m:=2) (n:=2) (vtab (2 * 2) (fun p => nth p [1; 2; 4; 3] 0)) 1 = Ok (vtab (2 * 2) (fun p => nth p [1; 3; 3; 3] 0)).
Proof.
  unfold hankel_prox. destruct (Rleb_spec 1 0) as [[? ->]|[_ ->]]; [lra|]. f_equal. apply vec_ext. intros p Hp.
  assert (Ep : exists i j, (i < 2)%nat /\ (j < 2)%nat /\ p = (i * 2 + j)%nat). { exists (p / 2)%nat, (p mod 2)%nat. split; [apply Nat.div_lt_upper_bound; lia|]. split; [apply Nat.mod_upper_bound; lia|]. pose proof (Nat.div_mod p 2 ltac:(lia)). lia. }
  destruct Ep as [i [j [Hi [Hj ->]]]]. rewrite get_hankel by auto. rewrite get_vtab by auto. unfold hmean, hsum.
  set (X := vtab _ _). assert (G : forall p, (p < 4)%nat -> get X p = nth p [1; 2; 4; 3] 0) by (intros q Hq; unfold X; rewrite get_vtab by auto; reflexivity).
  destruct i as [|[|i]], j as [|[|j]]; try lia; cbn [RS Nat.add Nat.mul Nat.eqb]; rewrite !G by lia; cbn [nth]; field.
Qed.
