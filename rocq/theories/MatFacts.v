(** * Vectors and matrices as tables of entries *)
From Verif Require Import Base Space Spec ConvexFacts VSum.
From Coq Require Import Psatz.

Lemma RS_swap n m (F : nat -> nat -> R) : RS n (fun i => RS m (fun j => F i j)) = RS m (fun j => RS n (fun i => F i j)).
Proof.
  induction n as [|n IH]; cbn [RS]; [symmetry; apply RS_zero|]. rewrite IH, <- RS_add. reflexivity.
Qed.
Lemma RS_split n m h : RS (n + m) h = RS n h + RS m (fun j => h (n + j)%nat).
Proof. induction m as [|m IH]; [rewrite Nat.add_0_r; simpl; ring|]. rewrite Nat.add_succ_r. cbn [RS]. rewrite IH. ring. Qed.
Lemma RS_flat n m (F : nat -> R) : RS (n * m) F = RS n (fun i => RS m (fun j => F (i * m + j)%nat)).
Proof. induction n as [|n IH]; [reflexivity|]. cbn [RS]. rewrite <- IH. replace (S n * m)%nat with (n * m + m)%nat by lia. apply RS_split. Qed.
Lemma RS_opp n h : RS n (fun i => - h i) = - RS n h.
Proof. induction n; cbn [RS]; [ring|]. rewrite IHn. ring. Qed.
Lemma RS_mult n m h k : RS n h * RS m k = RS n (fun i => RS m (fun j => h i * k j)).
Proof. rewrite <- RS_scal_r. apply RS_ext. intros. rewrite RS_scal. reflexivity. Qed.
(** Cauchy-Schwarz for finite sums *)
Lemma RS_cauchy n a b : RS n (fun i => a i * b i) * RS n (fun i => a i * b i) <= RS n (fun i => a i * a i) * RS n (fun i => b i * b i).
Proof.
  assert (H : 0 <= RS n (fun i => RS n (fun j => (a i * b j - a j * b i) * (a i * b j - a j * b i)))).
  { apply RS_nonneg. intros. apply RS_nonneg. intros. apply Rle_0_sqr. }
  assert (E : RS n (fun i => RS n (fun j => (a i * b j - a j * b i) * (a i * b j - a j * b i))) =
    2 * (RS n (fun i => a i * a i) * RS n (fun i => b i * b i)) - 2 * (RS n (fun i => a i * b i) * RS n (fun i => a i * b i))).
  { rewrite !RS_mult.
    transitivity (RS n (fun i => RS n (fun j => a i * a i * (b j * b j))) + RS n (fun i => RS n (fun j => a j * a j * (b i * b i))) - 2 * RS n (fun i => RS n (fun j => a i * b i * (a j * b j)))).
    - rewrite <- RS_add, <- RS_scal, <- RS_sub. apply RS_ext. intros i _. rewrite <- RS_add, <- RS_scal, <- RS_sub. apply RS_ext. intros. ring.
    - rewrite (RS_swap n n (fun i j => a j * a j * (b i * b i))). ring. }
  lra.
Qed.

(** ** R^n by entries *)
(** the underlying list of entries *)
Definition lst {n} (x : Vec n) : list R := proj1_sig x.
Definition get {n} (x : Vec n) (i : nat) : R := nth i (lst x) 0.
Lemma lst_length n (x : Vec n) : length (lst x) = n.
Proof. exact (proj2_sig x). Qed.
Definition vtab (n : nat) (f : nat -> R) : Vec n := exist _ (map f (seq 0 n)) (eq_trans (map_length f _) (seq_length n 0)).
Lemma get_vtab n f i : (i < n)%nat -> get (vtab n f) i = f i.
Proof. intro H. unfold get, lst, vtab; simpl. rewrite (map_nth_lt f _ i 0%nat 0) by (rewrite seq_length; auto). rewrite seq_nth by auto. reflexivity. Qed.
Lemma vec_ext n (x y : Vec n) : (forall i, (i < n)%nat -> get x i = get y i) -> x = y.
Proof.
  destruct x as [x Hx], y as [y Hy]. unfold get, lst; simpl. intro H. apply nlist_eq; simpl. apply (nth_ext x y 0 0); [congruence|]. intros i Hi. apply H. lia.
Qed.
Lemma get_add n (x y : Vec n) i : (i < n)%nat -> get (x [+] y) i = get x i + get y i.
Proof. destruct x as [x Hx], y as [y Hy]. unfold get, lst; simpl. intro H. rewrite (nth_map2 _ x y i 0 0 0) by lia. reflexivity. Qed.
Lemma get_scal n a (x : Vec n) i : (i < n)%nat -> get (a [*] x) i = a * get x i.
Proof. destruct x as [x Hx]. unfold get, lst; simpl. intro H. rewrite (map_nth_lt _ x i 0 0) by lia. reflexivity. Qed.
Lemma get_sub n (x y : Vec n) i : (i < n)%nat -> get (x [-] y) i = get x i - get y i.
Proof. intro H. unfold vsub. rewrite get_add, get_scal by auto. ring. Qed.
Lemma get_zero n i : get (vzero : Vec n) i = 0.
Proof. unfold get, lst; simpl. revert i. induction n; intros [|i]; simpl; auto. Qed.
Lemma vec_inner n (x y : Vec n) : << x, y >> = RS n (fun i => get x i * get y i).
Proof.
  destruct x as [x Hx], y as [y Hy]. unfold get, lst; simpl. revert x y Hx Hy. induction n as [|n IH]; intros x y Hx Hy.
  - destruct x; [|discriminate]. reflexivity.
  - destruct x as [|a x], y as [|b y]; try discriminate. rewrite RS_shift. cbn [linner nth]. rewrite IH by (simpl in *; lia). reflexivity.
Qed.
Lemma vec_norm2 n (x : Vec n) : norm2 x = RS n (fun i => get x i * get x i).
Proof. apply vec_inner. Qed.
Lemma vtab_ext n f g : (forall i, (i < n)%nat -> f i = g i) -> vtab n f = vtab n g.
Proof. intro H. apply vec_ext. intros. rewrite !get_vtab by auto. auto. Qed.
Lemma vtab_get n (x : Vec n) : vtab n (get x) = x.
Proof. apply vec_ext. intros. apply get_vtab. auto. Qed.

(** ** every linear operator on R^n is bounded *)
Definition basis n k : Vec n := vtab n (fun i => if Nat.eqb i k then 1 else 0).
Lemma RS_delta n k h : (k < n)%nat -> RS n (fun i => h i * (if Nat.eqb k i then 1 else 0)) = h k.
Proof.
  induction n as [|n IH]; intro H; [lia|]. cbn [RS]. destruct (Nat.eqb_spec k n) as [->|Hn].
  - rewrite (RS_ext n _ (fun _ => 0)); [rewrite RS_zero; ring|]. intros i Hi. destruct (Nat.eqb_spec n i); [lia|ring].
  - rewrite IH by lia. ring.
Qed.
Lemma get_VS n m (h : nat -> Vec n) i : (i < n)%nat -> get (VS m h) i = RS m (fun k => get (h k) i).
Proof. intro Hi. induction m as [|m IH]; cbn [VS RS]; [apply get_zero|]. rewrite get_add, IH by auto. reflexivity. Qed.
Lemma vec_basis n (x : Vec n) : x = VS n (fun k => get x k [*] basis n k).
Proof.
  apply vec_ext. intros i Hi. rewrite get_VS by auto. rewrite <- (RS_delta n i (get x)) by auto. apply RS_ext. intros k Hk.
  rewrite get_scal by auto. unfold basis. rewrite get_vtab by auto. reflexivity.
Qed.
Lemma lapp_VS {E F : IPS} (A : linop E F) m (h : nat -> E) : A (VS m h) = VS m (fun k => A (h k)).
Proof. induction m as [|m IH]; cbn [VS]; [apply lapp_zero|]. rewrite lapp_add, IH. reflexivity. Qed.
Lemma norm_VS {E : IPS} m (h : nat -> E) : norm (VS m h) <= RS m (fun k => norm (h k)).
Proof.
  induction m as [|m IH]; cbn [VS RS]; [unfold norm, norm2; rewrite inner_zero_l, sqrt_0; lra|].
  eapply Rle_trans; [apply norm_triangle|]. lra.
Qed.
Lemma vec_bounded n (F : IPS) (A : linop (Vec n) F) : exists C, 0 <= C /\ forall v, norm2 (A v) <= C * norm2 v.
Proof.
  exists (RS n (fun k => norm2 (A (basis n k)))). split; [apply RS_nonneg; intros; apply inner_pos|]. intro v.
  assert (H : norm (A v) <= RS n (fun k => Rabs (get v k) * norm (A (basis n k)))).
  { rewrite (vec_basis n v) at 1. rewrite lapp_VS. eapply Rle_trans; [apply norm_VS|]. apply RS_le. intros k Hk. rewrite lapp_scal, norm_scal. lra. }
  assert (H2 : norm (A v) * norm (A v) <= RS n (fun k => Rabs (get v k) * norm (A (basis n k))) * RS n (fun k => Rabs (get v k) * norm (A (basis n k)))).
  { apply Rmult_le_compat; auto; apply norm_nonneg. }
  eapply Rle_trans in H2; [|apply Rle_refl]. rewrite norm_sq in H2. eapply Rle_trans; [apply H2|].
  eapply Rle_trans; [apply RS_cauchy|]. rewrite vec_norm2, Rmult_comm.
  rewrite (RS_ext n (fun i => Rabs (get v i) * Rabs (get v i)) (fun i => get v i * get v i)).
  2:{ intros. rewrite <- Rabs_mult. apply Rabs_right. apply Rle_ge, Rle_0_sqr. }
  rewrite (RS_ext n (fun i => norm (A (basis n i)) * norm (A (basis n i))) (fun i => norm2 (A (basis n i)))).
  2:{ intros. apply norm_sq. }
  apply Rle_refl.
Qed.

(** ** matrices stored row by row *)
Lemma divmod_flat m i j : (j < m)%nat -> ((i * m + j) / m = i /\ (i * m + j) mod m = j)%nat.
Proof.
  intro H. split.
  - rewrite Nat.div_add_l by lia. rewrite Nat.div_small by auto. lia.
  - rewrite Nat.add_comm, Nat.mod_add by lia. apply Nat.mod_small; auto.
Qed.
Lemma flat_lt n m i j : (i < n)%nat -> (j < m)%nat -> (i * m + j < n * m)%nat.
Proof. intros. nia. Qed.
