(** * Proofs about the quadratic envelope of a cardinality bound (M_QE.v) *)
From Coq Require Import Permutation Sorting.
From Verif Require Import Base Space Spec SpecOps ConvexFacts Sep M_ProxOp M_L1 M_Pen MatFacts VSum M_Proj M_L0 P_L0 M_SVD M_QE.
From Verif Require Export S_QE.

(** ** Specification *)
(** vectors with at most r0 non-zeros *)
Definition sparse_sq {n} (r0 : nat) : efun (Vec n) := sq_on (l0_ball r0).

(** ** Sums *)
Lemma RS_perm n (id : list nat) (h : nat -> R) : Permutation id (seq 0 n) -> RS n h = RS n (fun j => h (nth j id 0%nat)).
Proof.
  intro HP. assert (HL : length id = n) by (rewrite (Permutation_length HP); apply seq_length).
  rewrite RS_Rsum, <- (Rsum_perm _ _ (Permutation_map h HP)), Rsum_RS, map_length, HL. apply RS_ext. intros j Hj.
  unfold nthr. apply (map_nth_lt h id j 0%nat 0). lia.
Qed.
Lemma RS_count n (f : nat -> bool) : RS n (fun i => if f i then 1 else 0) = INR (length (filter f (seq 0 n))).
Proof.
  rewrite RS_Rsum. rewrite <- (Rsum_filter f (fun _ : nat => 1)). generalize (filter f (seq 0 n)) as l. induction l as [|a l IH]; [reflexivity|].
  cbn [map Rsum length]. rewrite IH, S_INR. ring.
Qed.
Lemma RS_tail n m : (m <= n)%nat -> RS n (fun j => if (j <? m)%nat then 0 else 1) = INR (n - m).
Proof.
  intro H. induction n as [|n IH]; [replace (0 - m)%nat with 0%nat by lia; reflexivity|]. cbn [RS]. destruct (Nat.ltb_spec n m) as [Hn|Hn].
  - replace (S n - m)%nat with 0%nat by lia. assert (m = S n) by lia. subst m. simpl. rewrite (RS_ext n _ (fun _ => 0)), RS_zero; [lra|].
    intros i Hi. destruct (Nat.ltb_spec i (S n)); [auto|lia].
  - rewrite IH by lia. replace (S n - m)%nat with (S (n - m)) by lia. rewrite S_INR. lra.
Qed.
Lemma RS_head n m : (m <= n)%nat -> RS n (fun j => if (j <? m)%nat then 1 else 0) = INR m.
Proof.
  intro H. rewrite (RS_ext n _ (fun j => 1 - (if (j <? m)%nat then 0 else 1))); [|intros; destruct (_ <? _)%nat; lra].
  rewrite RS_sub, RS_const, RS_tail by auto. rewrite minus_INR by auto. lra.
Qed.
Lemma mem_firstn (l : list nat) m j : NoDup l -> (j < length l)%nat -> mem (nth j l 0%nat) (firstn m l) = (j <? m)%nat.
Proof.
  revert m j. induction l as [|a l IH]; intros m j HN Hj; simpl in Hj; [lia|]. inversion HN as [|? ? H1 H2]; subst. destruct m as [|m].
  - simpl. destruct j; reflexivity.
  - cbn [firstn]. unfold mem. cbn [existsb]. destruct j as [|j].
    + simpl. rewrite Nat.eqb_refl. reflexivity.
    + cbn [nth]. destruct (Nat.eqb_spec (nth j l 0%nat) a) as [E|E]; [elim H1; rewrite <- E; apply nth_In; lia|]. simpl.
      change (mem (nth j l 0%nat) (firstn m l) = (S j <? S m)%nat). rewrite IH by (auto; lia). reflexivity.
Qed.
Lemma sorted_nth {A} (R : A -> A -> Prop) l d i j : StronglySorted R l -> (i < j < length l)%nat -> R (nth i l d) (nth j l d).
Proof.
  intro H. revert i j. induction H as [|a l H IH HF]; intros i j Hij; simpl in Hij; [lia|]. destruct j as [|j]; [lia|]. destruct i as [|i].
  - simpl. rewrite Forall_forall in HF. apply HF, nth_In. lia.
  - simpl. apply IH. lia.
Qed.

(** ** Conjugate and biconjugate of half the squared norm on a set *)
Section Env.
Context {E : IPS} (C : E -> Prop) (hs hss : efun E) (H1 : is_conj (sq_on C) hs) (H2 : is_conj hs hss).
(** x pairs with z in the supremum that defines the biconjugate at x, whose value is v *)
Definition tight (x z : E) (v : R) : Prop :=
  (forall z', edom hs z' -> << x, z' >> - eval hs z' <= v) /\ edom hs z /\ << x, z >> - eval hs z = v.
(** the conjugate is at most half the squared norm, so the biconjugate at x in C is half its squared norm *)
Lemma hs_le (z : E) : edom hs z /\ eval hs z <= / 2 * norm2 z.
Proof.
  assert (Hb : forall y, edom (sq_on C) y -> << z, y >> - eval (sq_on C) y <= / 2 * norm2 z).
  { intros y _. cbn [eval sq_on]. pose proof (inner_pos (z [-] y)) as Hp. revert Hp. unfold norm2. iexp. intro. lra. }
  destruct H1 as [_ H1']. destruct (H1' z) as [Hd Hl]. assert (Hz : edom hs z) by (apply Hd; eexists; exact Hb).
  split; auto. apply (Hl Hz). intros t [y [Hy ->]]. auto.
Qed.
Lemma sparse_tight (x : E) : C x -> tight x x (/ 2 * norm2 x).
Proof.
  intro Hx. assert (Hb : forall z, edom hs z -> << x, z >> - eval hs z <= / 2 * norm2 x).
  { intros z Hz. destruct H1 as [_ H1']. destruct (H1' z) as [_ Hl]. destruct (Hl Hz) as [Hu _].
    assert (<< z, x >> - / 2 * norm2 x <= eval hs z) by (apply Hu; exists x; split; auto). rewrite (inner_sym x z). lra. }
  destruct (hs_le x) as [Hd He]. split; [auto|]. split; [auto|]. pose proof (Hb x Hd). unfold norm2 in *. lra.
Qed.
Lemma tight_hss x z v : tight x z v -> edom hss x /\ eval hss x = v /\ is_subgrad hss x z.
Proof.
  intros [Hb [Hz Ev]]. destruct H2 as [_ H2']. destruct (H2' x) as [Hd Hl].
  assert (Hdx : edom hss x) by (apply Hd; eexists; exact Hb).
  assert (Ex : eval hss x = v).
  { destruct (Hl Hdx) as [Hu Hm]. apply Rle_antisym.
    - apply Hm. intros t [z' [Hz' ->]]. auto.
    - apply Hu. exists z. split; auto. }
  split; auto. split; auto. split; auto. intros u Hu. destruct (H2' u) as [_ Hlu]. destruct (Hlu Hu) as [Hub _].
  assert (<< u, z >> - eval hs z <= eval hss u) by (apply Hub; exists z; auto).
  rewrite inner_sub_r, Ex, (inner_sym z u), (inner_sym z x) in *. lra.
Qed.
Lemma hss_ge x : edom hss x -> / 2 * norm2 x <= eval hss x.
Proof.
  intro Hx. destruct H2 as [_ H2']. destruct (H2' x) as [_ Hl]. destruct (Hl Hx) as [Hu _]. destruct (hs_le x) as [Hd He].
  assert (<< x, x >> - eval hs x <= eval hss x) by (apply Hu; exists x; auto). unfold norm2 in *. lra.
Qed.
End Env.

(** ** The conjugate of the sparse square, and its subgradients *)
Section Key.
Context {n : nat} (r0 : nat) (Hr : (0 < r0)%nat) (hs hss : efun (Vec n)) (H1 : is_conj (sparse_sq r0) hs) (H2 : is_conj hs hss).

Lemma poly_le (th : nat -> R) : (forall i, (i < n)%nat -> 0 <= th i <= 1) -> RS n th = INR r0 -> (r0 <= n)%nat.
Proof.
  intros Hth HS. apply INR_le. rewrite <- HS, <- (Rmult_1_r (INR n)), <- RS_const. apply RS_le. intros. apply Hth. auto.
Qed.
Lemma hs_ge (th : nat -> R) (z : Vec n) : (forall i, (i < n)%nat -> 0 <= th i <= 1) -> RS n th = INR r0 -> edom hs z ->
  / 2 * RS n (fun i => th i * (get z i * get z i)) <= eval hs z.
Proof.
  intros Hth HS Hz. pose proof (poly_le th Hth HS) as Hrn. destruct H1 as [_ H1']. destruct (H1' z) as [_ Hl]. destruct (Hl Hz) as [Hu _].
  set (W := l0_proj isort (Z.of_nat r0) z). pose proof (l0_proj_exact isort isort_ok n r0 z Hr) as [HW _]. fold W in HW.
  assert (HWu : << z, W >> - / 2 * norm2 W <= eval hs z) by (apply Hu; exists W; split; auto).
  eapply Rle_trans; [|exact HWu]. rewrite vec_norm2, vec_inner, <- RS_scal, <- RS_scal, <- RS_sub.
  destruct (argsort_abs isort isort_ok n z) as [HP Hs]. set (idx := isort (map Rabs (lst z))) in *.
  assert (HL : length idx = n) by (rewrite (Permutation_length HP); apply seq_length).
  assert (ND : NoDup idx) by (apply (Permutation_NoDup (Permutation_sym HP)), seq_NoDup).
  assert (Hin : forall j, (j < n)%nat -> (nth j idx 0 < n)%nat).
  { intros j Hj. assert (In (nth j idx 0%nat) idx) by (apply nth_In; lia). apply (Permutation_in _ HP), in_seq in H. lia. }
  rewrite (RS_perm n idx _ HP). rewrite (RS_perm n idx (fun i => get z i * get W i - _) HP). cbv beta.
  set (w := fun j => get z (nth j idx 0%nat) * get z (nth j idx 0%nat)).
  rewrite (RS_ext n _ (fun j => / 2 * (th (nth j idx 0%nat) * w j))) by (intros; unfold w; ring).
  rewrite (RS_ext n (fun j => get z (nth j idx 0%nat) * get W (nth j idx 0%nat) - _) (fun j => / 2 * ((if (j <? n - r0)%nat then 0 else 1) * w j))).
  2:{ intros j Hj. unfold W, l0_proj. rewrite get_vtab by (apply Hin; auto). rewrite drop_pos by auto. fold idx. rewrite HL, mem_firstn by (auto; lia).
      unfold w. destruct (j <? n - r0)%nat; lra. }
  rewrite !RS_scal. apply Rmult_le_compat_l; [lra|]. set (c := w (n - r0)%nat).
  assert (Hw : forall i j, (i <= j < n)%nat -> w i <= w j).
  { intros i j Hij. destruct (Nat.eq_dec i j) as [->|Hne]; [lra|]. unfold w.
    pose proof (sorted_nth _ _ 0%nat i j Hs ltac:(lia)) as Hle. simpl in Hle. apply Rsqr_le_abs_1 in Hle. exact Hle. }
  assert (HS' : RS n (fun j => th (nth j idx 0%nat)) = INR r0) by (rewrite <- HS; symmetry; apply (RS_perm n idx th HP)).
  assert (HT : RS n (fun j => if (j <? n - r0)%nat then 0 else 1) = INR r0) by (rewrite RS_tail by lia; f_equal; lia).
  assert (HD : 0 <= RS n (fun j => ((if (j <? n - r0)%nat then 0 else 1) - th (nth j idx 0%nat)) * (w j - c))).
  { apply RS_nonneg. intros j Hj. pose proof (Hth _ (Hin j Hj)). destruct (Nat.ltb_spec j (n - r0)) as [Hlt|Hge].
    - pose proof (Hw j (n - r0)%nat ltac:(lia)). unfold c. nra.
    - pose proof (Hw (n - r0)%nat j ltac:(lia)). unfold c. apply Rmult_le_pos; lra. }
  rewrite (RS_ext n _ (fun j => (if (j <? n - r0)%nat then 0 else 1) * w j - th (nth j idx 0%nat) * w j - ((if (j <? n - r0)%nat then 0 else 1) * c - th (nth j idx 0%nat) * c))) in HD by (intros; ring).
  rewrite !RS_sub, !RS_scal_r, HS', HT in HD. lra.
Qed.

(** z is a "levelled" vector for the weights th: weight 1 above the level s, 0 below it *)
Definition levelled (th : nat -> R) (s : R) (z : Vec n) : Prop :=
  (forall i, (i < n)%nat -> 0 <= th i <= 1) /\ RS n th = INR r0 /\ 0 <= s /\
  forall i, (i < n)%nat -> (th i = 1 \/ Rabs (get z i) <= s) /\ (th i = 0 \/ s <= Rabs (get z i)).

Lemma sparse_le th s (z y : Vec n) : levelled th s z -> l0_ball r0 y ->
  << z, y >> - / 2 * norm2 y <= / 2 * RS n (fun i => th i * (get z i * get z i)).
Proof.
  intros [Hth [HS [Hs0 Hlv]]] Hy. set (T := fun i => if negb (Reqb (get y i) 0) then 1 else 0).
  assert (HT : RS n T <= INR r0) by (unfold T; rewrite RS_count; apply le_INR, Hy).
  apply Rle_trans with (/ 2 * RS n (fun i => T i * (get z i * get z i))).
  - rewrite vec_norm2, vec_inner, <- RS_scal, <- RS_scal, <- RS_sub. apply RS_le. intros i Hi. unfold T.
    destruct (Reqb_spec (get y i) 0) as [[E ->]|[E ->]]; simpl; [rewrite E; lra|]. pose proof (Rle_0_sqr (get z i - get y i)) as Hq. unfold Rsqr in Hq. lra.
  - apply Rmult_le_compat_l; [lra|]. assert (HD : 0 <= RS n (fun i => (th i - T i) * (get z i * get z i - s * s))).
    { apply RS_nonneg. intros i Hi. destruct (Hlv i Hi) as [Ha Hb]. pose proof (Hth i Hi).
      assert (HT2 : 0 <= T i <= 1) by (unfold T; destruct (negb _); lra).
      assert (Eq : get z i * get z i = Rabs (get z i) * Rabs (get z i)) by (pose proof (Rsqr_abs (get z i)) as Q; unfold Rsqr in Q; lra).
      rewrite Eq. pose proof (Rabs_pos (get z i)). set (a := Rabs (get z i)) in *. replace (a * a - s * s) with ((a - s) * (a + s)) by ring.
      destruct Ha as [Ha|Ha], Hb as [Hb|Hb]; rewrite ?Ha, ?Hb.
      - rewrite Ha in Hb. lra.
      - apply Rmult_le_pos; [lra|]. apply Rmult_le_pos; lra.
      - replace ((0 - T i) * ((a - s) * (a + s))) with (T i * ((s - a) * (a + s))) by ring. apply Rmult_le_pos; [lra|]. apply Rmult_le_pos; lra.
      - replace (a - s) with 0 by lra. lra. }
    rewrite (RS_ext n _ (fun i => th i * (get z i * get z i) - T i * (get z i * get z i) - (th i * (s * s) - T i * (s * s)))) in HD by (intros; ring).
    rewrite !RS_sub, !RS_scal_r, HS in HD. pose proof (Rle_0_sqr s) as Hq. unfold Rsqr in Hq.
    assert (0 <= (INR r0 - RS n T) * (s * s)) by (apply Rmult_le_pos; lra). lra.
Qed.
Lemma hs_level th s z : levelled th s z -> edom hs z /\ eval hs z = / 2 * RS n (fun i => th i * (get z i * get z i)).
Proof.
  intro HL. destruct H1 as [_ H1']. destruct (H1' z) as [Hd Hl].
  assert (Hz : edom hs z). { apply Hd. eexists. intros y Hy. apply (sparse_le th s z y HL Hy). }
  split; auto. apply Rle_antisym.
  - apply (Hl Hz). intros t [y [Hy ->]]. apply (sparse_le th s z y HL Hy).
  - destruct HL as [Hth [HS _]]. apply hs_ge; auto.
Qed.
Lemma key_tight th s (z x : Vec n) : levelled th s z -> (forall i, (i < n)%nat -> get x i = th i * get z i) ->
  tight hs x z (/ 2 * RS n (fun i => th i * (get z i * get z i))).
Proof.
  intros HL Hx. pose proof (hs_level th s z HL) as [Hz Ez]. set (v := RS n (fun i => th i * (get z i * get z i))) in *.
  assert (Exz : << x, z >> = v). { rewrite vec_inner. apply RS_ext. intros i Hi. rewrite Hx by auto. ring. }
  split; [|split; [auto|rewrite Exz, Ez; field]].
  intros z' Hz'. destruct HL as [Hth [HS _]]. pose proof (hs_ge th z' Hth HS Hz') as Hg. rewrite vec_inner.
  assert (RS n (fun i => get x i * get z' i) <= RS n (fun i => / 2 * (th i * (get z' i * get z' i)) + / 2 * (th i * (get z i * get z i)))).
  { apply RS_le. intros i Hi. rewrite Hx by auto. pose proof (Rle_0_sqr (get z i - get z' i)) as Hq. unfold Rsqr in Hq.
    pose proof (Hth i Hi). assert (0 <= th i * ((get z i - get z' i) * (get z i - get z' i))) by (apply Rmult_le_pos; lra). lra. }
  rewrite RS_add, !RS_scal in H. fold v in H. lra.
Qed.
End Key.

(** the prox of the envelope for rho > 1 from a subgradient of hss *)
Lemma env_prox {E : IPS} (hss Q : efun E) rho (y x z : E) : (forall x, edom Q x <-> edom hss x) -> (forall x, edom hss x -> eval Q x = eval hss x - / 2 * norm2 x) ->
  1 < rho -> is_subgrad hss x z -> x = / (rho - 1) [*] (rho [*] y [-] z) -> is_prox Q (1 / rho) y x.
Proof.
  intros HD HE Hr [Hx Hg] Ex. split; [apply HD; auto|]. intros u Hu. apply HD in Hu. specialize (Hg u Hu). rewrite !HE by auto.
  replace (/ (2 * (1 / rho))) with (rho / 2) by (field; lra).
  assert (Ez : z = rho [*] y [-] (rho - 1) [*] x). { rewrite Ex, vscal_vscal. replace ((rho - 1) * / (rho - 1)) with 1 by (field; lra). vring. }
  rewrite Ez in Hg. pose proof (inner_pos (u [-] x)) as Hp.
  assert (0 <= (rho - 1) / 2 * << u [-] x, u [-] x >>) by (apply Rmult_le_pos; [lra|exact Hp]).
  revert Hg H. unfold norm2. iexp. intros. nra.
Qed.
