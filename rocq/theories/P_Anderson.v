(** * Anderson acceleration: the coefficients *)
From Coq Require Import Psatz.
From Verif Require Import Base Space Spec ConvexFacts VSum MatFacts M_ProxOp M_Loop M_PG M_Anderson.
From Verif Require Export S_Anderson.
Open Scope result_scope.
Open Scope R_scope.

(** ** Moore-Penrose inverse (specification of np.linalg.pinv) *)

Section Solve.
Variables (k : nat) (A B : nat -> nat -> R).
Hypothesis Asym : forall i j, (i < k)%nat -> (j < k)%nat -> A i j = A j i.
Hypothesis H1 : forall i j, (i < k)%nat -> (j < k)%nat -> mmul k (mmul k A B) A i j = A i j.
Hypothesis H3 : forall i j, (i < k)%nat -> (j < k)%nat -> mmul k A B i j = mmul k A B j i.
Hypothesis Hker : forall u, (forall i, (i < k)%nat -> RS k (fun j => A i j * u j) = 0) -> RS k u = 0.
Let Q := mmul k A B.
Let u i := 1 - RS k (Q i).
Lemma AQ i l : (i < k)%nat -> (l < k)%nat -> RS k (fun j => A i j * Q j l) = A i l.
Proof.
  intros Hi Hl. rewrite (Asym i l), <- (H1 l i Hl Hi) by auto. change (mmul k (mmul k A B) A l i) with (RS k (fun j => Q l j * A j i)). apply RS_ext. intros j Hj.
  rewrite (Asym i j) by auto. replace (Q j l) with (Q l j) by (apply H3; auto). ring.
Qed.
Lemma Au i : (i < k)%nat -> RS k (fun j => A i j * u j) = 0.
Proof.
  intro Hi. unfold u. rewrite (RS_ext k _ (fun j => A i j - RS k (fun l => A i j * Q j l))) by (intros; rewrite RS_scal; ring). rewrite RS_sub, RS_swap.
  rewrite (RS_ext k (fun l => RS k (fun j => A i j * Q j l)) (A i)) by (intros; apply AQ; auto). ring.
Qed.
Lemma QQ l m : (l < k)%nat -> (m < k)%nat -> RS k (fun i => Q l i * Q i m) = Q l m.
Proof.
  intros Hl Hm. unfold Q at 2. unfold mmul at 1. rewrite (RS_ext k _ (fun i => RS k (fun n => Q l i * A i n * B n m))) by (intros; rewrite <- RS_scal; apply RS_ext; intros; ring).
  rewrite RS_swap. unfold Q at 2. unfold mmul. apply RS_ext. intros n Hn. rewrite RS_scal_r. f_equal. apply (H1 l n Hl Hn).
Qed.
Lemma Qu l : (l < k)%nat -> RS k (fun i => Q l i * u i) = 0.
Proof.
  intro Hl. unfold u. rewrite (RS_ext k _ (fun i => Q l i - RS k (fun m => Q l i * Q i m))) by (intros; rewrite RS_scal; ring). rewrite RS_sub, RS_swap.
  rewrite (RS_ext k (fun m => RS k (fun i => Q l i * Q i m)) (Q l)) by (intros; apply QQ; auto). ring.
Qed.
Lemma u_zero i : (i < k)%nat -> u i = 0.
Proof.
  intro Hi. assert (Hs : RS k (fun i => u i * u i) = 0).
  { rewrite (RS_ext k _ (fun i => u i - RS k (fun l => Q i l * u i))) by (intros j Hj; unfold u at 2; rewrite RS_scal_r; ring). rewrite RS_sub, (Hker u Au), RS_swap.
    rewrite (RS_ext k _ (fun _ => 0)); [rewrite RS_zero; ring|]. intros l Hl. rewrite <- (Qu l Hl). apply RS_ext. intros j Hj. replace (Q j l) with (Q l j) by (apply H3; auto). ring. }
  pose proof (RS_zero_all k _ ltac:(intros; apply Rle_0_sqr) Hs i Hi) as Hz. cbv beta in Hz. apply Rsqr_0_uniq. exact Hz.
Qed.
(** the row sums w of B solve A w = 1 *)
Lemma pinv_solve i : (i < k)%nat -> RS k (fun j => A i j * RS k (B j)) = 1.
Proof.
  intro Hi. pose proof (u_zero i Hi) as H. unfold u, Q, mmul in H. rewrite RS_swap in H. rewrite (RS_ext k _ (fun j => RS k (fun l => A i j * B j l))) by (intros; rewrite RS_scal; ring). lra.
Qed.
End Solve.

Section Alpha.
Context {E : IPS}.
Lemma mget_matrix epsr (Rs : list E) i j : (i < length Rs)%nat -> (j < length Rs)%nat ->
  mget (an_matrix epsr Rs) i j = << nthv Rs i, nthv Rs j >> + epsr * RS (length Rs) (fun l => norm2 (nthv Rs l)).
Proof.
  intros Hi Hj. unfold mget, an_matrix. rewrite (map_nth_lt _ Rs i vzero []) by auto. rewrite (map_nth_lt _ Rs j vzero 0) by auto. f_equal. f_equal.
  rewrite Rsum_RS, map_length. apply RS_ext. intros l Hl. unfold nthr. rewrite (map_nth_lt norm2 Rs l vzero 0) by auto. reflexivity.
Qed.
Lemma square_matrix epsr (Rs : list E) : square (length Rs) (an_matrix epsr Rs).
Proof. split; [apply map_length|]. intros i Hi. unfold an_matrix. rewrite (map_nth_lt _ Rs i vzero []) by auto. apply map_length. Qed.
Lemma sym_matrix epsr (Rs : list E) i j : (i < length Rs)%nat -> (j < length Rs)%nat -> mget (an_matrix epsr Rs) i j = mget (an_matrix epsr Rs) j i.
Proof. intros. rewrite !mget_matrix by auto. rewrite inner_sym. reflexivity. Qed.

Lemma mat_vec_ones k P : square k P -> mat_vec P (repeat 1 k) = Ok (map (fun i => RS k (mget P i)) (seq 0 k)).
Proof.
  intros [HP Hr]. unfold mat_vec. replace (forallb _ P) with true.
  - f_equal. apply (nth_ext _ _ 0 0); [rewrite !map_length, seq_length; auto|]. intros i Hi. rewrite map_length in Hi. rewrite (map_nth_lt _ P i [] 0) by auto. rewrite (map_nth_lt _ (seq 0 k) i 0%nat 0) by (rewrite seq_length; lia). rewrite seq_nth by lia. simpl (0 + i)%nat.
    specialize (Hr i ltac:(lia)). rewrite Rsum_RS, map2_length, Hr by (rewrite Hr, repeat_length; auto). apply RS_ext. intros j Hj. unfold nthr. rewrite (nth_map2 Rmult _ _ j 0 0 0) by (rewrite ?Hr, ?repeat_length; auto).
    unfold mget. rewrite (nth_indep (repeat 1 k) 0 1) by (rewrite repeat_length; auto). rewrite nth_repeat. ring.
  - symmetry. apply forallb_forall. intros row Hin. apply (In_nth _ _ []) in Hin as [i [Hi <-]]. apply Nat.eqb_eq. rewrite repeat_length. apply Hr. lia.
Qed.
Lemma Rsum_map_seq f k : Rsum (map f (seq 0 k)) = RS k f.
Proof. rewrite Rsum_RS, map_length, seq_length. apply RS_ext. intros i Hi. unfold nthr. rewrite (map_nth_lt f _ i 0%nat 0) by (rewrite seq_length; auto). rewrite seq_nth by auto. reflexivity. Qed.
Lemma comb_VS (G : list E) alpha : length G = length alpha -> comb G alpha = Ok (VS (length G) (fun i => nthr alpha i [*] nthv G i)).
Proof.
  intro H. unfold comb. rewrite (proj2 (Nat.eqb_eq _ _) H). f_equal. change (fold_right vadd vzero ?l) with (vsum l). rewrite vsum_VS, map2_length by auto. apply VS_ext. intros i Hi. unfold nthv at 1. rewrite (nth_map2 _ _ _ i vzero 0 vzero) by auto. reflexivity.
Qed.


Lemma quad epsr (Rs : list E) (a b : nat -> R) : let k := length Rs in
  RS k (fun i => a i * RS k (fun j => mget (an_matrix epsr Rs) i j * b j)) =
  << VS k (fun i => a i [*] nthv Rs i), VS k (fun i => b i [*] nthv Rs i) >> + epsr * RS k (fun l => norm2 (nthv Rs l)) * (RS k a * RS k b).
Proof.
  intro k. set (c := epsr * _). replace (c * (RS k a * RS k b)) with (RS k (fun i => a i * RS k (fun j => c * b j))) by (rewrite RS_scal_r, RS_scal; ring).
  rewrite inner_VS_l, <- RS_add. apply RS_ext. intros i Hi. rewrite inner_VS_r. rewrite (RS_ext k (fun j => << a i [*] nthv Rs i, b j [*] nthv Rs j >>) (fun j => a i * (b j * << nthv Rs i, nthv Rs j >>))) by (intros; rewrite inner_scal_l, inner_scal_r; ring).
  rewrite RS_scal, <- Rmult_plus_distr_l, <- RS_add. f_equal. apply RS_ext. intros j Hj. rewrite mget_matrix by auto. fold k. fold c. ring.
Qed.

Lemma alpha_best pinv n epsr (Rs : list E) : pinv_ok n pinv -> (1 <= length Rs <= n)%nat -> 0 < epsr -> (exists r, In r Rs /\ r <> vzero) ->
  exists alpha, an_alpha pinv epsr (length Rs) Rs = Ok alpha /\ best_weights Rs alpha.
Proof.
  intros HP Hn He [r [Hr Hr0]]. set (k := length Rs) in *. set (A := mget (an_matrix epsr Rs)).
  destruct (HP k (an_matrix epsr Rs) ltac:(lia) (square_matrix _ _) (sym_matrix epsr Rs)) as (Hsq & P1 & P2 & P3 & P4). set (P := pinv (an_matrix epsr Rs)) in *. set (B := mget P) in *. fold A in P1, P2, P3, P4.
  set (c := epsr * RS k (fun l => norm2 (nthv Rs l))).
  assert (Hc : 0 < c).
  { apply Rmult_lt_0_compat; auto. assert (H0 : 0 <= RS k (fun l => norm2 (nthv Rs l))) by (apply RS_nonneg; intros; apply norm2_nonneg).
    destruct (Req_dec (RS k (fun l => norm2 (nthv Rs l))) 0) as [Hz|Hz]; [|lra]. exfalso. apply Hr0. apply (In_nth _ _ vzero) in Hr as [i [Hi <-]]. apply norm2_eq0. apply (RS_zero_all k (fun l => norm2 (nthv Rs l)) (fun l _ => norm2_nonneg _) Hz i Hi). }
  assert (Hq : forall a b, RS k (fun i => a i * RS k (fun j => A i j * b j)) = << VS k (fun i => a i [*] nthv Rs i), VS k (fun i => b i [*] nthv Rs i) >> + c * (RS k a * RS k b)) by (intros; apply quad).
  assert (Hker : forall u, (forall i, (i < k)%nat -> RS k (fun j => A i j * u j) = 0) -> RS k u = 0).
  { intros u Hu. assert (Hz : RS k (fun i => u i * RS k (fun j => A i j * u j)) = 0) by (rewrite (RS_ext k _ (fun _ => 0)); [apply RS_zero|intros i Hi; rewrite Hu by auto; ring]).
    rewrite Hq in Hz. fold (norm2 (VS k (fun i => u i [*] nthv Rs i))) in Hz. pose proof (norm2_nonneg (VS k (fun i => u i [*] nthv Rs i))). pose proof (Rle_0_sqr (RS k u)). unfold Rsqr in *. assert (RS k u * RS k u = 0) by nra. nra. }
  set (w := fun j => RS k (B j)). assert (Hsol : forall i, (i < k)%nat -> RS k (fun j => A i j * w j) = 1) by exact (pinv_solve k A B (sym_matrix epsr Rs) P1 P3 Hker).
  set (s := RS k w).
  assert (Hws : << VS k (fun i => w i [*] nthv Rs i), VS k (fun i => w i [*] nthv Rs i) >> + c * (s * s) = s).
  { unfold s at 1 2. rewrite <- Hq. unfold s. apply RS_ext. intros i Hi. rewrite (Hsol i Hi). ring. }
  assert (Hs0 : s <> 0).
  { intro Hs. rewrite Hs in Hws. assert (HV : VS k (fun i => w i [*] nthv Rs i) = vzero) by (apply norm2_eq0; unfold norm2; lra).
    assert (Hbad := Hsol 0%nat ltac:(lia)). rewrite (RS_ext k _ (fun j => << nthv Rs 0, w j [*] nthv Rs j >> + c * w j)) in Hbad by (intros j Hj; unfold A; rewrite mget_matrix by (unfold k in *; lia); fold k; fold c; rewrite inner_scal_r; ring).
    rewrite RS_add, <- inner_VS_r, HV, inner_zero_r, RS_scal in Hbad. fold s in Hbad. rewrite Hs in Hbad. lra. }
  exists (map (fun a => a / s) (map w (seq 0 k))). split.
  - unfold an_alpha. fold P. rewrite (mat_vec_ones k P Hsq). cbn [bind]. rewrite map_length, seq_length, Nat.eqb_refl. change (fun i => RS k (mget P i)) with w. rewrite Rsum_map_seq. fold s. rewrite (proj2 (Reqb_false s 0) Hs0). reflexivity.
  - assert (Hn' : forall i, (i < k)%nat -> nthr (map (fun a => a / s) (map w (seq 0 k))) i = w i / s). { intros i Hi. unfold nthr. rewrite map_map. rewrite (map_nth_lt _ _ i 0%nat 0) by (rewrite seq_length; auto). rewrite seq_nth by auto. reflexivity. }
    assert (Hl : length (map (fun a => a / s) (map w (seq 0 k))) = k) by (rewrite !map_length, seq_length; auto).
    split; [exact Hl|]. split.
    + rewrite Rsum_RS, Hl. rewrite (RS_ext k _ (fun i => / s * w i)) by (intros i Hi; rewrite Hn' by auto; unfold Rdiv; ring). rewrite RS_scal. fold s. field; auto.
    + intros beta Hb Hb1. rewrite Rsum_RS in Hb1. rewrite Hb in Hb1. fold k in Hb1 |- *. rewrite (VS_ext k _ (fun i => (w i / s) [*] nthv Rs i)) by (intros i Hi; rewrite Hn' by auto; reflexivity).
      set (a := fun i => w i / s). set (b := nthr beta).
      assert (Ha1 : RS k a = 1) by (unfold a; rewrite (RS_ext k _ (fun i => / s * w i)) by (intros; unfold Rdiv; ring); rewrite RS_scal; fold s; field; auto).
      assert (Haa : forall b, RS k b = 1 -> << VS k (fun i => b i [*] nthv Rs i), VS k (fun i => a i [*] nthv Rs i) >> + c = / s).
      { intros b' Hb'. pose proof (Hq b' a) as H. rewrite Hb', Ha1 in H. rewrite (RS_ext k _ (fun i => b' i * / s)) in H.
        - rewrite RS_scal_r, Hb' in H. lra.
        - intros i Hi. f_equal. rewrite (RS_ext k _ (fun j => A i j * w j * / s)) by (intros; unfold a, Rdiv; ring). rewrite RS_scal_r, (Hsol i Hi). ring. }
      pose proof (Haa a Ha1) as E1. pose proof (Haa b Hb1) as E2. change (VS k (fun i => (w i / s) [*] nthv Rs i)) with (VS k (fun i => a i [*] nthv Rs i)).
      set (va := VS k (fun i => a i [*] nthv Rs i)) in *. set (vb := VS k (fun i => b i [*] nthv Rs i)) in *.
      apply sqrt_le_1_alt. pose proof (norm2_nonneg (vb [-] va)) as Hd. unfold norm2 in *. revert Hd. iexp. intro Hd. pose proof (inner_sym va vb). lra.
Qed.
Lemma alpha_zero pinv n epsr (Rs : list E) : pinv_ok n pinv -> (length Rs <= n)%nat -> (forall r, In r Rs -> r = vzero) -> an_alpha pinv epsr (length Rs) Rs = Err ZeroDivisionError.
Proof.
  intros HP Hn Hz. set (k := length Rs) in *.
  destruct (HP k (an_matrix epsr Rs) ltac:(lia) (square_matrix _ _) (sym_matrix epsr Rs)) as (Hsq & P1 & P2 & P3 & P4). set (P := pinv (an_matrix epsr Rs)) in *.
  assert (Hz' : forall i, (i < k)%nat -> nthv Rs i = vzero) by (intros i Hi; apply Hz; apply nth_In; auto).
  assert (HA : forall i j, (i < k)%nat -> (j < k)%nat -> mget (an_matrix epsr Rs) i j = 0).
  { intros i j Hi Hj. rewrite mget_matrix by auto. rewrite (Hz' i Hi), inner_zero_l. fold k. rewrite (RS_ext k _ (fun _ => 0)) by (intros l Hl; rewrite (Hz' l Hl); apply norm2_zero). rewrite RS_zero. ring. }
  assert (HB : forall i j, (i < k)%nat -> (j < k)%nat -> mget P i j = 0).
  { intros i j Hi Hj. rewrite <- P2 by auto. unfold mmul. rewrite (RS_ext k _ (fun _ => 0)); [apply RS_zero|]. intros l Hl. rewrite (RS_ext k _ (fun _ => 0)) by (intros m Hm; rewrite HA by auto; ring). rewrite RS_zero. ring. }
  unfold an_alpha. fold P. rewrite (mat_vec_ones k P Hsq). cbn [bind]. rewrite map_length, seq_length, Nat.eqb_refl, Rsum_map_seq.
  rewrite (RS_ext k _ (fun _ => 0)); [rewrite RS_zero, (proj2 (Reqb_true 0 0) eq_refl); reflexivity|]. intros i Hi. rewrite (RS_ext k _ (fun _ => 0)) by (intros; apply HB; auto). apply RS_zero.
Qed.
End Alpha.
