(** * Proofs about VStack (M_VStack.v) *)
From Coq Require Import Psatz Permutation.
From Verif Require Import Base Space Spec VSum MatFacts M_ProxOp M_VStack P_L0.
From Verif Require Export S_VStack.
Open Scope result_scope.
Open Scope R_scope.

(** ** Specification on arrays *)

(** on arrays of a fixed size these are the prox and gradient of the rest of the development *)
Lemma dist2_norm2 n (x y : Vec n) : dist2 (lst x) (lst y) = norm2 (x [-] y).
Proof.
  destruct x as [x Hx], y as [y Hy]. unfold dist2, pairsum, norm2. cbn. clear. revert y. induction x as [|a x IH]; intros [|b y]; cbn; try reflexivity. rewrite IH. cbn. ring_simplify. lra.
Qed.
Definition vfun (n : nat) (f : lfun) : efun (Vec n) := mkEfun (fun x : Vec n => ldom f (lst x)) (fun x : Vec n => lval f (lst x)).
Lemma lprox_vec n f tau (x p : Vec n) : is_lprox f tau (lst x) (lst p) <-> is_prox (vfun n f) tau x p.
Proof.
  unfold is_lprox, is_prox, vfun. cbn [edom eval]. rewrite dist2_norm2. split.
  - intros [_ [Hd H]]. split; auto. intros y Hy. rewrite <- (dist2_norm2 n y x). apply H; auto. rewrite !lst_length. reflexivity.
  - intros [Hd H]. split; [rewrite !lst_length; reflexivity|]. split; auto. intros y Hl Hy. rewrite lst_length in Hl. specialize (H (exist _ y Hl) Hy). rewrite <- (dist2_norm2 n (exist _ y Hl) x) in H. exact H.
Qed.

(** ** Parts that decompose every pairwise sum *)
Section Parts.
Context (n m : nat) (B : nat -> list R -> list R).
Hypothesis HB : forall h a b, length a = n -> length b = n -> pairsum h a b = RS m (fun i => pairsum h (B i a) (B i b)).
Hypothesis HL : forall a b i, length a = n -> length b = n -> (i < m)%nat -> length (B i a) = length (B i b).
Lemma stacked_prox f tau x p : length x = n -> length p = n -> (forall i, (i < m)%nat -> is_lprox (f i) tau (B i x) (B i p)) -> is_lprox (stacked m f B) tau x p.
Proof.
  intros Hx Hp H. split; [congruence|]. split; [intros i Hi; apply (H i Hi)|]. intros y Hy Hd. cbn [ldom lval stacked] in *. unfold dist2. rewrite !HB by congruence. rewrite <- !RS_scal, <- !RS_add.
  apply RS_le. intros i Hi. destruct (H i Hi) as [_ [_ Hm]]. apply Hm; auto. apply HL; congruence.
Qed.
Lemma dist2_nonneg x y : 0 <= dist2 x y.
Proof. unfold dist2, pairsum. revert y. induction x as [|a x IH]; intros [|b y]; cbn; try lra. specialize (IH y). pose proof (Rle_0_sqr (a - b)). unfold Rsqr in *. lra. Qed.
Lemma part_dist2_le i x y : length x = n -> length y = n -> (i < m)%nat -> dist2 (B i x) (B i y) <= dist2 x y.
Proof.
  intros Hx Hy Hi. unfold dist2. rewrite (HB _ x y) by auto. rewrite <- (RS_delta m i (fun i => pairsum (fun a b => (a - b) * (a - b)) (B i x) (B i y)) Hi).
  apply RS_le. intros j Hj. pose proof (dist2_nonneg (B j x) (B j y)) as H. unfold dist2 in H. destruct (Nat.eqb i j); lra.
Qed.
Lemma stacked_grad (f : nat -> lfun) x g : length x = n -> length g = n -> (forall i, (i < m)%nat -> is_lgrad (lval (f i)) (B i x) (B i g)) -> is_lgrad (lval (stacked m f B)) x g.
Proof.
  intros Hx Hg H. split; [congruence|]. intros eps He.
  assert (G : forall k, (k <= m)%nat -> exists d, 0 < d /\ forall y, length y = n -> dist2 y x < d * d ->
    Rabs (RS k (fun i => lval (f i) (B i y)) - RS k (fun i => lval (f i) (B i x)) - (RS k (fun i => ldot (B i g) (B i y)) - RS k (fun i => ldot (B i g) (B i x)))) <= INR k * (eps / (INR m + 1)) * sqrt (dist2 y x)).
  { induction k as [|k IH]; intro Hk.
    - exists 1. split; [lra|]. intros y Hy Hd. cbn [RS INR]. replace (0 - 0 - (0 - 0)) with 0 by ring. rewrite Rabs_R0. lra.
    - destruct (IH ltac:(lia)) as [d1 [Hd1 H1]]. assert (Hm : 0 < INR m + 1) by (pose proof (pos_INR m); lra). assert (He' : 0 < eps / (INR m + 1)) by (apply Rdiv_lt_0_compat; lra).
      destruct (H k ltac:(lia)) as [_ Hk']. destruct (Hk' _ He') as [d2 [Hd2 H2]].
      exists (Rmin d1 d2). split; [apply Rmin_glb_lt; auto|]. intros y Hy Hd.
      assert (M1 : Rmin d1 d2 * Rmin d1 d2 <= d1 * d1) by (pose proof (Rmin_l d1 d2); assert (0 < Rmin d1 d2) by (apply Rmin_glb_lt; auto); nra).
      assert (M2 : Rmin d1 d2 * Rmin d1 d2 <= d2 * d2) by (pose proof (Rmin_r d1 d2); assert (0 < Rmin d1 d2) by (apply Rmin_glb_lt; auto); nra).
      specialize (H1 y Hy ltac:(lra)). pose proof (part_dist2_le k y x Hy Hx ltac:(lia)) as HP.
      specialize (H2 (B k y) (HL y x k Hy Hx ltac:(lia)) ltac:(lra)). cbn [RS]. rewrite S_INR.
      assert (HS : sqrt (dist2 (B k y) (B k x)) <= sqrt (dist2 y x)) by (apply sqrt_le_1_alt; auto).
      match goal with |- Rabs ?z <= _ => match type of H1 with Rabs ?u <= _ => match type of H2 with Rabs ?v <= _ => replace z with (u + v) by ring end end end.
      eapply Rle_trans; [apply Rabs_triang|]. nra. }
  destruct (G m (le_n m)) as [d [Hd HG]]. exists d. split; auto. intros y Hy Hyd. rewrite Hx in Hy. specialize (HG y Hy Hyd).
  unfold ldot in HG |- *. rewrite (HB _ g y), (HB _ g x) by auto. cbn [lval stacked]. eapply Rle_trans; [exact HG|]. apply Rmult_le_compat_r; [apply sqrt_pos|].
  pose proof (pos_INR m). apply Rmult_le_reg_r with (INR m + 1); [lra|]. replace (INR m * (eps / (INR m + 1)) * (INR m + 1)) with (INR m * eps) by (field; lra). nra.
Qed.
End Parts.

(** ** consecutive parts *)
Lemma map2_firstn {A B C} (h : A -> B -> C) k a b : firstn k (map2 h a b) = map2 h (firstn k a) (firstn k b).
Proof. revert a b. induction k as [|k IH]; intros [|x a] [|y b]; cbn; try reflexivity. f_equal. apply IH. Qed.
Lemma map2_skipn {A B C} (h : A -> B -> C) k a b : length a = length b -> skipn k (map2 h a b) = map2 h (skipn k a) (skipn k b).
Proof. revert a b. induction k as [|k IH]; intros [|x a] [|y b] H; cbn in *; try reflexivity; try discriminate. apply IH. lia. Qed.
Lemma Rsum_firstn_skipn k l : Rsum l = Rsum (firstn k l) + Rsum (skipn k l).
Proof. rewrite <- (firstn_skipn k l) at 1. apply Rsum_app. Qed.
Lemma skipn_add {A} (l : list A) a b : skipn (a + b) l = skipn b (skipn a l).
Proof. revert l. induction a as [|a IH]; intros l; [reflexivity|]. destruct l; cbn; [rewrite skipn_nil; reflexivity|apply IH]. Qed.
Lemma part_nn_S n0 nn i x : part_nn (n0 :: nn) (S i) x = part_nn nn i (skipn n0 x).
Proof. unfold part_nn. cbn [nth firstn nsum fold_right]. rewrite skipn_add. reflexivity. Qed.
Lemma part_nn_0 n0 nn x : part_nn (n0 :: nn) 0 x = firstn n0 x.
Proof. reflexivity. Qed.
Lemma part_nn_sum h : forall nn a b, length a = nsum nn -> length b = nsum nn -> pairsum h a b = RS (length nn) (fun i => pairsum h (part_nn nn i a) (part_nn nn i b)).
Proof.
  induction nn as [|n0 nn IH]; intros a b Ha Hb; cbn [nsum fold_right] in *.
  - destruct a; [|discriminate]. reflexivity.
  - cbn [length]. rewrite RS_shift. rewrite !part_nn_0. rewrite (RS_ext _ _ (fun i => pairsum h (part_nn nn i (skipn n0 a)) (part_nn nn i (skipn n0 b)))) by (intros; rewrite !part_nn_S; reflexivity).
    rewrite <- IH by (rewrite skipn_length; unfold nsum in *; lia). unfold pairsum. rewrite (Rsum_firstn_skipn n0 (map2 h a b)), map2_firstn, map2_skipn by congruence. reflexivity.
Qed.
Lemma part_nn_length : forall nn i (a : list R), length a = nsum nn -> (i < length nn)%nat -> length (part_nn nn i a) = nth i nn 0%nat.
Proof.
  induction nn as [|n0 nn IH]; intros i a Ha Hi; cbn in Hi; [lia|]. cbn [nsum fold_right] in Ha. destruct i as [|i].
  - rewrite part_nn_0, firstn_length. cbn. lia.
  - rewrite part_nn_S. rewrite IH; [reflexivity|rewrite skipn_length; unfold nsum; lia|lia].
Qed.
Lemma block_part nn x i : (i < length nn)%nat -> block_nn nn x i = Ok (part_nn nn i x).
Proof.
  intro Hi. unfold block_nn. destruct (Nat.ltb_spec i (length nn)); [|lia]. f_equal. unfold slice, part_nn, xin.
  assert (HS : forall (l : list nat) i, (i < length l)%nat -> nsum (firstn (S i) l) = (nsum (firstn i l) + nth i l 0)%nat).
  { induction l as [|a l IH]; intros j Hj; cbn in Hj; [lia|]. destruct j; [cbn; lia|]. cbn [firstn nsum fold_right nth]. specialize (IH j ltac:(lia)). cbn [firstn] in IH. unfold nsum in *. cbn [fold_right] in *. rewrite IH. lia. }
  rewrite HS by auto. f_equal. lia.
Qed.
(** the loop over consecutive parts *)
Lemma loop_nn_ok {A} (m : LOp -> list R -> result A) (Q : nat -> A -> Prop) nn x : forall ops i, (i + length ops <= length nn)%nat ->
  (forall j op, nth_error ops j = Some op -> exists a, m op (part_nn nn (i + j) x) = Ok a /\ Q (i + j)%nat a) ->
  exists l, loop_nn m ops nn x i = Ok l /\ length l = length ops /\ forall j a, nth_error l j = Some a -> Q (i + j)%nat a.
Proof.
  induction ops as [|op ops IH]; intros i Hl H; cbn [loop_nn]; [exists []; split; [reflexivity|]; split; [reflexivity|intros [|j] a Ha; discriminate]|].
  cbn in Hl. rewrite block_part by lia. cbn [bind]. destruct (H 0%nat op eq_refl) as [a [E1 H1]]. rewrite Nat.add_0_r in E1, H1. rewrite E1. cbn [bind].
  destruct (IH (S i)) as [l [E2 [E3 H2]]]; [lia|intros j o Ho; destruct (H (S j) o Ho) as [b Hb]; exists b; replace (S i + j)%nat with (i + S j)%nat by lia; exact Hb|].
  rewrite E2. cbn [bind]. exists (a :: l). split; [reflexivity|]. split; [cbn; lia|]. intros [|j] b Hb; cbn in Hb; [injection Hb as <-; rewrite Nat.add_0_r; auto|].
  replace (i + S j)%nat with (S i + j)%nat by lia. auto.
Qed.
Lemma part_nn_concat : forall nn (l : list (list R)), length l = length nn -> (forall i a, nth_error l i = Some a -> length a = nth i nn 0%nat) ->
  length (concat l) = nsum nn /\ forall i a, nth_error l i = Some a -> part_nn nn i (concat l) = a.
Proof.
  induction nn as [|n0 nn IH]; intros l Hl H; [destruct l; [|discriminate]; split; [reflexivity|intros [|i] a Ha; discriminate]|].
  destruct l as [|b l]; [discriminate|]. pose proof (H 0%nat b eq_refl) as Hb. cbn in Hb. destruct (IH l) as [H1 H2]; [cbn in Hl; lia|intros i a Ha; apply (H (S i) a Ha)|].
  cbn [concat]. split; [rewrite app_length, H1, Hb; reflexivity|]. intros [|i] a Ha; cbn in Ha.
  - injection Ha as <-. rewrite part_nn_0. rewrite <- Hb. rewrite firstn_app, Nat.sub_diag, firstn_all. cbn. apply app_nil_r.
  - rewrite part_nn_S. rewrite <- Hb, skipn_app, skipn_all, Nat.sub_diag. cbn. apply H2; auto.
Qed.

(** ** parts given by index lists that use every index exactly once *)
Lemma pairsum_seq h : forall a b, length a = length b -> pairsum h a b = Rsum (map (fun j => h (nth j a 0) (nth j b 0)) (seq 0 (length a))).
Proof.
  unfold pairsum. induction a as [|x a IH]; intros [|y b] H; try discriminate; [reflexivity|]. cbn [map2 Rsum length seq map nth]. rewrite IH by (cbn in H; lia). rewrite <- seq_shift, map_map. reflexivity.
Qed.
Lemma pairsum_map h ix a b : pairsum h (map (fun j => nth j a 0) ix) (map (fun j => nth j b 0) ix) = Rsum (map (fun j => h (nth j a 0) (nth j b 0)) ix).
Proof. unfold pairsum. induction ix as [|j ix IH]; cbn; [reflexivity|rewrite IH; reflexivity]. Qed.
Lemma Rsum_concat (g : nat -> R) ll : Rsum (map g (concat ll)) = RS (length ll) (fun i => Rsum (map g (nth i ll []))).
Proof. induction ll as [|l ll IH]; [reflexivity|]. cbn [concat length]. rewrite map_app, Rsum_app, RS_shift, IH. reflexivity. Qed.
Lemma part_ix_sum n iavas : partition n iavas -> forall h a b, length a = n -> length b = n -> pairsum h a b = RS (length iavas) (fun i => pairsum h (part_ix iavas i a) (part_ix iavas i b)).
Proof.
  intros HP h a b Ha Hb. rewrite pairsum_seq by congruence. rewrite Ha. rewrite <- (Rsum_perm _ _ (Permutation_map _ HP)). rewrite Rsum_concat. apply RS_ext. intros i _. unfold part_ix. rewrite pairsum_map. reflexivity.
Qed.
Lemma part_in n iavas i j : partition n iavas -> In j (nth i iavas []) -> (j < n)%nat.
Proof.
  intros HP Hj. assert (H : In j (concat iavas)). { destruct (Nat.lt_ge_cases i (length iavas)) as [Hi|Hi]; [apply in_concat; exists (nth i iavas []); split; auto; apply nth_In; auto|rewrite nth_overflow in Hj by auto; destruct Hj]. }
  apply (Permutation_in _ HP) in H. apply in_seq in H. lia.
Qed.
Lemma gather_ok iava x : (forall j, In j iava -> (j < length x)%nat) -> gather iava x = Ok (map (fun j => nth j x 0) iava).
Proof. intro H. unfold gather. replace (forallb (fun j => Nat.ltb j (length x)) iava) with true; [reflexivity|]. symmetry. apply forallb_forall. intros j Hj. apply Nat.ltb_lt. auto. Qed.
Lemma scatter1_length {A} (f : list A) j a : length (scatter1 f j a) = length f.
Proof. revert j. induction f as [|b f IH]; intros [|j]; cbn; auto. Qed.
Lemma scatter1_nth {A} (f : list A) j a k d : (j < length f)%nat -> nth k (scatter1 f j a) d = if Nat.eqb k j then a else nth k f d.
Proof.
  revert j k. induction f as [|b f IH]; intros j k Hj; cbn in Hj; [lia|]. destruct j as [|j], k as [|k]; cbn; auto. apply IH. lia.
Qed.
Lemma scatter_ok {A} (d : A) : forall iava v (f : list A), length v = length iava -> NoDup iava -> (forall j, In j iava -> (j < length f)%nat) ->
  exists f', scatter f iava v = Ok f' /\ length f' = length f /\ map (fun j => nth j f' d) iava = v /\ forall k, ~ In k iava -> nth k f' d = nth k f d.
Proof.
  induction iava as [|j iava IH]; intros [|a v] f Hl Hn Hj; try discriminate; cbn [scatter]; [exists f; auto|].
  destruct (Nat.ltb_spec j (length f)) as [Hlt|Hge]; [|specialize (Hj j (or_introl eq_refl)); lia]. inversion Hn as [|? ? Hni Hn']; subst.
  destruct (IH v (scatter1 f j a)) as [f' [E1 [H1 [H2 H3]]]]; [cbn in Hl; lia|auto|intros k Hk; rewrite scatter1_length; apply Hj; right; auto|].
  exists f'. split; [exact E1|]. split; [rewrite H1, scatter1_length; reflexivity|]. split.
  - cbn [map]. f_equal; [|exact H2]. rewrite H3 by auto. rewrite scatter1_nth by auto. rewrite Nat.eqb_refl. reflexivity.
  - intros k Hk. rewrite H3 by (intro; apply Hk; right; auto). rewrite scatter1_nth by auto. destruct (Nat.eqb_spec k j) as [->|]; [exfalso; apply Hk; left; auto|reflexivity].
Qed.
(** the loop over index lists *)
Lemma loop_restr_ok {A S} (m : LOp -> list R -> result A) (acc : S -> list nat -> A -> result S) (Q : nat -> A -> Prop) (Inv : nat -> S -> Prop) n iavas x : partition n iavas -> length x = n ->
  (forall i s a, (i < length iavas)%nat -> Inv i s -> Q i a -> exists s', acc s (nth i iavas []) a = Ok s' /\ Inv (Datatypes.S i) s') ->
  forall ops i r s, skipn i iavas = r -> length ops = length r -> (i + length ops)%nat = length iavas ->
  (forall j op, nth_error ops j = Some op -> exists a, m op (part_ix iavas (i + j) x) = Ok a /\ Q (i + j)%nat a) -> Inv i s ->
  exists s', loop_restr m acc ops r x s = Ok s' /\ Inv (length iavas) s'.
Proof.
  intros HP Hx Hacc. induction ops as [|op ops IH]; intros i r s Hr Hl Hi H HI; destruct r as [|iava r]; try discriminate; cbn [loop_restr].
  - exists s. split; [reflexivity|]. cbn in Hi. replace (length iavas) with i by lia. auto.
  - assert (Hni : nth i iavas [] = iava). { rewrite <- (firstn_skipn i iavas), Hr. rewrite app_nth2; rewrite firstn_length; [|lia]. replace (i - Nat.min i (length iavas))%nat with 0%nat by (cbn in Hi; lia). reflexivity. }
    rewrite gather_ok by (intros j Hj; rewrite Hx; apply (part_in n iavas i j HP); rewrite Hni; auto). cbn [bind].
    destruct (H 0%nat op eq_refl) as [a [E1 H1]]. rewrite Nat.add_0_r in E1, H1. unfold part_ix in E1. rewrite Hni in E1. rewrite E1. cbn [bind].
    destruct (Hacc i s a) as [s' [E2 HI']]; [cbn in Hi; lia|auto|auto|]. rewrite Hni in E2. rewrite E2. cbn [bind].
    apply (IH (Datatypes.S i)); auto.
    + replace (Datatypes.S i) with (i + 1)%nat by lia. rewrite skipn_add, Hr. reflexivity.
    + cbn in Hi. lia.
    + intros j o Ho. destruct (H (Datatypes.S j) o Ho) as [b Hb]. exists b. replace (Datatypes.S i + j)%nat with (i + Datatypes.S j)%nat by lia. exact Hb.
Qed.

Lemma check_pos {A} tau (k : result A) : 0 < tau -> check_tau tau k = k.
Proof. intro H. unfold check_tau. destruct (Rleb_spec tau 0) as [[? _]|[_ ->]]; [lra|reflexivity]. Qed.
Lemma init_nn ops nn : nn <> [] -> vstack_init ops (Some nn) None = Ok (VStk ops (Sizes nn) (nsum nn) (existsb l_hasgrad ops)).
Proof. destruct nn; [contradiction|reflexivity]. Qed.
Lemma nth_error_nth_d {A} (l : list A) i a d : nth_error l i = Some a -> nth i l d = a.
Proof. revert i. induction l as [|b l IH]; intros [|i] H; cbn in *; try discriminate; [congruence|auto]. Qed.
Lemma nth_error_lt {A} (l : list A) i a : nth_error l i = Some a -> (i < length l)%nat.
Proof. intro H. apply nth_error_Some. congruence. Qed.
Lemma lt_nth_error {A} (l : list A) i : (i < length l)%nat -> exists a, nth_error l i = Some a.
Proof. intro H. destruct (nth_error l i) eqn:E; [eauto|]. apply nth_error_None in E. lia. Qed.

(*! C22_prox : VStack over consecutive parts, one size per operator: whenever every operator's prox is the exact prox of its function on its part, the result has the size of the
   input, its parts are the operators' results, and it is the prox of the sum of the functions of the parts *)
Lemma C22_prox_l : forall ops nn f x tau, nn <> [] -> length ops = length nn -> (forall i op, nth_error ops i = Some op -> limpl_prox op (f i) (nth i nn 0%nat)) -> length x = nsum nn -> 0 < tau ->
  exists v p, vstack_init ops (Some nn) None = Ok v /\ vstack_prox v x tau = Ok p /\ is_lprox (stacked (length nn) f (part_nn nn)) tau x p /\
    (forall i op, nth_error ops i = Some op -> l_prox op (part_nn nn i x) tau = Ok (part_nn nn i p)).
Proof.
  intros ops nn f x tau Hne Hl Hf Hx Ht. rewrite init_nn by auto. eexists.
  destruct (loop_nn_ok (fun op xi => l_prox op xi tau) (fun i a => is_lprox (f i) tau (part_nn nn i x) a /\ exists op, nth_error ops i = Some op /\ l_prox op (part_nn nn i x) tau = Ok a) nn x ops 0) as [l [E1 [E2 H]]].
  { lia. }
  { intros j op Ho. cbn [Nat.add]. destruct (Hf j op Ho (part_nn nn j x) tau) as [p [E1 H1]]; auto; [apply part_nn_length; auto; rewrite <- Hl; apply (nth_error_lt _ _ _ Ho)|]. exists p. split; auto. split; auto. exists op. auto. }
  destruct (part_nn_concat nn l) as [C1 C2]; [congruence| |].
  { intros i a Ha. destruct (H i a Ha) as [[HH _] _]. rewrite HH. apply part_nn_length; auto. rewrite <- Hl, <- E2. apply (nth_error_lt _ _ _ Ha). }
  exists (concat l). split; [reflexivity|]. unfold vstack_prox, size_check. cbn [vs_nx vs_blocks vs_ops]. rewrite check_pos by auto. rewrite Hx, Nat.eqb_refl, E1. cbn [bind].
  destruct (Nat.eqb_spec (length l) 0) as [El|El]; [destruct nn; [contradiction|cbn in Hl; lia]|]. split; [reflexivity|]. split.
  - apply (stacked_prox (nsum nn) (length nn) (part_nn nn)); auto.
    + intros h a b Ha Hb. apply part_nn_sum; auto.
    + intros a b i Ha Hb Hi. rewrite !part_nn_length by auto. reflexivity.
    + intros i Hi. destruct (lt_nth_error l i) as [a Ha]; [lia|]. rewrite (C2 i a Ha). apply (H i a Ha).
  - intros i op Ho. destruct (lt_nth_error l i) as [a Ha]; [rewrite E2; apply (nth_error_lt _ _ _ Ho)|]. rewrite (C2 i a Ha). destruct (H i a Ha) as [_ [op' [Ho' Ep]]]. cbn [Nat.add] in Ho', Ep. replace op with op' by congruence. exact Ep.
Qed.
(*! C22_call : when all operators' calls return numbers the call of the stack returns the sum of the values on the parts *)
Lemma C22_call_l : forall ops nn f x, nn <> [] -> length ops = length nn -> (forall i op, nth_error ops i = Some op -> limpl_num op (f i) (nth i nn 0%nat)) -> length x = nsum nn ->
  exists v, vstack_init ops (Some nn) None = Ok v /\ vstack_call v x = Ok (lval (stacked (length nn) f (part_nn nn)) x).
Proof.
  intros ops nn f x Hne Hl Hf Hx. rewrite init_nn by auto. eexists. split; [reflexivity|].
  destruct (loop_nn_ok l_call (fun i a => a = VNum (lval (f i) (part_nn nn i x))) nn x ops 0) as [l [E1 [E2 H]]].
  { lia. }
  { intros j op Ho. cbn [Nat.add]. eexists. split; [apply (Hf j op Ho); apply part_nn_length; auto; rewrite <- Hl; apply (nth_error_lt _ _ _ Ho)|reflexivity]. }
  unfold vstack_call, size_check. cbn [vs_nx vs_blocks vs_ops]. rewrite Hx, Nat.eqb_refl, E1. cbn [bind lval stacked]. f_equal. rewrite <- Hl, <- E2. clear - H. cbn [Nat.add] in H.
  assert (G : forall l c (F : nat -> R), (forall j a, nth_error l j = Some a -> a = VNum (F j)) -> fold_left (fun f a => f + as_num a) l c = c + RS (length l) F).
  { clear. induction l as [|a l IH]; intros c F H; cbn [fold_left length]; [cbn; lra|]. rewrite RS_shift. rewrite (IH _ (fun j => F (S j))) by (intros j b Hb; apply (H (S j) b Hb)). rewrite (H 0%nat a eq_refl). cbn [as_num]. ring. }
  rewrite (G l 0 (fun i => lval (f i) (part_nn nn i x)) H). ring.
Qed.
(*! C22_grad : when every operator's grad is the gradient of its function on its part, grad of the stack is the gradient of the sum *)
Lemma C22_grad_l : forall ops nn f x, nn <> [] -> length ops = length nn -> (forall i op, nth_error ops i = Some op -> limpl_grad op (f i) (nth i nn 0%nat)) -> length x = nsum nn ->
  exists v g, vstack_init ops (Some nn) None = Ok v /\ vstack_grad v x = Ok (map Some g) /\ is_lgrad (lval (stacked (length nn) f (part_nn nn))) x g.
Proof.
  intros ops nn f x Hne Hl Hf Hx. rewrite init_nn by auto. eexists.
  destruct (loop_nn_ok l_grad (fun i a => exists g, a = Some g /\ is_lgrad (lval (f i)) (part_nn nn i x) g) nn x ops 0) as [l [E1 [E2 H]]].
  { lia. }
  { intros j op Ho. cbn [Nat.add]. destruct (Hf j op Ho (part_nn nn j x)) as [g [Eg Hg]]; [apply part_nn_length; auto; rewrite <- Hl; apply (nth_error_lt _ _ _ Ho)|]. exists (Some g). split; auto. exists g. auto. }
  cbn [Nat.add] in H. set (gs := map (fun o => match o with Some g => g | None => [] end) l).
  assert (Hgs : forall i a, nth_error gs i = Some a -> is_lgrad (lval (f i)) (part_nn nn i x) a /\ (i < length nn)%nat).
  { intros i a Ha. unfold gs in Ha. rewrite nth_error_map in Ha. destruct (nth_error l i) as [o|] eqn:Eo; [|discriminate]. cbn in Ha. injection Ha as <-. destruct (H i o Eo) as [g [-> Hg]]. split; auto. rewrite <- Hl, <- E2. apply (nth_error_lt _ _ _ Eo). }
  destruct (part_nn_concat nn gs) as [C1 C2]; [unfold gs; rewrite map_length; congruence| |].
  { intros i a Ha. destruct (Hgs i a Ha) as [[HH _] Hi]. rewrite HH. apply part_nn_length; auto. }
  exists (concat gs). split; [reflexivity|]. unfold vstack_grad, size_check. cbn [vs_nx vs_blocks vs_ops]. rewrite Hx, Nat.eqb_refl, E1. cbn [bind].
  destruct (Nat.eqb_spec (length l) 0) as [El|El]; [destruct nn; [contradiction|cbn in Hl; lia]|]. split.
  - f_equal. rewrite concat_map. f_equal. unfold gs. rewrite map_map. apply map_ext_in. intros o Ho. apply In_nth_error in Ho as [i Ho]. destruct (H i o Ho) as [g [-> _]]. reflexivity.
  - apply (stacked_grad (nsum nn) (length nn) (part_nn nn)); auto.
    + intros h a b Ha Hb. apply part_nn_sum; auto.
    + intros a b i Ha Hb Hi. rewrite !part_nn_length by auto. reflexivity.
    + intros i Hi. destruct (lt_nth_error gs i) as [a Ha]; [unfold gs; rewrite map_length; lia|]. rewrite (C2 i a Ha). apply (Hgs i a Ha).
Qed.

Lemma NoDup_app_l {A} (l l' : list A) : NoDup (l ++ l') -> NoDup l.
Proof. induction l as [|a l IH]; cbn; intro H; [constructor|]. inversion H; subst. constructor; [intro; apply H2, in_or_app; auto|auto]. Qed.
Lemma NoDup_app_r {A} (l l' : list A) : NoDup (l ++ l') -> NoDup l'.
Proof. induction l as [|a l IH]; cbn; intro H; auto. inversion H; auto. Qed.
Lemma part_nodup n iavas i : partition n iavas -> NoDup (nth i iavas []).
Proof.
  intro HP. assert (HN : NoDup (concat iavas)) by (apply (Permutation_NoDup (Permutation_sym HP)), seq_NoDup). clear HP. revert i. induction iavas as [|l iavas IH]; intro i; [destruct i; constructor|].
  cbn [concat] in HN. apply NoDup_app_l in HN as H1. apply NoDup_app_r in HN as H2. destruct i; cbn; auto.
Qed.
Lemma part_disjoint n iavas i k j : partition n iavas -> (i < k)%nat -> In j (nth i iavas []) -> ~ In j (nth k iavas []).
Proof.
  intro HP. assert (HN : NoDup (concat iavas)) by (apply (Permutation_NoDup (Permutation_sym HP)), seq_NoDup). clear HP. revert i k. induction iavas as [|l iavas IH]; intros i k Hik Hi Hk; [destruct i; destruct Hi|].
  cbn [concat] in HN. destruct k as [|k]; [lia|]. cbn [nth] in Hk. destruct i as [|i].
  - cbn [nth] in Hi. assert (Hc : In j (concat iavas)). { destruct (Nat.lt_ge_cases k (length iavas)) as [Hlt|Hge]; [apply in_concat; exists (nth k iavas []); split; auto; apply nth_In; auto|rewrite nth_overflow in Hk by auto; destruct Hk]. }
    clear - HN Hi Hc. induction l as [|a l IH]; [destruct Hi|]. cbn in HN. inversion HN as [|? ? Hn HN']; subst. destruct Hi as [->|Hi]; [apply Hn, in_or_app; auto|auto].
  - apply NoDup_app_r in HN. apply (IH HN i k); auto. lia.
Qed.
(*! C22_restr : VStack with index lists that use every index exactly once: same statement, the parts being the indexed entries *)
Lemma C22_restr_l : forall ops iavas f x tau, let n := nsum (map (@length nat) iavas) in partition n iavas -> length ops = length iavas ->
  (forall i op, nth_error ops i = Some op -> limpl_prox op (f i) (length (nth i iavas []))) -> length x = n -> 0 < tau ->
  exists v p, vstack_init ops None (Some iavas) = Ok v /\ vstack_prox v x tau = Ok p /\ is_lprox (stacked (length iavas) f (part_ix iavas)) tau x p /\
    (forall i op, nth_error ops i = Some op -> l_prox op (part_ix iavas i x) tau = Ok (part_ix iavas i p)).
Proof.
  intros ops iavas f x tau n HP Hl Hf Hx Ht. eexists.
  set (Q := fun i a => is_lprox (f i) tau (part_ix iavas i x) a /\ exists op, nth_error ops i = Some op /\ l_prox op (part_ix iavas i x) tau = Ok a).
  set (Inv := fun k (s : list R) => length s = n /\ forall i, (i < k)%nat -> Q i (part_ix iavas i s)).
  destruct (loop_restr_ok (fun op xi => l_prox op xi tau) (fun f iava a => scatter f iava a) Q Inv n iavas x HP Hx) with (ops := ops) (i := 0%nat) (r := iavas) (s := repeat 0 (length x)) as [p [E1 [Hp HI]]]; auto.
  - intros i s a Hi [Hs HI] [Ha Ho]. destruct (scatter_ok 0 (nth i iavas []) a s) as [s' [E1 [H1 [H2 H3]]]].
    + destruct Ha as [-> _]. unfold part_ix. apply map_length.
    + apply (part_nodup n); auto.
    + intros j Hj. rewrite Hs. apply (part_in n iavas i j HP Hj).
    + exists s'. split; auto. split; [congruence|]. intros k Hk. destruct (Nat.eq_dec k i) as [->|Hne].
      * unfold part_ix at 1. rewrite H2. split; auto.
      * assert (EP : part_ix iavas k s' = part_ix iavas k s). { unfold part_ix. apply map_ext_in. intros j Hj. apply H3. apply (part_disjoint n iavas k i j HP); [lia|auto]. }
        rewrite EP. apply HI. lia.
  - intros j op Ho. cbn [Nat.add]. destruct (Hf j op Ho (part_ix iavas j x) tau) as [a [Ea Ha]]; auto; [unfold part_ix; apply map_length|]. exists a. split; auto. split; auto. exists op. auto.
  - split; [rewrite repeat_length; auto|intros; lia].
  - exists p. split; [reflexivity|]. unfold vstack_prox, size_check. cbn [vs_nx vs_blocks vs_ops]. rewrite check_pos by auto. rewrite Hx. fold n. rewrite Nat.eqb_refl. split; [rewrite <- Hx; exact E1|]. split.
    + apply (stacked_prox n (length iavas) (part_ix iavas)); auto.
      * apply part_ix_sum; auto.
      * intros a b i _ _ _. unfold part_ix. rewrite !map_length. reflexivity.
      * intros i Hi. apply (HI i Hi).
    + intros i op Ho. destruct (HI i) as [_ [op' [Ho' Ep]]]; [rewrite <- Hl; apply (nth_error_lt _ _ _ Ho)|]. replace op with op' by congruence. exact Ep.
Qed.

(*! C22_restr_call : with index lists that use every index exactly once, and calls that return numbers, the call of the stack returns the sum of the values on the indexed entries *)
Lemma C22_restr_call_l : forall ops iavas f x, let n := nsum (map (@length nat) iavas) in partition n iavas -> length ops = length iavas ->
  (forall i op, nth_error ops i = Some op -> limpl_num op (f i) (length (nth i iavas []))) -> length x = n ->
  exists v, vstack_init ops None (Some iavas) = Ok v /\ vstack_call v x = Ok (lval (stacked (length iavas) f (part_ix iavas)) x).
Proof.
  intros ops iavas f x n HP Hl Hf Hx. eexists. split; [reflexivity|].
  destruct (loop_restr_ok l_call (fun f _ a => Ok (f + as_num a)) (fun i a => a = VNum (lval (f i) (part_ix iavas i x))) (fun k s => s = RS k (fun i => lval (f i) (part_ix iavas i x))) n iavas x HP Hx)
    with (ops := ops) (i := 0%nat) (r := iavas) (s := 0) as [s [E1 E2]]; auto.
  - intros i s a _ -> ->. eexists. split; [reflexivity|]. reflexivity.
  - intros j op Ho. cbn [Nat.add]. eexists. split; [apply (Hf j op Ho); unfold part_ix; apply map_length|reflexivity].
  - unfold vstack_call, size_check. cbn [vs_nx vs_blocks vs_ops]. rewrite Hx. fold n. rewrite Nat.eqb_refl, E1, E2. reflexivity.
Qed.
Lemma scatter1_map {A B} (h : A -> B) f j a : scatter1 (map h f) j (h a) = map h (scatter1 f j a).
Proof. revert j. induction f as [|b f IH]; intros [|j]; cbn; auto. rewrite IH. reflexivity. Qed.
Lemma scatter_map {A B} (h : A -> B) : forall iava v f f', scatter f iava v = Ok f' -> scatter (map h f) iava (map h v) = Ok (map h f').
Proof.
  induction iava as [|j iava IH]; intros [|a v] f f' H; cbn [scatter map] in *; try discriminate; [injection H as <-; reflexivity|].
  rewrite map_length. revert H. destruct (Nat.ltb j (length f)); intro H; [|discriminate]. rewrite scatter1_map. apply IH. exact H.
Qed.
(*! C22_restr_grad : with index lists that use every index exactly once, and gradients that are those of the functions, grad of the stack is the gradient of the sum *)
Lemma C22_restr_grad_l : forall ops iavas f x, let n := nsum (map (@length nat) iavas) in partition n iavas -> length ops = length iavas ->
  (forall i op, nth_error ops i = Some op -> limpl_grad op (f i) (length (nth i iavas []))) -> length x = n ->
  exists v g, vstack_init ops None (Some iavas) = Ok v /\ vstack_grad v x = Ok (map Some g) /\ is_lgrad (lval (stacked (length iavas) f (part_ix iavas))) x g.
Proof.
  intros ops iavas f x n HP Hl Hf Hx. eexists.
  set (Q := fun i (a : option (list R)) => exists g, a = Some g /\ is_lgrad (lval (f i)) (part_ix iavas i x) g).
  set (Inv := fun k (s : list (option R)) => exists g, s = map Some g /\ length g = n /\ forall i, (i < k)%nat -> is_lgrad (lval (f i)) (part_ix iavas i x) (part_ix iavas i g)).
  destruct (loop_restr_ok l_grad (fun f iava o => match o with Some g => scatter f iava (map Some g) | None => scatter f iava (map (fun _ => None) iava) end) Q Inv n iavas x HP Hx)
    with (ops := ops) (i := 0%nat) (r := iavas) (s := repeat (Some 0) (length x)) as [s [E1 [g [-> [Hg HI]]]]]; auto.
  - intros i s a Hi [g [-> [Hg HI]]] [a' [-> Ha]]. destruct (scatter_ok 0 (nth i iavas []) a' g) as [s' [E1 [H1 [H2 H3]]]].
    + destruct Ha as [-> _]. unfold part_ix. apply map_length.
    + apply (part_nodup n); auto.
    + intros j Hj. rewrite Hg. apply (part_in n iavas i j HP Hj).
    + exists (map Some s'). split; [apply scatter_map; exact E1|]. exists s'. split; [reflexivity|]. split; [congruence|]. intros k Hk. destruct (Nat.eq_dec k i) as [->|Hne].
      * unfold part_ix at 2. rewrite H2. exact Ha.
      * assert (EP : part_ix iavas k s' = part_ix iavas k g). { unfold part_ix. apply map_ext_in. intros j Hj. apply H3. apply (part_disjoint n iavas k i j HP); [lia|auto]. }
        rewrite EP. apply HI. lia.
  - intros j op Ho. cbn [Nat.add]. destruct (Hf j op Ho (part_ix iavas j x)) as [a [Ea Ha]]; [unfold part_ix; apply map_length|]. exists (Some a). split; auto. exists a. auto.
  - exists (repeat 0 (length x)). split; [|split; [rewrite repeat_length; auto|intros; lia]]. clear. induction (length x) as [|k IH]; cbn; [reflexivity|]. rewrite IH. reflexivity.
  - exists g. split; [reflexivity|]. unfold vstack_grad, size_check. cbn [vs_nx vs_blocks vs_ops]. rewrite Hx. fold n. rewrite Nat.eqb_refl. split; [rewrite <- Hx; exact E1|].
    apply (stacked_grad n (length iavas) (part_ix iavas)); auto.
    + apply part_ix_sum; auto.
    + intros a b i _ _ _. unfold part_ix. rewrite !map_length. reflexivity.
Qed.
(*! C22_errors : neither nn nor restr, and every input of another size than the sum of the parts, raise ValueError; so does tau <= 0; fewer sizes than operators raise IndexError *)
Lemma C22_errors_l : forall ops,
  vstack_init ops None None = Err ValueError /\
  (forall nn restr v x tau, vstack_init ops nn restr = Ok v -> length x <> (match nn, restr with Some l, _ => nsum l | None, Some r => nsum (map (@length nat) r) | None, None => 0%nat end) ->
     vstack_call v x = Err ValueError /\ vstack_prox v x tau = Err ValueError /\ vstack_grad v x = Err ValueError) /\
  (forall v x tau, tau <= 0 -> vstack_prox v x tau = Err ValueError) /\
  (forall nn v x tau f, vstack_init ops (Some nn) None = Ok v -> (length nn < length ops)%nat -> length x = nsum nn -> 0 < tau ->
     (forall i op, nth_error ops i = Some op -> limpl_prox op (f i) (nth i nn 0%nat)) -> vstack_prox v x tau = Err IndexError).
Proof.
  intro ops. split; [reflexivity|]. split; [|split].
  - intros nn restr v x tau Hv Hx.
    assert (EN : vs_nx v = match nn, restr with Some l, _ => nsum l | None, Some r => nsum (map (@length nat) r) | None, None => 0%nat end).
    { destruct nn as [[|n0 nn]|]; [discriminate|injection Hv as <-; reflexivity|]. destruct restr; [injection Hv as <-; reflexivity|discriminate]. }
    unfold vstack_call, vstack_prox, vstack_grad, size_check, check_tau. rewrite <- EN in Hx. destruct (Nat.eqb_spec (length x) (vs_nx v)); [contradiction|]. destruct (Rleb tau 0); auto.
  - intros v x tau Ht. unfold vstack_prox, check_tau. destruct (Rleb_spec tau 0) as [[_ ->]|[? _]]; [reflexivity|lra].
  - intros nn v x tau f Hv Hlen Hx Ht Hf. assert (Hne : nn <> []) by (intros ->; discriminate). rewrite init_nn in Hv by auto. assert (Ev : v = VStk ops (Sizes nn) (nsum nn) (existsb l_hasgrad ops)) by congruence. rewrite Ev.
    unfold vstack_prox, size_check. cbn [vs_nx vs_blocks vs_ops]. rewrite check_pos by auto. rewrite Hx, Nat.eqb_refl.
    assert (G : forall os i, (i <= length nn)%nat -> (length nn < i + length os)%nat -> (forall j op, nth_error os j = Some op -> limpl_prox op (f (i + j)%nat) (nth (i + j) nn 0%nat)) ->
       loop_nn (fun op xi => l_prox op xi tau) os nn x i = Err IndexError).
    { induction os as [|o os IH]; intros i Hi Hl H; cbn in Hl; [lia|]. cbn [loop_nn]. destruct (Nat.eq_dec i (length nn)) as [->|Hnq].
      - unfold block_nn. rewrite Nat.ltb_irrefl. reflexivity.
      - rewrite block_part by lia. cbn [bind]. destruct (H 0%nat o eq_refl (part_nn nn i x) tau) as [p [Ep _]]; auto; [rewrite Nat.add_0_r; apply part_nn_length; auto; lia|]. rewrite Ep. cbn [bind].
        rewrite IH; [reflexivity|lia|lia|]. intros j op Ho. replace (S i + j)%nat with (i + S j)%nat by lia. apply H. exact Ho. }
    rewrite (G ops 0%nat); [reflexivity|lia|lia|]. intros j op Ho. apply Hf. exact Ho.
Qed.

Definition zfun : lfun := mkLfun (fun _ => True) (fun _ => 0).
Lemma dist2_self x : dist2 x x = 0.
Proof. unfold dist2, pairsum. induction x as [|a x IH]; cbn; [reflexivity|]. rewrite IH. ring. Qed.
Lemma lzero_prox n : limpl_prox lzero zfun n.
Proof.
  intros x tau _ Ht. exists x. split; [reflexivity|]. split; [reflexivity|]. split; [exact I|]. intros y _ _. cbn [lval zfun]. rewrite dist2_self.
  assert (0 < / (2 * tau)) by (apply Rinv_0_lt_compat; lra). pose proof (dist2_nonneg y x). nra.
Qed.
Lemma lnonneg_prox n : limpl_prox lnonneg nonneg_fun n.
Proof.
  intros x tau _ Ht. exists (map (Rmax 0) x). split; [reflexivity|]. split; [apply map_length|]. split; [intros a Ha; apply in_map_iff in Ha as [b [<- _]]; apply Rmax_l|].
  intros y Hy Hd. cbn [lval nonneg_fun ldom] in *. apply Rplus_le_compat_l, Rmult_le_compat_l; [left; apply Rinv_0_lt_compat; lra|].
  unfold dist2, pairsum. revert y Hy Hd. induction x as [|a x IH]; intros [|b y] Hy Hd; try discriminate; cbn; [lra|].
  specialize (IH y ltac:(cbn in Hy; lia) (fun c Hc => Hd c (or_intror Hc))). specialize (Hd b (or_introl eq_refl)). apply Rplus_le_compat; [|exact IH]. unfold Rmax. destruct (Rle_dec 0 a) as [Ha|Ha]; [pose proof (Rle_0_sqr (b - a)); unfold Rsqr in *; lra|apply Rnot_le_lt in Ha; nra].
Qed.

(*! C22_indicator_call_refuted : with indicator operators the call is not the value of the sum: a satisfied constraint adds 1 and a violated one adds 0, so an infeasible array
   gets a smaller, finite value: with the indicator of the non-negative numbers, 1 is valued 1 and -1 is valued 0 *)
Lemma C22_indicator_call_refuted_l : exists v, vstack_init [lnonneg] (Some [1%nat]) None = Ok v /\ limpl_prox lnonneg nonneg_fun 1 /\
  ldom nonneg_fun [1] /\ lval nonneg_fun [1] = 0 /\ vstack_call v [1] = Ok 1 /\ ~ ldom nonneg_fun [-1] /\ vstack_call v [-1] = Ok 0.
Proof.
  eexists. split; [reflexivity|]. split; [apply lnonneg_prox|]. split; [intros a [<-|[]]; lra|]. split; [reflexivity|]. split; [|split].
  - unfold vstack_call, size_check. cbn [vs_nx vs_blocks vs_ops nsum fold_right length Nat.eqb Nat.add loop_nn block_nn Nat.ltb Nat.leb slice xin firstn skipn Nat.sub bind l_call lnonneg forallb andb fold_left].
    destruct (Rleb_spec 0 1) as [[_ ->]|[? _]]; [|lra]. cbn [andb as_num]. f_equal. ring.
  - intro H. specialize (H (-1) (or_introl eq_refl)). lra.
  - unfold vstack_call, size_check. cbn [vs_nx vs_blocks vs_ops nsum fold_right length Nat.eqb Nat.add loop_nn block_nn Nat.ltb Nat.leb slice xin firstn skipn Nat.sub bind l_call lnonneg forallb andb fold_left].
    destruct (Rleb_spec 0 (-1)) as [[? _]|[_ ->]]; [lra|]. cbn [andb as_num]. f_equal. ring.
Qed.
(*! C22_hasgrad_refuted : the stack announces a gradient as soon as one operator has one, but for the others grad is that of the Moreau envelope: stacking the zero function (with
   gradient) and the absolute value (without), at (a, 1/2) it is (0, 1/2) while the gradient of the sum there is (0, 1) *)
Lemma C22_hasgrad_refuted_l : forall a, let h x := Rabs (nth 1 x 0) in
  exists v, vstack_init [lzero; labs] (Some [1%nat; 1%nat]) None = Ok v /\ vs_hasgrad v = true /\
    (forall b c, vstack_call v [b; c] = Ok (h [b; c])) /\
    vstack_grad v [a; 1 / 2] = Ok [Some 0; Some (1 / 2)] /\ is_lgrad h [a; 1 / 2] [0; 1] /\ ~ is_lgrad h [a; 1 / 2] [0; 1 / 2].
Proof.
  intros a h. eexists. split; [reflexivity|]. split; [reflexivity|]. split; [|split; [|split]].
  - intros b c. cbn. f_equal. unfold h. cbn. ring.
  - cbn. do 4 f_equal. unfold lsoft, Rmax, Rmin. destruct (Rle_dec 1 (1 / 2)); [lra|]. destruct (Rle_dec (- (1)) (1 / 2)); lra.
  - split; [reflexivity|]. intros eps He. exists (1 / 2). split; [lra|]. intros [|y0 [|y1 [|]]] Hy Hd; try discriminate. unfold h, dist2, ldot, pairsum in *. cbn [map2 Rsum nth] in *.
    assert (H1 : 0 <= (y0 - a) * (y0 - a)) by apply Rle_0_sqr. assert (H2 : (y1 - 1 / 2) * (y1 - 1 / 2) < 1 / 4) by lra. assert (0 <= y1) by nra.
    rewrite (Rabs_right y1), (Rabs_right (1 / 2)) by lra. replace (y1 - 1 / 2 - (0 * y0 + (1 * y1 + 0) - (0 * a + (1 * (1 / 2) + 0)))) with 0 by ring. rewrite Rabs_R0. apply Rmult_le_pos; [lra|apply sqrt_pos].
  - intros [_ H]. destruct (H (1 / 4) ltac:(lra)) as [d [Hd HG]]. set (t := Rmin 1 (d / 2)). assert (Ht : 0 < t <= 1 /\ t <= d / 2) by (unfold t, Rmin; destruct (Rle_dec 1 (d / 2)); lra).
    specialize (HG [a; 1 / 2 + t] eq_refl). unfold h, dist2, ldot, pairsum in HG. cbn [map2 Rsum nth] in HG.
    replace ((a - a) * (a - a) + ((1 / 2 + t - 1 / 2) * (1 / 2 + t - 1 / 2) + 0)) with (t * t) in HG by ring. specialize (HG ltac:(nra)).
    rewrite sqrt_square in HG by lra. rewrite (Rabs_right (1 / 2 + t)), (Rabs_right (1 / 2)) in HG by lra.
    replace (1 / 2 + t - 1 / 2 - (0 * a + (1 / 2 * (1 / 2 + t) + 0) - (0 * a + (1 / 2 * (1 / 2) + 0)))) with (t / 2) in HG by field. rewrite Rabs_right in HG by lra. lra.
Qed.
(*! C22_extra_sizes_refuted : more sizes than operators are accepted: the call ignores the last part and prox returns a shorter array, for every array and operator *)
Lemma C22_extra_sizes_refuted_l : forall n1 n2 x tau, length x = (n1 + n2)%nat -> 0 < tau ->
  exists v, vstack_init [lzero] (Some [n1; n2]) None = Ok v /\ vstack_prox v x tau = Ok (firstn n1 x) /\ length (firstn n1 x) = n1.
Proof.
  intros n1 n2 x tau Hx Ht. eexists. split; [reflexivity|]. unfold vstack_prox, size_check. cbn [vs_nx vs_blocks vs_ops]. rewrite check_pos by auto.
  replace (nsum [n1; n2]) with (n1 + n2)%nat by (cbn; lia). rewrite Hx, Nat.eqb_refl. cbn [loop_nn]. rewrite block_part by (cbn; lia). cbn [bind l_prox lzero loop_nn length Nat.eqb concat]. rewrite app_nil_r. unfold part_nn. cbn [nth firstn nsum fold_right skipn].
  split; [reflexivity|]. rewrite firstn_length. lia.
Qed.
(*! C22_overlap_refuted : index lists that repeat an index and miss another are accepted when their sizes add up: the missed entry is set to zero, whatever the operators are
   meant to do there; here both operators have the identity as prox *)
Lemma C22_overlap_refuted_l : forall a b tau, 0 < tau -> exists v, vstack_init [lzero; lzero] None (Some [[0%nat]; [0%nat]]) = Ok v /\ vstack_prox v [a; b] tau = Ok [a; 0].
Proof. intros a b tau Ht. eexists. split; [reflexivity|]. unfold vstack_prox, size_check. rewrite check_pos by auto. reflexivity. Qed.
(*!ex C22_restr_example : the zero function on the entries [2,0] and on the entry [1]: calls and gradients meet the hypotheses of C22_restr_call and C22_restr_grad *)
Lemma C22_restr_example_l : (forall i op, nth_error [lzero; lzero] i = Some op -> limpl_num op zfun (length (nth i [[2%nat; 0%nat]; [1%nat]] [])) /\ limpl_grad op zfun (length (nth i [[2%nat; 0%nat]; [1%nat]] []))) /\
  exists v, vstack_init [lzero; lzero] None (Some [[2%nat; 0%nat]; [1%nat]]) = Ok v /\ vstack_grad v [1; -2; -3] = Ok (map Some [0; 0; 0]).
Proof.
  assert (H : forall n, limpl_num lzero zfun n /\ limpl_grad lzero zfun n).
  { intro n. split; [intros x _; reflexivity|]. intros x Hx. eexists. split; [reflexivity|]. split; [apply map_length|].
    intros eps He. exists 1. split; [lra|]. intros y Hy _. cbn [lval zfun].
    assert (Z : forall z u : list R, ldot (map (fun _ => 0) z) u = 0).
    { unfold ldot, pairsum. induction z as [|a z IH]; intros [|b u]; cbn; auto. rewrite IH. ring. }
    rewrite !Z. replace (0 - 0 - (0 - 0)) with 0 by ring. rewrite Rabs_R0. apply Rmult_le_pos; [lra|apply sqrt_pos]. }
  split; [intros i op Ho; destruct i as [|[|i]]; cbn in Ho; [injection Ho as <-; apply H|injection Ho as <-; apply H|destruct i; discriminate]|].
  eexists. split; reflexivity.
Qed.
(*!ex C22_example : the zero function on two entries and the non-negativity constraint on one, consecutively and through the index lists [2,0] and [1] *)
Lemma C22_example_l : (forall i op, nth_error [lzero; lnonneg] i = Some op -> limpl_prox op (match i with O => zfun | _ => nonneg_fun end) (nth i [2%nat; 1%nat] 0%nat)) /\
  partition 3 [[2%nat; 0%nat]; [1%nat]] /\
  (exists v, vstack_init [lzero; lnonneg] (Some [2%nat; 1%nat]) None = Ok v /\ vstack_prox v [1; -2; -3] 1 = Ok [1; -2; Rmax 0 (-3)]) /\
  (exists v, vstack_init [lzero; lnonneg] None (Some [[2%nat; 0%nat]; [1%nat]]) = Ok v /\ vstack_prox v [1; -2; -3] 1 = Ok [1; Rmax 0 (-2); -3]).
Proof.
  split; [|split; [|split]].
  - intros i op Ho. destruct i as [|[|i]]; cbn in Ho; [injection Ho as <-; apply lzero_prox|injection Ho as <-; apply lnonneg_prox|destruct i; discriminate].
  - unfold partition. cbn. apply perm_trans with [0%nat; 2%nat; 1%nat]; [apply perm_swap|apply perm_skip, perm_swap].
  - eexists. split; [reflexivity|]. unfold vstack_prox. rewrite check_pos by lra. reflexivity.
  - eexists. split; [reflexivity|]. unfold vstack_prox. rewrite check_pos by lra. reflexivity.
Qed.
