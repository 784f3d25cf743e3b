(** * L2Convolve: padding changes the proximal operator; real arrays *)
From Coq Require Import Psatz.
From Verif Require Import Base Space Spec SpecOps ConvexFacts VSum MatFacts Sep Cplx S_Conv DFT M_Conv M_L2 P_L2 Smooth P_Conv P_Conv2.
Open Scope R_scope.

Lemma conv_fun_convex N sigma h b n : 0 <= sigma -> convex (etot (conv_fun N sigma h b (n:=n))).
Proof.
  intros Hs x y t _ _ Ht. split; [exact I|]. cbn [eval etot]. rewrite !conv_fun_op.
  pose proof (l2_fun_convex (WithOp (convop N h n) false (cdata N b)) None sigma 0 Hs) as Hc. destruct (Hc x y t I I Ht) as [_ Hc']. exact Hc'.
Qed.

(*! C74_padding_refuted : nfft larger than len(x), as a linear convolution needs: h = (1,1), nfft = 2, b = 0, sigma = tau = 1 and
   x = (1) give 3/5, while the proximal point of the function call evaluates is 1/3 *)
Lemma C74_padding_refuted_l : let h := [(1, 0); (1, 0)] : list C in let x := nl [(1, 0)] : CArr 1 in
  exists c, conv_init h [] 2 1 = Ok c /\ conv_prox c (entries x) 1 = Ok [(3 / 5, 0)] /\
    is_prox (etot (conv_fun 2 1 h [])) 1 x (nl [(1 / 3, 0)] : CArr 1) /\
    ~ is_prox (etot (conv_fun 2 1 h [])) 1 x (nl [(3 / 5, 0)] : CArr 1).
Proof.
  intros h x. destruct (C74_prox_padded_l h [] 2 1 1 x 1 ltac:(lia) ltac:(lia) ltac:(lra) ltac:(lra)) as [c [xN [p [Ec [Hx [Hp Er]]]]]].
  assert (F2 : forall z : CArr 2, conv_fun 2 1 h [] z = cabs2 (cadd (cg z 0) (cg z 1))).
  { intro z. unfold conv_fun, cconv, seqc, h. cbn [csum RS Nat.add]. change (1 mod 2)%nat with 1%nat. change (0 mod 2)%nat with 0%nat. change (2 mod 2)%nat with 0%nat. cbn [Nat.eqb nth].
    destruct (cg z 0) as [a0 b0], (cg z 1) as [a1 b1]. unfold cabs2, csub, cadd, cmul, C0; simpl. field. }
  assert (F1 : forall z : CArr 1, conv_fun 2 1 h [] z = cabs2 (cg z 0)).
  { intro z. unfold conv_fun, cconv, seqc, h. cbn [csum RS Nat.add]. change (1 mod 2)%nat with 1%nat. change (0 mod 2)%nat with 0%nat. change (2 mod 2)%nat with 0%nat. cbn [Nat.eqb nth].
    rewrite (cg_out 1 z 1) by lia. destruct (cg z 0) as [a0 b0]. unfold cabs2, csub, cadd, cmul, C0; simpl. field. }
  set (q := nl [(3 / 5, 0); (-2 / 5, 0)] : CArr 2).
  assert (Hq : is_prox (etot (conv_fun 2 1 h [])) 1 xN q).
  { split; [exact I|]. intros z _. cbn [eval etot]. rewrite !F2, !carr_norm2. cbn [RS]. rewrite !cg_sub, !Hx.
    change (cg q 0) with (3 / 5, 0). change (cg q 1) with (-2 / 5, 0). change (cg x 0) with (1, 0). change (cg x 1) with C0.
    destruct (cg z 0) as [a0 b0], (cg z 1) as [a1 b1]. unfold cabs2, csub, cadd, C0; simpl.
    replace (/ (2 * 1)) with (/ 2) by field. pose proof (Rle_0_sqr (a0 - 3 / 5 + (a1 + 2 / 5))). pose proof (Rle_0_sqr (a0 - 3 / 5)). pose proof (Rle_0_sqr (a1 + 2 / 5)).
    pose proof (Rle_0_sqr (b0 + b1)). pose proof (Rle_0_sqr b0). pose proof (Rle_0_sqr b1). unfold Rsqr in *. lra. }
  assert (p = q) as -> by (apply (prox_unique (etot (conv_fun 2 1 h [] (n:=2))) 1 xN); [apply (conv_fun_convex 2 1 h [] 2); lra|lra|exact Hp|exact Hq]).
  assert (Hv : forall w z : CArr 1, eval (etot (conv_fun 2 1 h [] (n:=1))) z + / (2 * 1) * norm2 (z [-] x) =
     cabs2 (cg z 0) + / 2 * cabs2 (csub (cg z 0) (1, 0))).
  { intros w z. cbn [eval etot]. rewrite F1, carr_norm2. cbn [RS]. rewrite cg_sub. change (cg x 0) with (1, 0). field. }
  exists c. split; auto. split; [rewrite Er; reflexivity|]. split.
  - split; [exact I|]. intros z _. rewrite !(Hv x). change (cg (nl [(1 / 3, 0)] : CArr 1) 0) with (1 / 3, 0).
    destruct (cg z 0) as [a b]. unfold cabs2, csub; simpl. pose proof (Rle_0_sqr (a - 1 / 3)). pose proof (Rle_0_sqr b). unfold Rsqr in *. lra.
  - intros [_ H]. specialize (H (nl [(1 / 3, 0)] : CArr 1) I). rewrite !(Hv x) in H.
    change (cg (nl [(1 / 3, 0)] : CArr 1) 0) with (1 / 3, 0) in H. change (cg (nl [(3 / 5, 0)] : CArr 1) 0) with (3 / 5, 0) in H.
    unfold cabs2, csub in H; simpl in H. lra.
Qed.

(** ** real arrays *)
Definition emb {n} (x : Vec n) : CArr n := ct n (fun i => cr (get x i)).
Definition rpart {n} (z : CArr n) : Vec n := vtab n (fun i => fst (cg z i)).
Definition ipart {n} (z : CArr n) : Vec n := vtab n (fun i => snd (cg z i)).
Lemma get_out n (x : Vec n) i : (n <= i)%nat -> get x i = 0.
Proof. intro H. apply nth_overflow. rewrite lst_length. auto. Qed.
Lemma cg_emb n (x : Vec n) i : cg (emb x) i = cr (get x i).
Proof.
  destruct (Nat.lt_ge_cases i n) as [H|H]; [apply cg_ct; auto|]. rewrite cg_out, get_out by auto. reflexivity.
Qed.
Lemma get_rpart n (z : CArr n) i : get (rpart z) i = fst (cg z i).
Proof. destruct (Nat.lt_ge_cases i n) as [H|H]; [apply get_vtab; auto|]. rewrite cg_out, get_out by auto. reflexivity. Qed.
Lemma get_ipart n (z : CArr n) i : get (ipart z) i = snd (cg z i).
Proof. destruct (Nat.lt_ge_cases i n) as [H|H]; [apply get_vtab; auto|]. rewrite cg_out, get_out by auto. reflexivity. Qed.
Lemma entries_emb n (x : Vec n) : entries (emb x) = map cr (lst x).
Proof.
  apply (list_ext n); [apply entries_length|rewrite map_length, lst_length; auto|]. intros i Hi.
  rewrite (map_nth_lt cr _ i 0 C0) by (rewrite lst_length; auto). apply cg_emb.
Qed.
Lemma seqc_cr l i : seqc (map cr l) i = cr (nth i l 0).
Proof. unfold seqc. change C0 with (cr 0). apply map_nth. Qed.
Lemma cconv_real N (h : list R) x j : cconv N (seqc (map cr h)) x j =
  (rconv N (fun l => nth l h 0) (fun m => fst (x m)) j, rconv N (fun l => nth l h 0) (fun m => snd (x m)) j).
Proof.
  apply c_ext; unfold cconv, rconv; simpl.
  - rewrite csum_fst. apply RS_ext. intros l _. rewrite csum_fst. apply RS_ext. intros m _. rewrite seqc_cr. destruct (Nat.eqb _ _); unfold cmul, cr; simpl; ring.
  - rewrite csum_snd. apply RS_ext. intros l _. rewrite csum_snd. apply RS_ext. intros m _. rewrite seqc_cr. destruct (Nat.eqb _ _); unfold cmul, cr; simpl; ring.
Qed.
Lemma rconv_ext N h x y j : (forall m, (m < N)%nat -> x m = y m) -> rconv N h x j = rconv N h y j.
Proof. intro H. apply RS_ext. intros l _. apply RS_ext. intros m Hm. rewrite H; auto. Qed.
Lemma rconv_zero N h j : rconv N h (fun _ => 0) j = 0.
Proof.
  unfold rconv. rewrite (RS_ext N _ (fun _ => 0)); [apply RS_zero|]. intros l _. rewrite (RS_ext N _ (fun _ => 0)); [apply RS_zero|].
  intros m _. destruct (Nat.eqb _ _); ring.
Qed.
(** the value splits into that of the real part and a term in the imaginary part *)
Lemma conv_fun_split N sigma (h b : list R) n (z : CArr n) : conv_fun N sigma (map cr h) (map cr b) z =
  rconv_fun N sigma h b (rpart z) + sigma / 2 * RS N (fun j => rconv N (fun l => nth l h 0) (get (ipart z)) j * rconv N (fun l => nth l h 0) (get (ipart z)) j).
Proof.
  unfold conv_fun, rconv_fun. rewrite <- Rmult_plus_distr_l, <- RS_add. f_equal. apply RS_ext. intros j _.
  rewrite cconv_real, seqc_cr.
  rewrite (rconv_ext N _ (get (ipart z)) (fun m => snd (cg z m))) by (intros; apply get_ipart).
  rewrite (rconv_ext N _ (fun m => nth m (proj1_sig (rpart z)) 0) (fun m => fst (cg z m))) by (intros; apply get_rpart).
  unfold cabs2, csub, cr; simpl. ring.
Qed.
Lemma conv_fun_emb N sigma (h b : list R) n (x : Vec n) : conv_fun N sigma (map cr h) (map cr b) (emb x) = rconv_fun N sigma h b x.
Proof.
  rewrite conv_fun_split. replace (rpart (emb x)) with x.
  - rewrite (RS_ext N _ (fun _ => 0)); [rewrite RS_zero; ring|]. intros j _.
    rewrite (rconv_ext N _ _ (fun _ => 0)), rconv_zero; [ring|]. intros. rewrite get_ipart, cg_emb. reflexivity.
  - apply vec_ext. intros i Hi. rewrite get_rpart, cg_emb. reflexivity.
Qed.
Lemma norm2_split n (z : CArr n) (x : Vec n) : norm2 (z [-] emb x) = norm2 (rpart z [-] x) + norm2 (ipart z).
Proof.
  rewrite carr_norm2, !vec_norm2, <- RS_add. apply RS_ext. intros i Hi. rewrite cg_sub, get_sub, get_rpart, get_ipart, cg_emb by auto. unfold cabs2, csub, cr; simpl. ring.
Qed.
Lemma emb_sub n (x y : Vec n) : norm2 (emb x [-] emb y) = norm2 (x [-] y).
Proof.
  rewrite carr_norm2, vec_norm2. apply RS_ext. intros i Hi. rewrite cg_sub, get_sub, !cg_emb by auto. unfold cabs2, csub, cr; simpl. ring.
Qed.
Lemma real_prox N sigma (h b : list R) n tau (x : Vec n) (q : CArr n) : 0 <= sigma -> 0 < tau ->
  is_prox (etot (conv_fun N sigma (map cr h) (map cr b))) tau (emb x) q ->
  q = emb (rpart q) /\ is_prox (etot (rconv_fun N sigma h b)) tau x (rpart q).
Proof.
  intros Hs Ht [_ Hq]. cbn [eval etot] in Hq. assert (Hi : 0 < / (2 * tau)) by (apply Rinv_0_lt_compat; lra).
  pose proof (Hq (emb (rpart q)) I) as H1. rewrite conv_fun_emb, conv_fun_split, norm2_split, emb_sub in H1.
  assert (Hn : 0 <= sigma / 2 * RS N (fun j => rconv N (fun l => nth l h 0) (get (ipart q)) j * rconv N (fun l => nth l h 0) (get (ipart q)) j)).
  { apply Rmult_le_pos; [lra|]. apply RS_nonneg. intros. apply Rle_0_sqr. }
  assert (H2 : / (2 * tau) * norm2 (ipart q) <= 0) by lra.
  assert (H3 : norm2 (ipart q) = 0).
  { pose proof (norm2_nonneg (ipart q)). destruct (Req_dec (norm2 (ipart q)) 0); auto. assert (0 < / (2 * tau) * norm2 (ipart q)) by (apply Rmult_lt_0_compat; lra). lra. }
  assert (E : q = emb (rpart q)).
  { apply carr_ext. intros i Hi'. rewrite cg_emb, get_rpart. apply c_ext; [reflexivity|]. simpl. rewrite <- get_ipart.
    rewrite vec_norm2 in H3. pose proof (RS_zero_all n _ (fun j _ => Rle_0_sqr (get (ipart q) j)) H3 i Hi') as H4. unfold Rsqr in H4.
    destruct (Rmult_integral _ _ H4); auto. }
  split; auto. split; [exact I|]. intros z _. cbn [eval etot]. specialize (Hq (emb z) I). rewrite conv_fun_emb, emb_sub in Hq.
  rewrite E in Hq at 1 2. rewrite conv_fun_emb, emb_sub in Hq. exact Hq.
Qed.

(*! C74_real : real kernel, data and array (numpy returns complex arrays): call, gradient and proximal point have zero imaginary
   parts and are those of sigma/2 |h * x - b|^2 over real arrays *)
Lemma C74_real_l : forall (h b : list R) (N : nat) sigma, (0 < N)%nat -> 0 <= sigma -> exists c, conv_init (map cr h) (map cr b) N sigma = Ok c /\
  (forall n (x : Vec n), conv_call c (map cr (lst x)) = rconv_fun N sigma h b x) /\
  (forall n (x : Vec n), (n <= N)%nat -> exists g : Vec n, conv_grad c (map cr (lst x)) = Ok (map cr (lst g)) /\ is_grad (rconv_fun N sigma h b) x g) /\
  (forall (x : Vec N) tau, 0 < tau -> exists p : Vec N, conv_prox c (map cr (lst x)) tau = Ok (map cr (lst p)) /\ is_prox (etot (rconv_fun N sigma h b)) tau x p).
Proof.
  intros h b N sigma HN Hs. destruct (C74_call_l (map cr h) (map cr b) N sigma) as [_ H]. destruct (H HN) as [c [Ec Hc]]. exists c. split; auto.
  split; [|split].
  - intros n x. rewrite <- entries_emb, Hc. apply conv_fun_emb.
  - intros n x Hn. destruct (C74_grad_l (map cr h) (map cr b) N sigma HN) as [c' [Ec' [Hg _]]]. rewrite Ec in Ec'. injection Ec' as <-.
    exists (rpart (conv_df N sigma (map cr h) (map cr b) (emb x))). rewrite <- !entries_emb.
    assert (Eg : emb (rpart (conv_df N sigma (map cr h) (map cr b) (emb x))) = conv_df N sigma (map cr h) (map cr b) (emb x)).
    { apply carr_ext. intros i Hi. rewrite cg_emb, get_rpart. apply c_ext; [reflexivity|]. simpl. symmetry.
      unfold cg. rewrite <- conv_df_list, nth_firstn_lt, nth_grad by (auto; lia). unfold cscal; simpl. unfold ccorr. rewrite csum_snd, (RS_ext N _ (fun _ => 0)); [rewrite RS_zero; ring|].
      intros l _. rewrite csum_snd, (RS_ext N _ (fun _ => 0)); [apply RS_zero|]. intros j _. rewrite !seqc_cr, cconv_real.
      change (seqc (entries (emb x))) with (cg (emb x)).
      rewrite (rconv_ext N _ (fun m => snd (cg (emb x) m)) (fun _ => 0)) by (intros; rewrite cg_emb; reflexivity). rewrite rconv_zero.
      destruct (Nat.eqb _ _); unfold cmul, cconj, csub, cr; simpl; ring. }
    split.
    + rewrite Eg. destruct (Hg n Hn) as [df [Hd _]]. destruct (Hd (emb x)) as [H1 H2]. rewrite H1. do 2 f_equal. apply (grad_unique _ _ _ _ H2). apply conv_is_grad. auto.
    + pose proof (conv_is_grad N sigma (map cr h) (map cr b) n (emb x) HN) as HG. intros eps He. destruct (HG eps He) as [d [Hd HB]].
      exists d. split; auto. intros u Hu. specialize (HB (emb u)).
      assert (Ea : emb x [+] emb u = emb (x [+] u)).
      { apply carr_ext. intros i Hi. rewrite cg_add, !cg_emb, get_add by auto. apply c_ext; unfold cadd, cr; simpl; ring. }
      assert (En : norm (emb u) = norm u).
      { unfold norm. f_equal. rewrite carr_norm2, vec_norm2. apply RS_ext. intros. rewrite cg_emb. unfold cabs2, cr; simpl; ring. }
      rewrite En, Ea, !conv_fun_emb in HB. specialize (HB Hu).
      replace (<< rpart (conv_df N sigma (map cr h) (map cr b) (emb x)), u >>) with (<< conv_df N sigma (map cr h) (map cr b) (emb x), emb u >>); [exact HB|].
      rewrite carr_inner, csum_fst, vec_inner. apply RS_ext. intros i Hi. rewrite cg_emb, get_rpart. unfold cmul, cconj, cr; simpl. ring.
  - intros x tau Ht. destruct (C74_prox_l (map cr h) (map cr b) N sigma (emb x) tau HN Hs) as [c' [Ec' [_ Hp]]]. rewrite Ec in Ec'. injection Ec' as <-.
    destruct (Hp Ht) as [p [Ep Hpp]]. destruct (real_prox N sigma h b N tau x p Hs Ht Hpp) as [E1 E2]. exists (rpart p). split; auto.
    rewrite <- !entries_emb, <- E1. exact Ep.
Qed.
