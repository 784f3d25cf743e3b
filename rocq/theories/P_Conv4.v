(** * L2Convolve on multi-dimensional arrays *)
From Coq Require Import Psatz.
From Verif Require Import Base Space Spec SpecOps ConvexFacts VSum MatFacts Sep Cplx S_Conv DFT M_Conv M_L2 P_L2 Smooth P_Conv P_Conv2 P_Conv3.
Open Scope R_scope.

Section ND.
Context (o n i N : nat) (sigma : R) (h b : nat -> nat -> list C).
Notation sz := (o * (n * i))%nat.

Definition fib (x : CArr sz) (a c : nat) : CArr n := ct n (fun k => cg x ((a * n + k) * i + c)%nat).
Lemma entries_fib x a c : entries (fib x a c) = fibre n i (entries x) a c.
Proof. reflexivity. Qed.
Lemma cg_fib x a c k : cg (fib x a c) k = line n i x a c k.
Proof. unfold line. destruct (Nat.ltb_spec k n); [unfold fib; rewrite cg_ct by auto; reflexivity|apply cg_out; auto]. Qed.
Lemma nd_fun_fib x : nd_conv_fun o n i N sigma h b x = RS o (fun a => RS i (fun c => conv_fun N sigma (h a c) (b a c) (fib x a c))).
Proof.
  unfold nd_conv_fun, conv_fun. rewrite <- RS_scal. apply RS_ext. intros a _. rewrite <- RS_scal. apply RS_ext. intros c _. f_equal. apply RS_ext. intros j _.
  do 2 f_equal. apply cconv_ext. intros m _. symmetry. apply cg_fib.
Qed.
Lemma nd_inner (x y : CArr sz) : << x, y >> = RS o (fun a => RS i (fun c => << fib x a c, fib y a c >>)).
Proof.
  rewrite carr_inner, csum_fst, RS_flat. apply RS_ext. intros a Ha. rewrite RS_flat, RS_swap. apply RS_ext. intros c Hc. rewrite carr_inner, csum_fst.
  apply RS_ext. intros k Hk. rewrite !cg_fib. unfold line. destruct (Nat.ltb_spec k n); [|lia].
  replace (a * (n * i) + (k * i + c))%nat with ((a * n + k) * i + c)%nat by ring. reflexivity.
Qed.
Lemma nd_norm2 (x : CArr sz) : norm2 x = RS o (fun a => RS i (fun c => norm2 (fib x a c))).
Proof. apply nd_inner. Qed.
Lemma fib_add x y a c : fib (x [+] y) a c = fib x a c [+] fib y a c.
Proof. apply carr_ext. intros k Hk. rewrite cg_add, !cg_fib. unfold line. destruct (Nat.ltb_spec k n); [|lia]. apply cg_add. Qed.
Lemma fib_sub x y a c : fib (x [-] y) a c = fib x a c [-] fib y a c.
Proof. apply carr_ext. intros k Hk. rewrite cg_sub, !cg_fib. unfold line. destruct (Nat.ltb_spec k n); [|lia]. apply cg_sub. Qed.

Definition asm (f : nat -> nat -> list C) : CArr sz :=
  exist _ (unfibre o n i f) (eq_trans (map_length _ _) (seq_length _ _)).
Lemma fib_asm f a c k : (a < o)%nat -> (c < i)%nat -> (k < n)%nat -> cg (fib (asm f) a c) k = nth k (f a c) C0.
Proof.
  intros Ha Hc Hk. rewrite cg_fib. unfold line. destruct (Nat.ltb_spec k n); [|lia]. set (t := ((a * n + k) * i + c)%nat).
  assert (Ht : (t < sz)%nat).
  { unfold t. assert (a * n + k < o * n)%nat by (apply Nat.lt_le_trans with (a * n + n)%nat; [lia|]; replace (a * n + n)%nat with (S a * n)%nat by lia; apply Nat.mul_le_mono_r; lia).
    apply Nat.lt_le_trans with ((a * n + k) * i + i)%nat; [lia|]. replace ((a * n + k) * i + i)%nat with (S (a * n + k) * i)%nat by lia.
    rewrite Nat.mul_assoc. apply Nat.mul_le_mono_r. lia. }
  unfold asm, cg, entries. cbn [proj1_sig]. unfold unfibre. rewrite nth_tab by exact Ht.
  assert (E1 : (t / i = a * n + k)%nat) by (unfold t; rewrite Nat.div_add_l by lia; rewrite Nat.div_small by auto; lia).
  assert (E2 : (t mod i = c)%nat) by (unfold t; rewrite Nat.add_comm, Nat.mod_add by lia; apply Nat.mod_small; auto).
  rewrite (Nat.mul_comm n i), <- Nat.div_div, E1, E2 by lia.
  rewrite Nat.div_add_l, (Nat.div_small k n), Nat.add_0_r by lia.
  rewrite Nat.add_comm, Nat.mod_add, Nat.mod_small by lia. reflexivity.
Qed.
Lemma fib_asm_eq f a c (q : CArr n) : (a < o)%nat -> (c < i)%nat -> (forall k, (k < n)%nat -> nth k (f a c) C0 = cg q k) -> fib (asm f) a c = q.
Proof. intros Ha Hc H. apply carr_ext. intros k Hk. rewrite fib_asm by auto. auto. Qed.

Lemma sum_concat (g : nat -> list C) m : fold_right (fun z s => cabs2 z + s) 0 (concat (map g (seq 0 m))) = RS m (fun a => fold_right (fun z s => cabs2 z + s) 0 (g a)).
Proof.
  assert (Happ : forall u v : list C, fold_right (fun z s => cabs2 z + s) 0 (u ++ v) = fold_right (fun z s => cabs2 z + s) 0 u + fold_right (fun z s => cabs2 z + s) 0 v).
  { induction u as [|z u IH]; intro v; simpl; [ring|]. rewrite IH. ring. }
  induction m as [|m IH]; [reflexivity|]. rewrite seq_S, map_app, concat_app, Happ, IH. simpl. rewrite app_nil_r. reflexivity.
Qed.

Lemma nd_df_grad (x : CArr sz) (g : CArr sz) : (0 < N)%nat -> (forall a c, (a < o)%nat -> (c < i)%nat -> fib g a c = conv_df N sigma (h a c) (b a c) (fib x a c)) ->
  is_grad (nd_conv_fun o n i N sigma h b) x g.
Proof.
  intros HN Hg.
  assert (HL : exists L, 0 <= L /\ forall a c k, (a < o)%nat -> (c < i)%nat -> (k < N)%nat -> cabs2 (FF N (seqc (h a c)) k) <= L).
  { exists (RS o (fun a => RS i (fun c => RS N (fun k => cabs2 (FF N (seqc (h a c)) k))))).
    assert (P0 : forall a c, 0 <= RS N (fun k => cabs2 (FF N (seqc (h a c)) k))) by (intros; apply RS_nonneg; intros; apply cabs2_nonneg).
    assert (P1 : forall a, 0 <= RS i (fun c => RS N (fun k => cabs2 (FF N (seqc (h a c)) k)))) by (intros; apply RS_nonneg; auto).
    split; [apply RS_nonneg; auto|]. intros a c k Ha Hc Hk.
    eapply Rle_trans; [apply (RS_term N (fun k => cabs2 (FF N (seqc (h a c)) k)) k); auto; intro; apply cabs2_nonneg|].
    eapply Rle_trans; [apply (RS_term i (fun c => RS N (fun k => cabs2 (FF N (seqc (h a c)) k))) c); auto|].
    apply (RS_term o (fun a => RS i (fun c => RS N (fun k => cabs2 (FF N (seqc (h a c)) k)))) a); auto. }
  destruct HL as [L [HL0 HL]]. apply (quad_is_grad _ _ _ (Rabs (sigma / 2) * L)). intro d.
  assert (E : nd_conv_fun o n i N sigma h b (x [+] d) - nd_conv_fun o n i N sigma h b x - << g, d >> =
    sigma / 2 * RS o (fun a => RS i (fun c => norm2 (convop N (h a c) n (fib d a c))))).
  { rewrite !nd_fun_fib, nd_inner, <- !RS_sub, <- RS_scal. apply RS_ext. intros a Ha. rewrite <- !RS_sub, <- RS_scal. apply RS_ext. intros c Hc.
    rewrite fib_add, conv_expand, Hg by auto. ring. }
  rewrite E, Rabs_mult, Rmult_assoc. apply Rmult_le_compat_l; [apply Rabs_pos|].
  rewrite Rabs_pos_eq by (apply RS_nonneg; intros; apply RS_nonneg; intros; apply norm2_nonneg).
  rewrite nd_norm2, <- RS_scal. apply RS_le. intros a Ha. rewrite <- RS_scal. apply RS_le. intros c Hc. apply conv_bound; auto.
Qed.
Lemma nd_prox_lines tau (x p : CArr sz) : (forall a c, (a < o)%nat -> (c < i)%nat -> is_prox (etot (conv_fun N sigma (h a c) (b a c))) tau (fib x a c) (fib p a c)) ->
  is_prox (etot (nd_conv_fun o n i N sigma h b)) tau x p.
Proof.
  intro H. split; [exact I|]. intros z _. cbn [eval etot]. rewrite !nd_fun_fib, !nd_norm2, <- !RS_scal, <- !RS_add. apply RS_le. intros a Ha.
  rewrite <- !RS_scal, <- !RS_add. apply RS_le. intros c Hc. destruct (H a c Ha Hc) as [_ Hp]. specialize (Hp (fib z a c) I). cbn [eval etot] in Hp. rewrite !fib_sub. exact Hp.
Qed.
End ND.

(*! C74_nd : arrays of shape dims: call is the sum over the lines along dir of sigma/2 |h * x - b|^2, with one kernel for all lines
   or one per line; with dims[dir] <= nfft grad is its gradient and with dims[dir] = nfft prox its exact proximal point (in general,
   line by line the cut proximal point of the padded problem); with dims[dir] > nfft prox and grad raise IndexError; an array with
   another number of entries is rejected *)
Lemma C74_nd_l : forall (o n i N : nat) sigma (h b : nat -> nat -> list C), (0 < N)%nat -> 0 <= sigma ->
  (forall x, nd_call o n i h b N sigma (entries x) = Ok (nd_conv_fun o n i N sigma h b x)) /\
  ((n <= N)%nat -> forall x, exists g, nd_grad o n i h b N sigma (entries x) = Ok (entries g) /\ is_grad (nd_conv_fun o n i N sigma h b) x g) /\
  (n = N -> forall x tau, 0 < tau -> exists p, nd_prox o n i h b N sigma (entries x) tau = Ok (entries p) /\
     is_prox (etot (nd_conv_fun o n i N sigma h b)) tau x p) /\
  ((n <= N)%nat -> forall (x : CArr (o * (n * i))) tau, 0 < tau -> exists p : CArr (o * (n * i)), nd_prox o n i h b N sigma (entries x) tau = Ok (entries p) /\
     forall a c, (a < o)%nat -> (c < i)%nat -> exists xl pl : CArr N, is_prox (etot (conv_fun N sigma (h a c) (b a c))) tau xl pl /\
       (forall k, cg xl k = line n i x a c k) /\ (forall k, (k < n)%nat -> line n i p a c k = cg pl k)) /\
  ((N < n)%nat -> forall (x : CArr (o * (n * i))) tau, 0 < tau -> nd_prox o n i h b N sigma (entries x) tau = Err IndexError /\ nd_grad o n i h b N sigma (entries x) = Err IndexError) /\
  (forall x tau, length x <> (o * (n * i))%nat -> nd_call o n i h b N sigma x = Err ValueError /\ nd_prox o n i h b N sigma x tau = Err ValueError /\ nd_grad o n i h b N sigma x = Err ValueError).
Proof.
  intros o n i N sigma h b HN Hs.
  assert (HN0 : Nat.eqb N 0 = false) by (apply Nat.eqb_neq; lia).
  assert (Hlen : forall x : CArr (o * (n * i)), negb (Nat.eqb (length (entries x)) (o * (n * i))) = false) by (intro x; rewrite entries_length, Nat.eqb_refl; reflexivity).
  assert (Hpx : forall (x : CArr (o * (n * i))) tau, 0 < tau -> nd_prox o n i h b N sigma (entries x) tau =
    if Nat.ltb N n then Err IndexError else Ok (entries (asm o n i (fun a c => prox_list N sigma (h a c) (b a c) (fibre n i (entries x) a c) tau)))).
  { intros x tau Ht. unfold nd_prox. destruct (Rleb_spec tau 0) as [[? _]|[_ ->]]; [lra|]. rewrite Hlen, HN0. reflexivity. }
  assert (Hgr : forall (x : CArr (o * (n * i))), nd_grad o n i h b N sigma (entries x) =
    if Nat.ltb N n then Err IndexError else Ok (entries (asm o n i (fun a c => grad_list N sigma (h a c) (b a c) (fibre n i (entries x) a c))))).
  { intro x. unfold nd_grad. rewrite Hlen, HN0. reflexivity. }
  split; [|split; [|split; [|split; [|split]]]].
  - intro x. unfold nd_call. rewrite Hlen, HN0.
    cbv zeta beta. f_equal.
    rewrite sqrt_sqrt by apply sum_abs2_nonneg. unfold nd_conv_fun. f_equal.
    rewrite (sum_concat (fun a => concat (map (fun c => ifft (map2 csub (fft N (b a c)) (map2 cmul (fft N (h a c)) (fft N (fibre n i (entries x) a c))))) (seq 0 i))) o).
    apply RS_ext. intros a Ha.
    change (fun c => ifft _) with (fun c => res_list N (h a c) (b a c) (fibre n i (entries x) a c)).
    rewrite (sum_concat (fun c => res_list N (h a c) (b a c) (fibre n i (entries x) a c)) i). apply RS_ext. intros c Hc. rewrite res_norm. apply RS_ext. intros j Hj. do 2 f_equal.
    apply cconv_ext. intros k Hk. apply (cg_fib o n i x a c k).
  - intros Hn x. rewrite Hgr. destruct (Nat.ltb_spec N n); [lia|]. eexists. split; [reflexivity|]. apply nd_df_grad; auto. intros a c Ha Hc. apply fib_asm_eq; auto. intros k Hk.
    rewrite <- entries_fib. unfold cg. rewrite <- conv_df_list by auto. rewrite nth_firstn_lt by auto. reflexivity.
  - intros Hn x tau Ht. rewrite Hpx by auto. destruct (Nat.ltb_spec N n); [lia|]. eexists. split; [reflexivity|]. apply nd_prox_lines. intros a c Ha Hc. subst n.
    destruct (prox_list_spec N sigma (h a c) (b a c) tau (fib o N i x a c) Hs Ht) as [q [Eq Hq]].
    rewrite (fib_asm_eq o N i _ a c q); auto. intros k Hk. unfold cg. rewrite Eq. reflexivity.
  - intros Hn x tau Ht. rewrite Hpx by auto. destruct (Nat.ltb_spec N n); [lia|]. eexists. split; [reflexivity|]. intros a c Ha Hc.
    destruct (prox_list_spec N sigma (h a c) (b a c) tau (padc N (fib o n i x a c)) Hs Ht) as [q [Eq Hq]]. exists (padc N (fib o n i x a c)), q. split; auto. split.
    + intro k. rewrite <- cg_fib. destruct (Nat.lt_ge_cases k N); [apply cg_ct; auto|rewrite !cg_out by lia; reflexivity].
    + intros k Hk. rewrite <- cg_fib, fib_asm by auto. unfold cg. rewrite Eq, <- prox_list_pad by auto. reflexivity.
  - intros Hn x tau Ht. rewrite Hpx, Hgr by auto. destruct (Nat.ltb_spec N n); [auto|lia].
  - intros x tau Hl. unfold nd_call, nd_prox, nd_grad. apply Nat.eqb_neq in Hl. rewrite Hl. simpl. destruct (Rleb tau 0); auto.
Qed.

(*!ex C74_example : x = (1, 3) smoothed with h = (1, 1) of period 2 against b = (2, 2): the value is 4; the proximal point with
   tau = 1 is (1, 3) - (4/5)(1, 1) *)
Lemma C74_example_l : let h := [1; 1] in let b := [2; 2] in let x := nl [1; 3] : Vec 2 in
  rconv_fun 2 1 h b x = 4 /\ is_prox (etot (rconv_fun 2 1 h b)) 1 x (nl [1 / 5; 11 / 5] : Vec 2).
Proof.
  intros h b x.
  assert (F : forall z : Vec 2, rconv_fun 2 1 h b z = (get z 0 + get z 1 - 2) * (get z 0 + get z 1 - 2)).
  { intro z. unfold rconv_fun. change (fun m => nth m (proj1_sig z) 0) with (get z). unfold rconv, h, b. cbn [RS Nat.add]. change (1 mod 2)%nat with 1%nat. change (0 mod 2)%nat with 0%nat. change (2 mod 2)%nat with 0%nat. cbn [Nat.eqb nth].
    field. }
  split; [rewrite F; change (get x 0) with 1; change (get x 1) with 3; ring|].
  split; [exact I|]. intros z _. cbn [eval etot]. rewrite !F, !vec_norm2. cbn [RS]. rewrite !get_sub by lia.
  change (get (nl [1 / 5; 11 / 5] : Vec 2) 0) with (1 / 5). change (get (nl [1 / 5; 11 / 5] : Vec 2) 1) with (11 / 5). change (get x 0) with 1. change (get x 1) with 3.
  pose proof (Rle_0_sqr (get z 0 - 1 / 5 + (get z 1 - 11 / 5))). pose proof (Rle_0_sqr (get z 0 - 1 / 5)). pose proof (Rle_0_sqr (get z 1 - 11 / 5)). unfold Rsqr in *.
  replace (/ (2 * 1)) with (/ 2) by field. lra.
Qed.
