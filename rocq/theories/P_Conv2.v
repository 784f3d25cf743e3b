(** * L2Convolve: value, gradient, proximal operator (statements in S_Conv.v) *)
From Coq Require Import Psatz.
From Verif Require Import Base Space Spec SpecOps ConvexFacts VSum MatFacts Cplx S_Conv DFT M_Conv M_L2 P_L2 Smooth P_Conv.
Open Scope R_scope.

(*! C74_call : for every kernel, data, nfft >= 1 and array, of any lengths: call evaluates sigma/2 |h * x - b|^2 with the
   circular convolution of period nfft, the arrays being cut or padded with zeros to nfft samples; nfft = 0 is rejected *)
Lemma C74_call_l : forall (h b : list C) (N : nat) sigma,
  conv_init h b 0 sigma = Err ValueError /\
  ((0 < N)%nat -> exists c, conv_init h b N sigma = Ok c /\
     forall n (x : CArr n), conv_call c (entries x) = conv_fun N sigma h b x).
Proof.
  intros h b N sigma. split; [reflexivity|]. intro HN. unfold conv_init. destruct (Nat.eqb_spec N 0) as [->|_]; [lia|].
  eexists. split; [reflexivity|]. intros n x. unfold conv_call. cbn [cv_N cv_sigma cv_bf cv_hf].
  change (ifft (map2 csub (fft N b) (map2 cmul (fft N h) (fft N (entries x))))) with (res_list N h b (entries x)).
  rewrite sqrt_sqrt by apply sum_abs2_nonneg. rewrite res_norm. reflexivity.
Qed.

(*! C74_linear : when nfft is at least len(h) + len(x) - 1 the circular convolution is the ordinary (linear) one *)
Lemma C74_linear_l : forall (h x : list C) (N : nat), (length h + length x <= N + 1)%nat ->
  forall j, (j < N)%nat -> cconv N (seqc h) (seqc x) j = lconv (seqc h) (seqc x) j.
Proof.
  intros h x N HN j Hj.
  assert (Ho : forall l i, (length l <= i)%nat -> seqc l i = C0) by (intros; apply nth_overflow; auto).
  assert (E : cconv N (seqc h) (seqc x) j =
    csum N (fun l => if Nat.leb l j then cmul (seqc h l) (seqc x (j - l)%nat) else C0)).
  { apply csum_ext. intros l Hl.
    destruct (Nat.leb_spec l j) as [L|L].
    - rewrite <- (csum_delta N (j - l) (fun m => cmul (seqc h l) (seqc x m))) by lia. apply csum_ext. intros m Hm.
      destruct (Nat.eqb_spec (j - l) m) as [E|E].
      + subst m. replace (l + (j - l))%nat with j by lia. rewrite Nat.mod_small, Nat.eqb_refl by auto. reflexivity.
      + destruct (Nat.eqb_spec ((l + m) mod N) j) as [E2|E2]; auto.
        destruct (Nat.lt_ge_cases (l + m) N) as [B|B]; [rewrite Nat.mod_small in E2 by auto; lia|].
        destruct (Nat.lt_ge_cases l (length h)) as [B1|B1]; [rewrite (Ho x m) by lia|rewrite (Ho h l) by lia]; ring.
    - rewrite (csum_ext N _ (fun _ => C0)); [apply csum_zero|]. intros m Hm.
      destruct (Nat.eqb_spec ((l + m) mod N) j) as [E2|E2]; auto.
      destruct (Nat.lt_ge_cases (l + m) N) as [B|B]; [rewrite Nat.mod_small in E2 by auto; lia|].
      destruct (Nat.lt_ge_cases l (length h)) as [B1|B1]; [rewrite (Ho x m) by lia|rewrite (Ho h l) by lia]; ring. }
  rewrite E. unfold lconv. rewrite (csum_pad (S j) N) by (try lia; intros i Hi; destruct (Nat.leb_spec i j); auto; lia).
  apply csum_ext. intros i Hi. destruct (Nat.leb_spec i j); auto; lia.
Qed.

(** ** gradient *)
Lemma parseval N g : (0 < N)%nat -> RS N (fun j => cabs2 (FI N g j)) = / INR N * RS N (fun k => cabs2 (g k)).
Proof.
  intro HN.
  assert (A : forall u, csum N (fun j => cmul (cconj (FI N g j)) (u j)) = cmul (cr (/ INR N)) (csum N (fun k => cmul (cconj (g k)) (FF N u k)))).
  { intro u. rewrite (csum_ext N _ (fun j => cmul (cr (/ INR N)) (csum N (fun k => cmul (cmul (cconj (g k)) (u j)) (cis (- (2 * PI * (INR j * INR k) / INR N))))))).
    - rewrite csum_mul_l, csum_swap. f_equal. apply csum_ext. intros k _. unfold FF. rewrite <- csum_mul_l. apply csum_ext. intros. ring.
    - intros j _. unfold FI. rewrite cscal_mul, cconj_mul, csum_conj. replace (cconj (cr (/ INR N))) with (cr (/ INR N)) by (apply c_ext; unfold cconj, cr; simpl; ring).
      transitivity (cmul (cr (/ INR N)) (cmul (csum N (fun i => cconj (cmul (g i) (cis (2 * PI * (INR j * INR i) / INR N))))) (u j))); [ring|].
      f_equal. rewrite <- csum_mul_r. apply csum_ext. intros k _. rewrite cconj_mul, cconj_cis. ring. }
  specialize (A (FI N g)).
  rewrite (csum_ext N (fun k => cmul (cconj (g k)) (FF N (FI N g) k)) (fun k => cr (cabs2 (g k)))) in A by (intros k Hk; rewrite FF_FI by auto; apply conj_abs2).
  rewrite (csum_ext N (fun j => cmul (cconj (FI N g j)) (FI N g j)) (fun j => cr (cabs2 (FI N g j)))) in A by (intros; apply conj_abs2).
  apply (f_equal fst) in A. unfold cmul at 1 in A. rewrite !csum_fst, !csum_snd in A. simpl in A. rewrite A, RS_zero. ring.
Qed.
Lemma conv_bound N h n L (x : CArr n) : (0 < N)%nat -> (forall k, (k < N)%nat -> cabs2 (FF N (seqc h) k) <= L) ->
  norm2 (convop N h n x) <= L * norm2 x.
Proof.
  intros HN HL. rewrite !carr_norm2.
  assert (HN' : 0 < / INR N) by (apply Rinv_0_lt_compat, lt_0_INR; auto).
  assert (HL0 : 0 <= L) by (pose proof (HL 0%nat HN); pose proof (cabs2_nonneg (FF N (seqc h) 0)); lra).
  rewrite (RS_ext N _ (fun j => cabs2 (FI N (fun k => cmul (FF N (seqc h) k) (FF N (cg x) k)) j))) by (intros; rewrite cg_app, FI_conv by auto; reflexivity).
  rewrite parseval by auto.
  apply Rle_trans with (/ INR N * (L * RS N (fun k => cabs2 (FF N (cg x) k)))).
  - apply Rmult_le_compat_l; [lra|]. rewrite <- RS_scal. apply RS_le. intros k Hk.
    replace (cabs2 (cmul (FF N (seqc h) k) (FF N (cg x) k))) with (cabs2 (FF N (seqc h) k) * cabs2 (FF N (cg x) k)) by (unfold cabs2, cmul; simpl; ring).
    apply Rmult_le_compat_r; [apply cabs2_nonneg|auto].
  - replace (/ INR N * (L * RS N (fun k => cabs2 (FF N (cg x) k)))) with (L * (/ INR N * RS N (fun k => cabs2 (FF N (cg x) k)))) by ring.
    rewrite <- parseval by auto. apply Rmult_le_compat_l; auto.
    rewrite (RS_ext N _ (fun j => cabs2 (cg x j))) by (intros; rewrite FI_FF by auto; reflexivity).
    destruct (Nat.le_ge_cases n N) as [B|B].
    + set (F := fun j => cabs2 (cg x j)).
      assert (HF : forall j, (n <= j)%nat -> F j = 0) by (intros j Hj; unfold F; rewrite cg_out by auto; unfold cabs2; simpl; ring). clearbody F.
      replace N with (n + (N - n))%nat by lia. rewrite RS_split, (RS_ext (N - n) _ (fun _ => 0)), RS_zero; [lra|]. intros. apply HF. lia.
    + set (F := fun j => cabs2 (cg x j)). assert (HF : forall j, 0 <= F j) by (intro; apply cabs2_nonneg). clearbody F.
      replace n with (N + (n - N))%nat by lia. rewrite RS_split. pose proof (RS_nonneg (n - N) (fun j => F (N + j)%nat) (fun i _ => HF _)). lra.
Qed.
Lemma nth_firstn_lt {A} m (l : list A) d j : (j < m)%nat -> nth j (firstn m l) d = nth j l d.
Proof. revert l j. induction m as [|m IH]; intros [|a l] [|j] H; simpl; auto; try lia. apply IH. lia. Qed.
Definition conv_df N sigma h b {n} (x : CArr n) : CArr n := l2_dfun (WithOp (convop N h n) false (cdata N b)) None sigma 0 x.
Lemma conv_df_list N sigma h b n (x : CArr n) : (n <= N)%nat -> firstn n (grad_list N sigma h b (entries x)) = entries (conv_df N sigma h b x).
Proof.
  intro Hn. apply (list_ext n); [rewrite firstn_length, grad_length; lia|apply entries_length|]. intros j Hj.
  rewrite nth_firstn_lt by auto. rewrite nth_grad by lia. change (nth j (entries ?z) C0) with (cg z j).
  unfold conv_df, l2_dfun. rewrite cg_add, cg_scal, cg_adj by auto. destruct (Nat.ltb_spec j N); [|lia].
  replace (cg (vzero : CArr n) j) with C0 by (unfold cg, entries; simpl; rewrite nth_repeat; reflexivity).
  replace (ccorr N (seqc h) (cg (convop N h n x [-] cdata N b)) j) with
    (ccorr N (seqc h) (fun i => csub (cconv N (seqc h) (seqc (entries x)) i) (seqc b i)) j); [ring|].
  apply csum_ext. intros l _. apply csum_ext. intros i Hi. rewrite cg_sub, cg_app by auto. unfold cdata. rewrite cg_ct by auto. reflexivity.
Qed.

Lemma quad_is_grad {E : IPS} (f : E -> R) x g c : (forall h, Rabs (f (x [+] h) - f x - << g, h >>) <= c * norm2 h) -> is_grad f x g.
Proof.
  intros H eps He. set (K := Rabs c + 1). assert (HK : 0 < K) by (unfold K; pose proof (Rabs_pos c); lra).
  exists (eps / K). split; [apply Rdiv_lt_0_compat; auto|]. intros h Hh. eapply Rle_trans; [apply H|].
  pose proof (norm_nonneg h) as Hn. pose proof (norm2_nonneg h).
  apply Rle_trans with (K * (norm h * norm h)); [rewrite norm_sq; apply Rmult_le_compat_r; auto; unfold K; pose proof (Rle_abs c); lra|].
  apply Rle_trans with (K * (eps / K * norm h)).
  - apply Rmult_le_compat_l; [lra|]. apply Rmult_le_compat_r; auto.
  - apply Req_le. field. lra.
Qed.
Lemma RS_term N (F : nat -> R) k : (forall i, 0 <= F i) -> (k < N)%nat -> F k <= RS N F.
Proof.
  intro HF. induction N as [|N IH]; intro Hk; [lia|]. cbn [RS]. pose proof (HF N). pose proof (RS_nonneg N F (fun i _ => HF i)).
  destruct (Nat.eq_dec k N) as [->|]; [lra|]. specialize (IH ltac:(lia)). lra.
Qed.
Lemma FF_bounded N h : exists L, forall k, (k < N)%nat -> cabs2 (FF N (seqc h) k) <= L.
Proof.
  exists (RS N (fun k => cabs2 (FF N (seqc h) k))). intros k Hk. apply (RS_term N (fun k => cabs2 (FF N (seqc h) k))); auto. intro. apply cabs2_nonneg.
Qed.
Lemma conv_expand N sigma h b n (x d : CArr n) :
  conv_fun N sigma h b (x [+] d) = conv_fun N sigma h b x + << conv_df N sigma h b x, d >> + sigma / 2 * norm2 (convop N h n d).
Proof. rewrite !conv_fun_op. exact (l2_expand (WithOp (convop N h n) false (cdata N b)) None sigma 0 x d). Qed.
Lemma conv_is_grad N sigma h b n (x : CArr n) : (0 < N)%nat -> is_grad (conv_fun N sigma h b) x (conv_df N sigma h b x).
Proof.
  intro HN. destruct (FF_bounded N h) as [L HL]. apply (quad_is_grad _ _ _ (Rabs (sigma / 2) * L)). intro d. rewrite conv_expand.
  match goal with |- Rabs ?e <= _ => replace e with (sigma / 2 * norm2 (convop N h n d)) by ring end.
  rewrite Rabs_mult, (Rabs_pos_eq (norm2 _)) by apply norm2_nonneg. rewrite Rmult_assoc. apply Rmult_le_compat_l; [apply Rabs_pos|]. apply conv_bound; auto.
Qed.
Lemma ladj_bound {E F : IPS} (A : linop E F) L : 0 <= L -> (forall x, norm2 (A x) <= L * norm2 x) -> forall x, norm (ladj A (A x)) <= L * norm x.
Proof.
  intros HL H x.
  assert (Hn : forall z, norm (A z) <= sqrt L * norm z).
  { intro z. apply norm_le_of_sq; [apply Rmult_le_pos; [apply sqrt_pos|apply norm_nonneg]|].
    replace (sqrt L * norm z * (sqrt L * norm z)) with (sqrt L * sqrt L * (norm z * norm z)) by ring. rewrite sqrt_sqrt, norm_sq by auto. apply H. }
  set (u := ladj A (A x)). pose proof (norm_nonneg u) as Hu.
  assert (E1 : norm u * norm u <= L * norm x * norm u).
  { rewrite norm_sq. unfold norm2. unfold u at 1. rewrite ladj_spec'. eapply Rle_trans; [apply CS|].
    pose proof (Hn x). pose proof (Hn u). pose proof (norm_nonneg (A x)). pose proof (norm_nonneg (A u)). pose proof (norm_nonneg x). pose proof (sqrt_pos L).
    eapply Rle_trans; [apply Rmult_le_compat; [auto|auto|exact (Hn x)|exact (Hn u)]|].
    replace (sqrt L * norm x * (sqrt L * norm u)) with (sqrt L * sqrt L * (norm x * norm u)) by ring. rewrite sqrt_sqrt by auto. lra. }
  destruct (Req_dec (norm u) 0) as [->|Hne]; [apply Rmult_le_pos; [auto|apply norm_nonneg]|].
  apply (Rmult_le_reg_r (norm u)); lra.
Qed.

(*! C74_grad : for x no longer than nfft, grad is the gradient of the function call evaluates, and for sigma >= 0 that function
   is convex with a sigma*max|F(h)|^2 Lipschitz gradient; for longer x grad raises IndexError *)
Lemma C74_grad_l : forall (h b : list C) (N : nat) sigma, (0 < N)%nat -> exists c, conv_init h b N sigma = Ok c /\
  (forall n, (n <= N)%nat -> exists df : CArr n -> CArr n,
     (forall x, conv_grad c (entries x) = Ok (entries (df x)) /\ is_grad (conv_fun N sigma h b) x (df x)) /\
     forall L, 0 <= sigma -> (forall k, (k < N)%nat -> cabs2 (FF N (seqc h) k) <= L) ->
       L_smooth (conv_fun N sigma h b (n:=n)) df (sigma * L) /\ convex (etot (conv_fun N sigma h b (n:=n)))) /\
  (forall n (x : CArr n), (N < n)%nat -> conv_grad c (entries x) = Err IndexError).
Proof.
  intros h b N sigma HN. unfold conv_init. destruct (Nat.eqb_spec N 0) as [->|_]; [lia|]. eexists. split; [reflexivity|].
  assert (Hg : forall n (x : CArr n), conv_grad {| cv_N := N; cv_sigma := sigma; cv_bf := fft N b; cv_hf := fft N h;
      cv_hbf := map2 (fun h0 b0 : C => cmul (cconj h0) b0) (fft N h) (fft N b); cv_h2f := map cabs2 (fft N h) |} (entries x) =
      if Nat.ltb N n then Err IndexError else Ok (firstn n (grad_list N sigma h b (entries x)))).
  { intros n x. unfold conv_grad. cbn [cv_N cv_sigma cv_bf cv_hf].
    change (map (cscal sigma) (ifft (map2 (fun h0 r => cmul (cconj h0) r) (fft N h) (map2 csub (map2 cmul (fft N h) (fft N (entries x))) (fft N b))))) with (grad_list N sigma h b (entries x)).
    rewrite grad_length, entries_length. reflexivity. }
  split.
  - intros n Hn. exists (conv_df N sigma h b). split.
    + intro x. split; [|apply conv_is_grad; auto]. rewrite Hg. destruct (Nat.ltb_spec N n); [lia|]. rewrite conv_df_list by auto. reflexivity.
    + intros L Hs HL. assert (HL0 : 0 <= L) by (pose proof (HL 0%nat HN); pose proof (cabs2_nonneg (FF N (seqc h) 0)); lra). split; [split|].
      * intro x. apply conv_is_grad; auto.
      * intros x y. unfold conv_df, l2_dfun.
        replace (sigma [*] ladj (convop N h n) (convop N h n x [-] cdata N b) [+] vzero [-] (sigma [*] ladj (convop N h n) (convop N h n y [-] cdata N b) [+] vzero))
          with (sigma [*] ladj (convop N h n) (convop N h n (x [-] y))).
        -- rewrite norm_scal, (Rabs_pos_eq sigma), Rmult_assoc by auto. apply Rmult_le_compat_l; auto. apply ladj_bound; auto. intro z. apply conv_bound; auto.
        -- rewrite lapp_sub, !ladj_sub. vring.
      * intros x y t _ _ Ht. split; [exact I|]. cbn [eval etot]. rewrite !conv_fun_op.
        pose proof (l2_fun_convex (WithOp (convop N h n) false (cdata N b)) None sigma 0 Hs) as Hc. destruct (Hc x y t I I Ht) as [_ Hc']. exact Hc'.
  - intros n x Hn. rewrite Hg. destruct (Nat.ltb_spec N n); [reflexivity|lia].
Qed.

(** x padded with zeros to N samples (N at least its length) *)
Definition padc (N : nat) {n} (x : CArr n) : CArr N := ct N (cg x).
Lemma prox_list_pad N sigma h b n (x : CArr n) tau : (n <= N)%nat -> prox_list N sigma h b (entries x) tau = prox_list N sigma h b (entries (padc N x)) tau.
Proof.
  intro Hn. unfold prox_list. do 3 f_equal. unfold fft. apply map_ext. intro k. apply csum_ext. intros j Hj. f_equal. unfold padc. rewrite entries_ct, nth_tab by auto. reflexivity.
Qed.
Lemma conv_prox_eq h b N sigma n (x : CArr n) tau : (0 < N)%nat -> 0 < tau -> exists c, conv_init h b N sigma = Ok c /\
  conv_prox c (entries x) tau = Ok (firstn n (prox_list N sigma h b (entries x) tau)).
Proof.
  intros HN Ht. unfold conv_init. destruct (Nat.eqb_spec N 0) as [->|_]; [lia|]. eexists. split; [reflexivity|].
  unfold conv_prox. destruct (Rleb_spec tau 0) as [[? _]|[_ ->]]; [lra|]. rewrite entries_length. reflexivity.
Qed.
(*! C74_prox : for sigma >= 0, tau > 0 and x of exactly nfft samples, prox is the exact proximal point of the function call
   evaluates; a non-positive tau raises ValueError *)
Lemma C74_prox_l : forall (h b : list C) (N : nat) sigma (x : CArr N) tau, (0 < N)%nat -> 0 <= sigma ->
  exists c, conv_init h b N sigma = Ok c /\
    (tau <= 0 -> conv_prox c (entries x) tau = Err ValueError) /\
    (0 < tau -> exists p : CArr N, conv_prox c (entries x) tau = Ok (entries p) /\ is_prox (etot (conv_fun N sigma h b)) tau x p).
Proof.
  intros h b N sigma x tau HN Hs.
  destruct (Rle_lt_dec tau 0) as [Ht|Ht].
  - unfold conv_init. destruct (Nat.eqb_spec N 0) as [->|_]; [lia|]. eexists. split; [reflexivity|]. split; [|lra]. intros _.
    unfold conv_prox. destruct (Rleb_spec tau 0) as [[_ ->]|[? _]]; [reflexivity|lra].
  - destruct (conv_prox_eq h b N sigma N x tau HN Ht) as [c [Ec Ep]]. exists c. split; [exact Ec|]. split; [lra|]. intros _.
    destruct (prox_list_spec N sigma h b tau x Hs Ht) as [q [Eq Hq]]. exists q. split; auto. rewrite Ep, Eq. f_equal. apply firstn_all2. rewrite prox_length. auto.
Qed.
(*! C74_prox_padded : for x with at most nfft samples, prox returns the first len(x) samples of the proximal point of the padded
   problem on nfft samples *)
Lemma C74_prox_padded_l : forall (h b : list C) (N n : nat) sigma (x : CArr n) tau, (0 < N)%nat -> (n <= N)%nat -> 0 <= sigma -> 0 < tau ->
  exists c (xN p : CArr N), conv_init h b N sigma = Ok c /\
    (forall i, cg xN i = cg x i) /\ is_prox (etot (conv_fun N sigma h b)) tau xN p /\
    conv_prox c (entries x) tau = Ok (firstn n (entries p)).
Proof.
  intros h b N n sigma x tau HN Hn Hs Ht. destruct (conv_prox_eq h b N sigma n x tau HN Ht) as [c [Ec Ep]].
  destruct (prox_list_spec N sigma h b tau (padc N x) Hs Ht) as [q [Eq Hq]]. exists c, (padc N x), q. split; auto. split; [|split; auto].
  - intro i. destruct (Nat.lt_ge_cases i N); [apply cg_ct; auto|]. rewrite !cg_out by lia. reflexivity.
  - rewrite Ep, Eq, prox_list_pad by auto. reflexivity.
Qed.
(*! C74_short_refuted : nfft smaller than len(x) (the default is 1024, whatever the data): prox returns nfft samples instead of
   len(x), without an error, and call does not depend on the samples beyond nfft *)
Lemma C74_short_refuted_l : forall (h b : list C) (N n : nat) sigma (x : CArr n) tau, (0 < N)%nat -> (N < n)%nat -> 0 < tau ->
  exists c, conv_init h b N sigma = Ok c /\
    (exists y, conv_prox c (entries x) tau = Ok y /\ length y = N) /\
    (forall z : CArr n, (forall i, (i < N)%nat -> cg z i = cg x i) -> conv_call c (entries z) = conv_call c (entries x)).
Proof.
  intros h b N n sigma x tau HN Hn Ht. destruct (conv_prox_eq h b N sigma n x tau HN Ht) as [c [Ec Ep]]. exists c. split; auto. split.
  - eexists. split; [exact Ep|]. rewrite firstn_length, prox_length. lia.
  - intros z Hz. destruct (C74_call_l h b N sigma) as [_ H]. destruct (H HN) as [c' [Ec' Hc]]. rewrite Ec in Ec'. injection Ec' as <-. rewrite !Hc.
    unfold conv_fun. f_equal. apply RS_ext. intros j _. do 2 f_equal. apply cconv_ext. auto.
Qed.
