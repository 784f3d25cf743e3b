(** * Proofs about L2Convolve (M_Conv.v) against S_Conv.v *)
From Coq Require Import Psatz.
From Verif Require Import Base Space Spec SpecOps ConvexFacts VSum MatFacts Cplx S_Conv DFT M_Conv M_L2 P_L2 Smooth.
Open Scope R_scope.

(** ** arrays by entries *)
Definition ct (n : nat) (f : nat -> C) : CArr n := exist _ (map f (seq 0 n)) (eq_trans (map_length f _) (seq_length n 0)).
Lemma nth_tab n (f : nat -> C) i : (i < n)%nat -> nth i (map f (seq 0 n)) C0 = f i.
Proof. intro H. rewrite (map_nth_lt f _ i 0%nat C0) by (rewrite seq_length; auto). rewrite seq_nth by auto. reflexivity. Qed.
Lemma cg_ct n f i : (i < n)%nat -> cg (ct n f) i = f i.
Proof. apply nth_tab. Qed.
Lemma entries_length n (x : CArr n) : length (entries x) = n.
Proof. exact (proj2_sig x). Qed.
Lemma cg_out n (x : CArr n) i : (n <= i)%nat -> cg x i = C0.
Proof. intro H. apply nth_overflow. rewrite entries_length. auto. Qed.
Lemma carr_ext n (x y : CArr n) : (forall i, (i < n)%nat -> cg x i = cg y i) -> x = y.
Proof.
  intro H. apply nlist_eq. apply (nth_ext (entries x) (entries y) C0 C0); [rewrite !entries_length; auto|].
  intros i Hi. rewrite entries_length in Hi. apply H. auto.
Qed.
Lemma list_ext n (x y : list C) : length x = n -> length y = n -> (forall i, (i < n)%nat -> nth i x C0 = nth i y C0) -> x = y.
Proof. intros Hx Hy H. apply (nth_ext x y C0 C0); [congruence|]. intros i Hi. apply H. congruence. Qed.
Lemma entries_ct n f : entries (ct n f) = map f (seq 0 n).
Proof. reflexivity. Qed.
Lemma ct_cg n (x : CArr n) : ct n (cg x) = x.
Proof. apply carr_ext. intros. apply cg_ct. auto. Qed.
Lemma cg_add n (x y : CArr n) i : cg (x [+] y) i = cadd (cg x i) (cg y i).
Proof.
  destruct (Nat.lt_ge_cases i n) as [H|H].
  - destruct x as [x Hx], y as [y Hy]. unfold cg, entries; simpl. rewrite (nth_map2 _ x y i C0 C0 C0) by lia. reflexivity.
  - rewrite !cg_out by auto. apply c_ext; simpl; ring.
Qed.
Lemma cg_scal n a (x : CArr n) i : cg (a [*] x) i = cscal a (cg x i).
Proof.
  destruct (Nat.lt_ge_cases i n) as [H|H].
  - destruct x as [x Hx]. unfold cg, entries; simpl. rewrite (map_nth_lt _ x i C0 C0) by lia. reflexivity.
  - rewrite !cg_out by auto. apply c_ext; simpl; ring.
Qed.
Lemma cg_sub n (x y : CArr n) i : cg (x [-] y) i = csub (cg x i) (cg y i).
Proof. unfold vsub. rewrite cg_add, cg_scal. apply c_ext; unfold cadd, cscal, csub; simpl; ring. Qed.
Lemma carr_inner n (x y : CArr n) : << x, y >> = fst (csum n (fun i => cmul (cconj (cg y i)) (cg x i))).
Proof.
  rewrite csum_fst. destruct x as [x Hx], y as [y Hy]. unfold cg, entries; simpl. revert x y Hx Hy. induction n as [|n IH]; intros x y Hx Hy.
  - destruct x; [|discriminate]. reflexivity.
  - destruct x as [|a x], y as [|b y]; try discriminate. rewrite RS_shift. cbn [linner nth]. rewrite IH by (simpl in *; lia). simpl. ring.
Qed.
Lemma carr_norm2 n (x : CArr n) : norm2 x = RS n (fun i => cabs2 (cg x i)).
Proof. unfold norm2. rewrite carr_inner, csum_fst. apply RS_ext. intros. rewrite conj_abs2. reflexivity. Qed.

(** ** the convolution as a linear operator *)
Lemma csum_cut n N f : (forall i, (n <= i)%nat -> f i = C0) -> csum n (fun m => if Nat.ltb m N then f m else C0) = csum N f.
Proof.
  intro H. destruct (Nat.le_ge_cases n N) as [L|L].
  - rewrite (csum_pad n N) by auto. apply csum_ext. intros i Hi. destruct (Nat.ltb_spec i N); auto; lia.
  - rewrite (csum_pad N n); auto.
    + apply csum_ext. intros i Hi. destruct (Nat.ltb_spec i N); auto; lia.
    + intros i Hi. destruct (Nat.ltb_spec i N); auto; lia.
Qed.
Lemma cconv_ext N h x y j : (forall m, (m < N)%nat -> x m = y m) -> cconv N h x j = cconv N h y j.
Proof. intro H. apply csum_ext. intros l _. apply csum_ext. intros m Hm. rewrite H; auto. Qed.
Lemma cconv_add N h x y j : cconv N h (fun i => cadd (x i) (y i)) j = cadd (cconv N h x j) (cconv N h y j).
Proof.
  unfold cconv. rewrite <- csum_add. apply csum_ext. intros l _. rewrite <- csum_add. apply csum_ext. intros m _.
  destruct (Nat.eqb _ _); ring.
Qed.
Lemma cconv_scal N h a x j : cconv N h (fun i => cscal a (x i)) j = cscal a (cconv N h x j).
Proof.
  rewrite cscal_mul. unfold cconv. rewrite <- csum_mul_l. apply csum_ext. intros l _. rewrite <- csum_mul_l. apply csum_ext. intros m _.
  rewrite cscal_mul. destruct (Nat.eqb _ _); ring.
Qed.
Lemma csum_rot N (G : nat -> nat -> nat -> C) :
  csum N (fun j => csum N (fun l => csum N (fun m => G l m j))) = csum N (fun m => csum N (fun l => csum N (fun j => G l m j))).
Proof.
  rewrite (csum_swap N N (fun j l => csum N (fun m => G l m j))), (csum_swap N N (fun m l => csum N (fun j => G l m j))).
  apply csum_ext. intros l _. apply csum_swap.
Qed.
Definition conv_mv (N : nat) (h : list C) (n : nat) (x : CArr n) : CArr N := ct N (cconv N (seqc h) (cg x)).
Definition conv_rmv (N : nat) (h : list C) (n : nat) (r : CArr N) : CArr n :=
  ct n (fun m => if Nat.ltb m N then ccorr N (seqc h) (cg r) m else C0).
Lemma conv_mv_add N h n (x y : CArr n) : conv_mv N h n (x [+] y) = conv_mv N h n x [+] conv_mv N h n y.
Proof.
  unfold conv_mv. apply carr_ext. intros j Hj. rewrite cg_add, !cg_ct by auto. rewrite <- cconv_add. apply cconv_ext. intros. apply cg_add.
Qed.
Lemma conv_mv_scal N h n a (x : CArr n) : conv_mv N h n (a [*] x) = a [*] conv_mv N h n x.
Proof.
  unfold conv_mv. apply carr_ext. intros j Hj. rewrite cg_scal, !cg_ct by auto. rewrite <- cconv_scal. apply cconv_ext. intros. apply cg_scal.
Qed.
Lemma conv_mv_adj N h n (x : CArr n) (y : CArr N) : << conv_mv N h n x, y >> = << x, conv_rmv N h n y >>.
Proof.
  unfold conv_mv, conv_rmv. rewrite !carr_inner. f_equal.
  transitivity (csum N (fun j => csum N (fun l => csum N (fun m => if Nat.eqb ((l + m) mod N) j then cmul (cmul (seqc h l) (cconj (cg y j))) (cg x m) else C0)))).
  { apply csum_ext. intros j Hj. rewrite cg_ct by auto. unfold cconv. rewrite <- csum_mul_l. apply csum_ext. intros l _. rewrite <- csum_mul_l.
    apply csum_ext. intros m _. destruct (Nat.eqb _ _); ring. }
  transitivity (csum n (fun m => if Nat.ltb m N then csum N (fun l => csum N (fun j => if Nat.eqb ((l + m) mod N) j then cmul (cmul (seqc h l) (cconj (cg y j))) (cg x m) else C0)) else C0)).
  - rewrite csum_cut.
    + apply (csum_rot N (fun l m j => if Nat.eqb ((l + m) mod N) j then cmul (cmul (seqc h l) (cconj (cg y j))) (cg x m) else C0)).
    + intros m Hm. rewrite (csum_ext N _ (fun _ => C0)); [apply csum_zero|]. intros l _. rewrite (csum_ext N _ (fun _ => C0)); [apply csum_zero|].
      intros j _. rewrite (cg_out n x) by auto. destruct (Nat.eqb _ _); ring.
  - apply csum_ext. intros m Hm. rewrite cg_ct by auto. destruct (Nat.ltb m N); [|apply c_ext; simpl; ring]. unfold ccorr.
    rewrite csum_conj, <- csum_mul_r. apply csum_ext. intros l _. rewrite csum_conj, <- csum_mul_r. apply csum_ext. intros j _.
    destruct (Nat.eqb _ _); [|apply c_ext; simpl; ring]. rewrite cconj_mul. f_equal. f_equal. apply c_ext; simpl; ring.
Qed.
Definition convop (N : nat) (h : list C) (n : nat) : linop (CArr n) (CArr N) :=
  mkLinop (CArr n) (CArr N) (conv_mv N h n) (conv_rmv N h n) (conv_mv_add N h n) (conv_mv_scal N h n) (conv_mv_adj N h n).

Lemma cg_app N h n (x : CArr n) j : (j < N)%nat -> cg (convop N h n x) j = cconv N (seqc h) (cg x) j.
Proof. apply cg_ct. Qed.
Lemma cg_adj N h n (r : CArr N) m : (m < n)%nat -> cg (ladj (convop N h n) r) m = if Nat.ltb m N then ccorr N (seqc h) (cg r) m else C0.
Proof. intro H. exact (cg_ct n (fun m => if Nat.ltb m N then ccorr N (seqc h) (cg r) m else C0) m H). Qed.

Definition cdata (N : nat) (b : list C) : CArr N := ct N (seqc b).
Lemma conv_fun_op N sigma h b n (x : CArr n) :
  conv_fun N sigma h b x = l2_fun (WithOp (convop N h n) false (cdata N b)) None sigma 0 x.
Proof.
  unfold conv_fun, l2_fun. rewrite carr_norm2, Rplus_0_r. f_equal. apply RS_ext. intros j Hj. rewrite cg_sub. simpl lapp. unfold conv_mv, cdata. rewrite !cg_ct by auto. reflexivity.
Qed.

(** ** transforms of lists *)
Lemma fft_length N x : length (fft N x) = N.
Proof. unfold fft. rewrite map_length, seq_length. reflexivity. Qed.
Lemma ifft_length g : length (ifft g) = length g.
Proof. unfold ifft. rewrite map_length, seq_length. reflexivity. Qed.
Lemma nth_fft N x k : (k < N)%nat -> nth k (fft N x) C0 = FF N (seqc x) k.
Proof. intro H. unfold fft. rewrite nth_tab by auto. reflexivity. Qed.
Lemma nth_ifft N g j : length g = N -> (j < N)%nat -> nth j (ifft g) C0 = FI N (seqc g) j.
Proof. intros Hl H. unfold ifft. rewrite Hl, nth_tab by auto. reflexivity. Qed.
Lemma sum_abs2 (r : list C) : fold_right (fun z s => cabs2 z + s) 0 r = RS (length r) (fun i => cabs2 (nth i r C0)).
Proof. induction r as [|a r IH]; [reflexivity|]. cbn [fold_right length]. rewrite RS_shift, IH. reflexivity. Qed.
Lemma sum_abs2_nonneg r : 0 <= fold_right (fun z s => cabs2 z + s) 0 r.
Proof. induction r as [|a r IH]; simpl; [lra|]. pose proof (cabs2_nonneg a). lra. Qed.

Lemma map2_len {A B D} (f : A -> B -> D) l1 l2 n : length l1 = n -> length l2 = n -> length (map2 f l1 l2) = n.
Proof. intros H1 H2. rewrite map2_length; congruence. Qed.
Ltac len1 := repeat first [assumption | apply map2_len | apply fft_length | (rewrite map_length) | (rewrite ifft_length)].
Ltac len := match goal with
  | |- length _ = length (map _ (fft ?N _)) => transitivity N; [len1|symmetry; len1]
  | |- length _ = length (fft ?N _) => transitivity N; [len1|symmetry; len1]
  | |- length _ = length (map2 _ (fft ?N _) _) => transitivity N; [len1|symmetry; len1]
  | |- length _ = length (map2 _ (map2 _ (fft ?N _) _) _) => transitivity N; [len1|symmetry; len1]
  | |- length _ = _ => len1
  | H : (?k < ?N)%nat |- (?k < length ?l)%nat => replace (length l) with N; [assumption|symmetry; len1]
  | |- _ => try assumption end.

(** the residual of the transform of one line *)
Definition res_list N (h b x : list C) := ifft (map2 csub (fft N b) (map2 cmul (fft N h) (fft N x))).
Lemma res_length N h b x : length (res_list N h b x) = N.
Proof. unfold res_list. len. Qed.
Lemma nth_res N h b x j : (j < N)%nat -> nth j (res_list N h b x) C0 = csub (seqc b j) (cconv N (seqc h) (seqc x) j).
Proof.
  intro Hj. unfold res_list. rewrite (nth_ifft N) by len.
  rewrite <- FI_conv by auto. rewrite <- (FI_FF N (seqc b) j Hj). rewrite <- FI_sub. apply FI_ext. intros k Hk. unfold seqc at 1.
  rewrite (nth_map2 _ _ _ k C0 C0 C0) by len.
  rewrite (nth_map2 _ _ _ k C0 C0 C0) by len. rewrite !nth_fft by auto. reflexivity.
Qed.
Lemma res_norm N h b x : fold_right (fun z s => cabs2 z + s) 0 (res_list N h b x) =
  RS N (fun j => cabs2 (csub (cconv N (seqc h) (seqc x) j) (seqc b j))).
Proof.
  rewrite sum_abs2, res_length. apply RS_ext. intros j Hj. rewrite nth_res by auto. unfold cabs2, csub; simpl. ring.
Qed.

(** the gradient of one line *)
Definition grad_list N sigma (h b x : list C) :=
  map (cscal sigma) (ifft (map2 (fun h r => cmul (cconj h) r) (fft N h) (map2 csub (map2 cmul (fft N h) (fft N x)) (fft N b)))).
Lemma grad_length N sigma h b x : length (grad_list N sigma h b x) = N.
Proof. unfold grad_list. len. Qed.
Lemma FF_sub N x y k : FF N (fun i => csub (x i) (y i)) k = csub (FF N x k) (FF N y k).
Proof.
  unfold FF. rewrite <- csum_sub. apply csum_ext. intros. ring.
Qed.
Lemma FF_conv N h x k : (k < N)%nat -> FF N (cconv N h x) k = cmul (FF N h k) (FF N x k).
Proof.
  intro Hk. rewrite <- (FF_FI N (fun k => cmul (FF N h k) (FF N x k)) k Hk). apply FF_ext. intros j Hj. symmetry. apply FI_conv. auto.
Qed.
Lemma nth_grad N sigma h b x j : (j < N)%nat ->
  nth j (grad_list N sigma h b x) C0 = cscal sigma (ccorr N (seqc h) (fun i => csub (cconv N (seqc h) (seqc x) i) (seqc b i)) j).
Proof.
  intro Hj. unfold grad_list.
  assert (L1 : length (map2 csub (map2 cmul (fft N h) (fft N x)) (fft N b)) = N) by len.
  assert (L2 : length (map2 (fun h r => cmul (cconj h) r) (fft N h) (map2 csub (map2 cmul (fft N h) (fft N x)) (fft N b))) = N) by len.
  rewrite (map_nth_lt _ _ j C0 C0) by len. f_equal. rewrite (nth_ifft N) by (auto; len).
  rewrite <- FI_corr by auto. apply FI_ext. intros k Hk. unfold seqc at 1.
  rewrite (nth_map2 _ _ _ k C0 C0 C0) by len.
  rewrite (nth_map2 _ _ _ k C0 C0 C0) by len.
  rewrite (nth_map2 _ _ _ k C0 C0 C0) by len. rewrite !nth_fft by auto.
  rewrite FF_sub, FF_conv by auto. reflexivity.
Qed.

(** the prox of one line *)
Definition prox_list N sigma (h b x : list C) tau :=
  ifft (map2 (fun u h2 => cscal (/ (1 + sigma * tau * h2)) u)
    (map2 (fun u hb => cadd u (cscal (sigma * tau) hb)) (fft N x) (map2 (fun h b => cmul (cconj h) b) (fft N h) (fft N b)))
    (map cabs2 (fft N h))).
Lemma prox_length N sigma h b x tau : length (prox_list N sigma h b x tau) = N.
Proof. unfold prox_list. len. Qed.
Lemma prox_normal N sigma h b x tau j : (j < N)%nat -> 0 <= sigma -> 0 < tau ->
  let y := prox_list N sigma h b x tau in
  cadd (seqc y j) (cscal (sigma * tau) (ccorr N (seqc h) (cconv N (seqc h) (seqc y)) j)) =
  cadd (seqc x j) (cscal (sigma * tau) (ccorr N (seqc h) (seqc b) j)).
Proof.
  intros Hj Hs Ht y. set (s := sigma * tau). assert (H0 : 0 <= s) by (apply Rmult_le_pos; lra).
  set (H := FF N (seqc h)). set (B := FF N (seqc b)). set (X := FF N (seqc x)).
  set (yf := fun k => cscal (/ (1 + s * cabs2 (H k))) (cadd (X k) (cscal s (cmul (cconj (H k)) (B k))))).
  assert (Ly : forall i, (i < N)%nat -> seqc y i = FI N yf i).
  { intros i Hi. unfold y, prox_list, seqc. rewrite (nth_ifft N) by len.
    apply FI_ext. intros k Hk. unfold seqc at 1.
    rewrite (nth_map2 _ _ _ k C0 0 C0) by len.
    rewrite (nth_map2 _ _ _ k C0 C0 C0) by len.
    rewrite (nth_map2 _ _ _ k C0 C0 C0) by len.
    rewrite (map_nth_lt _ _ k C0 0) by len. rewrite !nth_fft by auto. reflexivity. }
  assert (FY : forall k, (k < N)%nat -> FF N (seqc y) k = yf k).
  { intros k Hk. rewrite <- (FF_FI N yf k Hk). apply FF_ext. auto. }
  rewrite <- !FI_corr, Ly by auto. rewrite <- (FI_FF N (seqc x) j Hj).
  rewrite !cscal_mul, <- !FI_mul, <- !FI_add. apply FI_ext. intros k Hk. rewrite FF_conv, FY by auto. fold H B X.
  transitivity (cmul (cadd C1 (cmul (cr s) (cmul (cconj (H k)) (H k)))) (yf k)); [ring|].
  rewrite conj_abs2. unfold yf. rewrite (cscal_mul (/ _)), (cscal_mul s).
  set (D := 1 + s * cabs2 (H k)). assert (HD : D <> 0) by (unfold D; pose proof (cabs2_nonneg (H k)); assert (0 <= s * cabs2 (H k)) by (apply Rmult_le_pos; auto); lra).
  replace (cadd C1 (cmul (cr s) (cr (cabs2 (H k))))) with (cr D) by (apply c_ext; unfold D, cadd, cmul, cr, C1; simpl; ring).
  set (w := cadd (X k) _). apply c_ext; unfold cmul, cr; simpl; field; auto.
Qed.
Lemma prox_list_spec N sigma h b tau (x : CArr N) : 0 <= sigma -> 0 < tau ->
  exists q : CArr N, entries q = prox_list N sigma h b (entries x) tau /\ is_prox (etot (conv_fun N sigma h b)) tau x q.
Proof.
  intros Hs Ht. set (y := prox_list N sigma h b (entries x) tau).
  assert (Hl : length y = N) by apply prox_length. exists (exist _ y Hl). split; [reflexivity|].
  set (q := exist _ y Hl : CArr N). set (d := WithOp (convop N h N) false (cdata N b)).
  assert (Ex : x = q [+] tau [*] l2_dfun d None sigma 0 q).
  { apply carr_ext. intros j Hj. pose proof (prox_normal N sigma h b (entries x) tau j Hj Hs Ht) as E. cbv zeta in E. fold y in E.
    change (seqc (entries x) j) with (cg x j) in E. change (seqc y) with (cg q) in E.
    unfold l2_dfun, d. rewrite cg_add, cg_scal, cg_add, cg_scal. rewrite cg_adj by auto.
    destruct (Nat.ltb_spec j N); [|lia].
    replace (cg (vzero : CArr N) j) with C0 by (unfold cg, entries; simpl; rewrite nth_repeat; reflexivity).
    assert (E2 : ccorr N (seqc h) (cg (convop N h N q [-] cdata N b)) j =
      csub (ccorr N (seqc h) (cconv N (seqc h) (cg q)) j) (ccorr N (seqc h) (seqc b) j)).
    { unfold ccorr. rewrite <- csum_sub. apply csum_ext. intros l _. rewrite <- csum_sub. apply csum_ext. intros i Hi.
      rewrite cg_sub, cg_app by auto. unfold cdata. rewrite !cg_ct by auto. destruct (Nat.eqb _ _); ring. }
    rewrite E2. rewrite !cscal_mul in *.
    transitivity (csub (cadd (cg q j) (cmul (cr (sigma * tau)) (ccorr N (seqc h) (cconv N (seqc h) (cg q)) j))) (cmul (cr (sigma * tau)) (ccorr N (seqc h) (seqc b) j))).
    - rewrite E. ring.
    - replace (cr (sigma * tau)) with (cmul (cr tau) (cr sigma)) by (apply c_ext; unfold cmul, cr; simpl; ring). ring. }
  assert (Hp : is_prox (etot (l2_fun d None sigma 0)) tau x q) by (rewrite Ex at 1; apply l2_residual_prox; auto).
  destruct Hp as [_ Hp]. split; [exact I|]. intros z _. specialize (Hp z I). cbn [eval etot] in *. rewrite !conv_fun_op. exact Hp.
Qed.
