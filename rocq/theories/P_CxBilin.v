(** * LowRankFactorizedMatrix on complex arrays *)
From Coq Require Import Psatz.
From Verif Require Import Base Space Spec ConvexFacts Smooth VSum MatFacts Cplx DFT M_L1 P_Conv M_Cx M_CxBilin M_Bilin M_PALM P_PALM P_Bilin.
Open Scope R_scope.
Add Ring CRing : C_ring.

Lemma cg_cvec n f i : (i < n)%nat -> cg (cvec n f) i = f i.
Proof. exact (cg_ct n f i). Qed.
Lemma cent_ctab r c f i j : (i < r)%nat -> (j < c)%nat -> cent c (ctab r c f) i j = f i j.
Proof. intros Hi Hj. unfold cent, ctab. rewrite cg_cvec by (apply flat_lt; auto). destruct (divmod_flat c i j Hj) as [-> ->]. reflexivity. Qed.
Lemma cmat_ext a b (x y : CArr (a * b)) : (forall i j, (i < a)%nat -> (j < b)%nat -> cent b x i j = cent b y i j) -> x = y.
Proof.
  intro H. apply carr_ext. intros p Hp. destruct b as [|b]; [lia|]. rewrite (Nat.div_mod p (S b)) by lia. rewrite (Nat.mul_comm (S b)).
  apply H; [apply Nat.div_lt_upper_bound; lia|apply Nat.mod_upper_bound; lia].
Qed.
Lemma csum_flat n m (F : nat -> C) : csum (n * m) F = csum n (fun i => csum m (fun j => F (i * m + j)%nat)).
Proof.
  apply c_ext; [rewrite !csum_fst, RS_flat|rewrite !csum_snd, RS_flat]; apply RS_ext; intros i Hi; [rewrite csum_fst|rewrite csum_snd]; reflexivity.
Qed.
Lemma cmat_inner a b (x y : CArr (a * b)) : << x, y >> = fst (csum a (fun i => csum b (fun j => cmul (cconj (cent b y i j)) (cent b x i j)))).
Proof. rewrite carr_inner, csum_flat. reflexivity. Qed.
Lemma cmat_norm2 a b (x : CArr (a * b)) : norm2 x = RS a (fun i => RS b (fun j => cabs2 (cent b x i j))).
Proof. rewrite carr_norm2, RS_flat. reflexivity. Qed.
Lemma cent_add N c (x y : CArr N) i j : cent c (x [+] y) i j = cadd (cent c x i j) (cent c y i j).
Proof. apply cg_add. Qed.
Lemma cent_scal N c t (x : CArr N) i j : cent c (t [*] x) i j = cscal t (cent c x i j).
Proof. apply cg_scal. Qed.
Lemma conj_conj a : cconj (cconj a) = a.
Proof. apply c_ext; simpl; ring. Qed.

Section Mat.
Context (n k m : nat).
Local Notation mmc := (cmatmul n k m).
(** R Y^H and X^H R *)
Definition cYh (r : CArr (n * m)) (Y : CArr (k * m)) : CArr (n * k) := ctab n k (fun i l => csum m (fun j => cmul (cent m r i j) (cconj (cent m Y l j)))).
Definition cXh (X : CArr (n * k)) (r : CArr (n * m)) : CArr (k * m) := ctab k m (fun l j => csum n (fun i => cmul (cconj (cent k X i l)) (cent m r i j))).

Lemma cmm_adjY X Y r : << mmc X Y, r >> = << X, cYh r Y >>.
Proof.
  rewrite !cmat_inner. f_equal. apply csum_ext. intros i Hi.
  transitivity (csum m (fun j => csum k (fun l => cmul (cmul (cconj (cent m r i j)) (cent m Y l j)) (cent k X i l)))).
  - apply csum_ext. intros j Hj. unfold cmatmul. rewrite cent_ctab by auto. rewrite <- csum_mul_l. apply csum_ext. intros. ring.
  - rewrite csum_swap. apply csum_ext. intros l Hl. rewrite csum_mul_r. f_equal. unfold cYh. rewrite cent_ctab by auto. rewrite csum_conj. apply csum_ext. intros. rewrite cconj_mul, conj_conj. reflexivity.
Qed.
Lemma cmm_adjX X Y r : << mmc X Y, r >> = << Y, cXh X r >>.
Proof.
  rewrite !cmat_inner. f_equal.
  transitivity (csum n (fun i => csum m (fun j => csum k (fun l => cmul (cmul (cent k X i l) (cconj (cent m r i j))) (cent m Y l j))))).
  - apply csum_ext. intros i Hi. apply csum_ext. intros j Hj. unfold cmatmul. rewrite cent_ctab by auto. rewrite <- csum_mul_l. apply csum_ext. intros. ring.
  - transitivity (csum n (fun i => csum k (fun l => csum m (fun j => cmul (cmul (cent k X i l) (cconj (cent m r i j))) (cent m Y l j))))).
    + apply csum_ext. intros. apply csum_swap.
    + rewrite csum_swap. apply csum_ext. intros l Hl. rewrite csum_swap. apply csum_ext. intros j Hj. rewrite csum_mul_r. f_equal. unfold cXh. rewrite cent_ctab by auto.
      rewrite csum_conj. apply csum_ext. intros. rewrite cconj_mul, conj_conj. reflexivity.
Qed.
Lemma cmm_add_l X X' Y : mmc (X [+] X') Y = mmc X Y [+] mmc X' Y.
Proof.
  apply cmat_ext. intros i j Hi Hj. rewrite cent_add. unfold cmatmul. rewrite !cent_ctab by auto. rewrite <- csum_add. apply csum_ext. intros l Hl. rewrite cent_add. ring.
Qed.
Lemma cmm_add_r X Y Y' : mmc X (Y [+] Y') = mmc X Y [+] mmc X Y'.
Proof.
  apply cmat_ext. intros i j Hi Hj. rewrite cent_add. unfold cmatmul. rewrite !cent_ctab by auto. rewrite <- csum_add. apply csum_ext. intros l Hl. rewrite cent_add. ring.
Qed.
Lemma cmm_scal_l a X Y : mmc (a [*] X) Y = a [*] mmc X Y.
Proof.
  apply cmat_ext. intros i j Hi Hj. rewrite cent_scal. unfold cmatmul. rewrite !cent_ctab by auto. rewrite cscal_mul, <- csum_mul_l. apply csum_ext. intros l Hl. rewrite cent_scal, cscal_mul. ring.
Qed.
Lemma cmm_scal_r a X Y : mmc X (a [*] Y) = a [*] mmc X Y.
Proof.
  apply cmat_ext. intros i j Hi Hj. rewrite cent_scal. unfold cmatmul. rewrite !cent_ctab by auto. rewrite cscal_mul, <- csum_mul_l. apply csum_ext. intros l Hl. rewrite cent_scal, cscal_mul. ring.
Qed.
Definition cmulY (Y : CArr (k * m)) : linop (CArr (n * k)) (CArr (n * m)) :=
  mkLinop (CArr (n * k)) (CArr (n * m)) (fun X => mmc X Y) (fun r => cYh r Y) (fun X X' => cmm_add_l X X' Y) (fun a X => cmm_scal_l a X Y) (fun X r => cmm_adjY X Y r).
Definition cmulX (X : CArr (n * k)) : linop (CArr (k * m)) (CArr (n * m)) :=
  mkLinop (CArr (k * m)) (CArr (n * m)) (fun Y => mmc X Y) (fun r => cXh X r) (fun Y Y' => cmm_add_r X Y Y') (fun a Y => cmm_scal_r a X Y) (fun Y r => cmm_adjX X Y r).

(** ** bounds *)
Lemma cabs2_mul a b : cabs2 (cmul a b) = cabs2 a * cabs2 b.
Proof. unfold cabs2, cmul. simpl. ring. Qed.
Lemma csum_mod N (f : nat -> C) : sqrt (cabs2 (csum N f)) <= RS N (fun i => sqrt (cabs2 (f i))).
Proof.
  induction N as [|N IH]; cbn [csum RS].
  - unfold cabs2, C0. simpl. replace (0 * 0 + 0 * 0) with 0 by ring. rewrite sqrt_0. lra.
  - eapply Rle_trans; [|apply Rplus_le_compat_r, IH]. exact (@norm_triangle C_IPS (csum N f) (f N)).
Qed.
Lemma csum_cauchy N (a b : nat -> C) : cabs2 (csum N (fun i => cmul (a i) (b i))) <= RS N (fun i => cabs2 (a i)) * RS N (fun i => cabs2 (b i)).
Proof.
  set (z := csum N (fun i => cmul (a i) (b i))). rewrite <- (sqrt_sqrt (cabs2 z)) by apply cabs2_nonneg.
  pose proof (csum_mod N (fun i => cmul (a i) (b i))) as Hm. cbv beta in Hm. fold z in Hm. pose proof (sqrt_pos (cabs2 z)) as Hp.
  assert (E : RS N (fun i => sqrt (cabs2 (cmul (a i) (b i)))) = RS N (fun i => sqrt (cabs2 (a i)) * sqrt (cabs2 (b i)))).
  { apply RS_ext. intros i Hi. rewrite cabs2_mul. apply sqrt_mult_alt, cabs2_nonneg. }
  rewrite E in Hm. eapply Rle_trans; [apply Rmult_le_compat; [exact Hp|exact Hp|exact Hm|exact Hm]|].
  eapply Rle_trans; [apply RS_cauchy|]. apply Req_le. f_equal; apply RS_ext; intros i Hi; apply sqrt_sqrt, cabs2_nonneg.
Qed.
Lemma cfrob_apply (G : nat -> nat -> C) (v : nat -> C) :
  RS k (fun a => cabs2 (csum k (fun b => cmul (G a b) (v b)))) <= RS k (fun a => RS k (fun b => cabs2 (G a b))) * RS k (fun b => cabs2 (v b)).
Proof. rewrite <- RS_scal_r. apply RS_le. intros a Ha. apply csum_cauchy. Qed.

Lemma ly_sq (Y : CArr (k * m)) : clr_ly Y * clr_ly Y = RS k (fun a => RS k (fun b => cabs2 (csum m (fun j => cmul (cent m Y a j) (cconj (cent m Y b j)))))).
Proof. unfold clr_ly. rewrite norm_sq, cmat_norm2. apply RS_ext. intros a Ha. apply RS_ext. intros b Hb. rewrite cent_ctab by auto. reflexivity. Qed.
Lemma lx_sq (X : CArr (n * k)) : clr_lx X * clr_lx X = RS k (fun a => RS k (fun b => cabs2 (csum n (fun i => cmul (cconj (cent k X i a)) (cent k X i b))))).
Proof. unfold clr_lx. rewrite norm_sq, cmat_norm2. apply RS_ext. intros a Ha. apply RS_ext. intros b Hb. rewrite cent_ctab by auto. reflexivity. Qed.
Lemma abs2_conj a : cabs2 (cconj a) = cabs2 a.
Proof. unfold cabs2, cconj. simpl. ring. Qed.

Lemma cYh_mm X Y : norm2 (cYh (mmc X Y) Y) <= clr_ly Y * clr_ly Y * norm2 X.
Proof.
  rewrite ly_sq, !cmat_norm2. rewrite <- RS_scal. apply RS_le. intros i Hi.
  assert (EG : RS k (fun a => RS k (fun b => cabs2 (csum m (fun j => cmul (cent m Y a j) (cconj (cent m Y b j)))))) =
              RS k (fun a => RS k (fun b => cabs2 (csum m (fun j => cmul (cent m Y b j) (cconj (cent m Y a j))))))).
  { apply RS_ext. intros a Ha. apply RS_ext. intros b Hb. rewrite <- abs2_conj. f_equal. rewrite csum_conj. apply csum_ext. intros. rewrite cconj_mul, conj_conj. ring. }
  rewrite EG. eapply Rle_trans; [|apply (cfrob_apply (fun a b => csum m (fun j => cmul (cent m Y b j) (cconj (cent m Y a j)))) (fun l => cent k X i l))].
  apply Req_le. apply RS_ext. intros l Hl. f_equal. unfold cYh. rewrite cent_ctab by auto.
  transitivity (csum m (fun j => csum k (fun b => cmul (cmul (cent m Y b j) (cconj (cent m Y l j))) (cent k X i b)))).
  - apply csum_ext. intros j Hj. unfold cmatmul. rewrite cent_ctab by auto. rewrite <- csum_mul_r. apply csum_ext. intros. ring.
  - rewrite csum_swap. apply csum_ext. intros b Hb. apply csum_mul_r.
Qed.
Lemma cXh_mm X Y : norm2 (cXh X (mmc X Y)) <= clr_lx X * clr_lx X * norm2 Y.
Proof.
  rewrite lx_sq, !cmat_norm2. rewrite RS_swap, (RS_swap k m (fun i j => cabs2 (cent m Y i j))). rewrite <- RS_scal. apply RS_le. intros j Hj.
  eapply Rle_trans; [|apply (cfrob_apply (fun a b => csum n (fun i => cmul (cconj (cent k X i a)) (cent k X i b))) (fun l => cent m Y l j))].
  apply Req_le. apply RS_ext. intros l Hl. f_equal. unfold cXh. rewrite cent_ctab by auto.
  transitivity (csum n (fun i => csum k (fun b => cmul (cmul (cconj (cent k X i l)) (cent k X i b)) (cent m Y b j)))).
  - apply csum_ext. intros i Hi. unfold cmatmul. rewrite cent_ctab by auto. rewrite <- csum_mul_l. apply csum_ext. intros. ring.
  - rewrite csum_swap. apply csum_ext. intros b Hb. apply csum_mul_r.
Qed.
Lemma cYh_lip X Y : norm (cYh (mmc X Y) Y) <= clr_ly Y * norm X.
Proof.
  assert (P : 0 <= clr_ly Y) by apply norm_nonneg. apply norm_le_of_sq; [apply Rmult_le_pos; [exact P|apply norm_nonneg]|].
  replace (clr_ly Y * norm X * (clr_ly Y * norm X)) with (clr_ly Y * clr_ly Y * (norm X * norm X)) by ring. rewrite norm_sq. apply cYh_mm.
Qed.
Lemma cXh_lip X Y : norm (cXh X (mmc X Y)) <= clr_lx X * norm Y.
Proof.
  assert (P : 0 <= clr_lx X) by apply norm_nonneg. apply norm_le_of_sq; [apply Rmult_le_pos; [exact P|apply norm_nonneg]|].
  replace (clr_lx X * norm Y * (clr_lx X * norm Y)) with (clr_lx X * clr_lx X * (norm Y * norm Y)) by ring. rewrite norm_sq. apply cXh_mm.
Qed.
End Mat.

(** ** linear operators on complex arrays are bounded *)
Section Bd.
Context (N : nat).
Definition jre (x : Vec N) : CArr N := ct N (fun i => (get x i, 0)).
Definition jim (x : Vec N) : CArr N := ct N (fun i => (0, get x i)).
Definition pre (y : CArr N) : Vec N := vtab N (fun i => fst (cg y i)).
Definition pim (y : CArr N) : Vec N := vtab N (fun i => snd (cg y i)).
Lemma jre_add x y : jre (x [+] y) = jre x [+] jre y.
Proof. apply carr_ext. intros i Hi. rewrite cg_add. unfold jre. rewrite !cg_ct, get_add by auto. apply c_ext; simpl; ring. Qed.
Lemma jim_add x y : jim (x [+] y) = jim x [+] jim y.
Proof. apply carr_ext. intros i Hi. rewrite cg_add. unfold jim. rewrite !cg_ct, get_add by auto. apply c_ext; simpl; ring. Qed.
Lemma jre_scal a x : jre (a [*] x) = a [*] jre x.
Proof. apply carr_ext. intros i Hi. rewrite cg_scal. unfold jre. rewrite !cg_ct, get_scal by auto. apply c_ext; simpl; ring. Qed.
Lemma jim_scal a x : jim (a [*] x) = a [*] jim x.
Proof. apply carr_ext. intros i Hi. rewrite cg_scal. unfold jim. rewrite !cg_ct, get_scal by auto. apply c_ext; simpl; ring. Qed.
Lemma jre_adj x y : << jre x, y >> = << x, pre y >>.
Proof. rewrite carr_inner, csum_fst, vec_inner. apply RS_ext. intros i Hi. unfold jre, pre. rewrite cg_ct, get_vtab by auto. simpl. ring. Qed.
Lemma jim_adj x y : << jim x, y >> = << x, pim y >>.
Proof. rewrite carr_inner, csum_fst, vec_inner. apply RS_ext. intros i Hi. unfold jim, pim. rewrite cg_ct, get_vtab by auto. simpl. ring. Qed.
Definition Jre : linop (Vec N) (CArr N) := mkLinop (Vec N) (CArr N) jre pre jre_add jre_scal jre_adj.
Definition Jim : linop (Vec N) (CArr N) := mkLinop (Vec N) (CArr N) jim pim jim_add jim_scal jim_adj.
Lemma re_im v : v = Jre (pre v) [+] Jim (pim v).
Proof. apply carr_ext. intros i Hi. rewrite cg_add. simpl. unfold jre, jim, pre, pim. rewrite !cg_ct, !get_vtab by auto. apply c_ext; simpl; ring. Qed.
Lemma re_im_norm v : norm2 v = norm2 (pre v) + norm2 (pim v).
Proof. rewrite carr_norm2. unfold norm2. rewrite !vec_inner, <- RS_add. apply RS_ext. intros i Hi. unfold pre, pim. rewrite !get_vtab by auto. reflexivity. Qed.
Lemma carr_bounded (F : IPS) (A : linop (CArr N) F) : exists c, 0 <= c /\ forall v, norm2 (A v) <= c * norm2 v.
Proof.
  destruct (vec_bounded _ _ (comp_linop A Jre)) as (c1 & P1 & B1). destruct (vec_bounded _ _ (comp_linop A Jim)) as (c2 & P2 & B2).
  exists (2 * (c1 + c2)). split; [lra|]. intro v. specialize (B1 (pre v)). specialize (B2 (pim v)).
  change (comp_linop A Jre (pre v)) with (A (Jre (pre v))) in B1. change (comp_linop A Jim (pim v)) with (A (Jim (pim v))) in B2.
  assert (E : norm2 (A v) <= 2 * norm2 (A (Jre (pre v))) + 2 * norm2 (A (Jim (pim v)))).
  { rewrite (re_im v) at 1. rewrite lapp_add. set (a := A (Jre (pre v))). set (b := A (Jim (pim v))).
    assert (H : norm2 (a [+] b) = 2 * norm2 a + 2 * norm2 b - norm2 (a [-] b)) by (unfold norm2; iexp; ring). rewrite H. pose proof (norm2_nonneg (a [-] b)). lra. }
  rewrite re_im_norm. pose proof (norm2_nonneg (pre v)). pose proof (norm2_nonneg (pim v)).
  assert (0 <= c1 * norm2 (pim v)) by (apply Rmult_le_pos; auto). assert (0 <= c2 * norm2 (pre v)) by (apply Rmult_le_pos; auto). lra.
Qed.
End Bd.

Lemma gradx_form n k m p (mv : CArr (n * m) -> CArr p) rmv d Y (x : CArr (n * k)) :
  clr_gradx mv rmv d Y x = vopp (cYh n k m (rmv (d [-] mv (cmatmul n k m x Y))) Y).
Proof.
  apply cmat_ext. intros i l Hi Hl. unfold vopp. rewrite cent_scal. unfold clr_gradx, cYh. rewrite !cent_ctab by auto. rewrite cscal_mul, <- csum_mul_l. apply csum_ext. intros j Hj.
  unfold clr_matvec. rewrite cscal_mul. ring.
Qed.
Lemma grady_form n k m p (mv : CArr (n * m) -> CArr p) rmv d X (y : CArr (k * m)) :
  clr_grady mv rmv d X y = vopp (cXh n k m X (rmv (d [-] mv (cmatmul n k m X y)))).
Proof.
  apply cmat_ext. intros i l Hi Hl. unfold vopp. rewrite cent_scal. unfold clr_grady, cXh. rewrite !cent_ctab by auto. rewrite cscal_mul, <- csum_mul_l. apply csum_ext. intros j Hj.
  unfold clr_matvec. rewrite cscal_mul. ring.
Qed.

(*! C80_bilinear : LowRankFactorizedMatrix on complex factors, any sizes, data and linear operator whose rmatvec is the conjugate
   transpose: call is 1/2 |d - A(XY)|^2 where XY has the entries sum_l X_il Y_lj; gradx and grady, which conjugate the other
   factor, are the gradients for the real inner product Re <x, y>; without operator ly(y) and lx(x) are Lipschitz constants of them *)
Lemma C80_bilinear_l : forall n k m p (A : linop (CArr (n * m)) (CArr p)) (d : CArr p) (X : CArr (n * k)) (Y : CArr (k * m)),
  (forall P : CArr (n * m), (forall i j, (i < n)%nat -> (j < m)%nat -> cg P (i * m + j) = csum k (fun l => cmul (cg X (i * k + l)) (cg Y (l * m + j)))) ->
     clr_call A d X Y = norm2 (d [-] A P) / 2) /\
  is_grad (fun x => clr_call A d x Y) X (clr_gradx A (ladj A) d Y X) /\
  is_grad (fun y => clr_call A d X y) Y (clr_grady A (ladj A) d X Y) /\
  (forall e : CArr (n * m), lipschitz (clr_ly Y) (clr_gradx (n:=n) (fun v => v) (fun v => v) e Y) /\
                            lipschitz (clr_lx X) (clr_grady (m:=m) (fun v => v) (fun v => v) e X)).
Proof.
  intros n k m p A d X Y. split; [|split; [|split]].
  - intros P HP. unfold clr_call, clr_matvec. do 4 f_equal. apply cmat_ext. intros i j Hi Hj. unfold cmatmul. rewrite cent_ctab by auto. symmetry. apply HP; auto.
  - rewrite gradx_form. destruct (carr_bounded _ _ (comp_linop A (cmulY n k m Y))) as (c & Pc & Hc). exact (half_sq_grad (comp_linop A (cmulY n k m Y)) d c Hc Pc X).
  - rewrite grady_form. destruct (carr_bounded _ _ (comp_linop A (cmulX n k m X))) as (c & Pc & Hc). exact (half_sq_grad (comp_linop A (cmulX n k m X)) d c Hc Pc Y).
  - intro e. split; intros a b.
    + rewrite !gradx_form. replace (vopp (cYh n k m (e [-] cmatmul n k m a Y) Y) [-] vopp (cYh n k m (e [-] cmatmul n k m b Y) Y)) with (cYh n k m (cmatmul n k m (a [-] b) Y) Y); [apply cYh_lip|].
      pose proof (ladj_sub (cmulY n k m Y) e (cmatmul n k m a Y)) as L1. pose proof (ladj_sub (cmulY n k m Y) e (cmatmul n k m b Y)) as L2.
      pose proof (ladj_sub (cmulY n k m Y) (cmatmul n k m a Y) (cmatmul n k m b Y)) as L3. pose proof (lapp_sub (cmulY n k m Y) a b) as L4. cbn [lapp ladj cmulY] in L1, L2, L3, L4.
      rewrite L4, L3, L1, L2. vring.
    + rewrite !grady_form. replace (vopp (cXh n k m X (e [-] cmatmul n k m X a)) [-] vopp (cXh n k m X (e [-] cmatmul n k m X b))) with (cXh n k m X (cmatmul n k m X (a [-] b))); [apply cXh_lip|].
      pose proof (ladj_sub (cmulX n k m X) e (cmatmul n k m X a)) as L1. pose proof (ladj_sub (cmulX n k m X) e (cmatmul n k m X b)) as L2.
      pose proof (ladj_sub (cmulX n k m X) (cmatmul n k m X a) (cmatmul n k m X b)) as L3. pose proof (lapp_sub (cmulX n k m X) a b) as L4. cbn [lapp ladj cmulX] in L1, L2, L3, L4.
      rewrite L4, L3, L1, L2. vring.
Qed.
(*!ex C80_bilinear_example : with 1 x 1 factors X = i, Y = 1 + i, data 2i and no operator: XY = -1 + i, the value is 1 and the
   gradient in X is -2 *)
Lemma C80_bilinear_example_l :
  let X : CArr (1 * 1) := ct 1 (fun _ => (0, 1)) in let Y : CArr (1 * 1) := ct 1 (fun _ => (1, 1)) in let d : CArr (1 * 1) := ct 1 (fun _ => (0, 2)) in
  clr_call (n:=1) (fun v => v) d X Y = 1 /\ clr_gradx (n:=1) (fun v => v) (fun v => v) d Y X = ct 1 (fun _ => (-2, 0)).
Proof.
  cbv zeta. set (X := ct 1 (fun _ => (0, 1)) : CArr (1 * 1)). set (Y := ct 1 (fun _ => (1, 1)) : CArr (1 * 1)).
  assert (E : cmatmul 1 1 1 X Y = ct 1 (fun _ => (-1, 1))).
  { apply carr_ext. intros i Hi. replace i with O by lia. unfold cmatmul, ctab. rewrite cg_cvec by lia. cbn [csum Nat.div Nat.modulo Nat.divmod fst snd Nat.sub]. unfold cent.
    unfold X, Y, ct, cg, entries, cadd, cmul, C0; simpl. f_equal; ring. }
  split.
  - unfold clr_call, clr_matvec. rewrite E. rewrite carr_norm2. cbn [RS Nat.mul Nat.add]. rewrite cg_sub. unfold ct, cg, entries, csub, cabs2; simpl. field.
  - rewrite gradx_form, E. apply carr_ext. intros i Hi. replace i with O by lia. unfold vopp. rewrite cg_scal. unfold cYh, ctab. rewrite cg_cvec by lia.
    cbn [csum Nat.div Nat.modulo Nat.divmod fst snd Nat.sub]. unfold cent. rewrite cg_sub. unfold Y, ct, cg, entries, csub, cadd, cscal, cmul, cconj, C0; simpl. f_equal; ring.
Qed.
