(** * The discrete Fourier transform: inversion, convolution and correlation *)
From Coq Require Import Psatz ZArith.
From Verif Require Import Base Space VSum MatFacts Cplx S_Conv.
Open Scope R_scope.

(** ** complex numbers *)
Lemma c_ext (a b : C) : fst a = fst b -> snd a = snd b -> a = b.
Proof. destruct a, b; simpl; congruence. Qed.
Definition C1 : C := (1, 0).
Definition copp (a : C) : C := (- fst a, - snd a).
Lemma C_ring : ring_theory C0 C1 cadd cmul csub copp eq.
Proof.
  split; intros; apply c_ext; unfold cadd, cmul, csub, copp, C0, C1; simpl; ring.
Qed.
Add Ring C_Ring : C_ring.
Lemma cscal_mul t a : cscal t a = cmul (cr t) a.
Proof. apply c_ext; unfold cscal, cmul, cr; simpl; ring. Qed.
Lemma cis_add s t : cis (s + t) = cmul (cis s) (cis t).
Proof. apply c_ext; unfold cis, cmul; simpl; [apply cos_plus|rewrite sin_plus; ring]. Qed.
Lemma cis_0 : cis 0 = C1.
Proof. unfold cis. rewrite cos_0, sin_0. reflexivity. Qed.
Lemma cconj_cis t : cconj (cis t) = cis (- t).
Proof. unfold cis, cconj; simpl. rewrite cos_neg, sin_neg. reflexivity. Qed.
Lemma cconj_mul a b : cconj (cmul a b) = cmul (cconj a) (cconj b).
Proof. apply c_ext; unfold cconj, cmul; simpl; ring. Qed.
Lemma cconj_add a b : cconj (cadd a b) = cadd (cconj a) (cconj b).
Proof. apply c_ext; unfold cconj, cadd; simpl; ring. Qed.
Lemma conj_abs2 a : cmul (cconj a) a = cr (cabs2 a).
Proof. apply c_ext; unfold cconj, cmul, cabs2, cr; simpl; ring. Qed.
Lemma cabs2_nonneg a : 0 <= cabs2 a.
Proof. unfold cabs2. nra. Qed.
Lemma cabs2_0 a : cabs2 a = 0 -> a = C0.
Proof. unfold cabs2. intro H. apply c_ext; simpl; nra. Qed.

Lemma csum_ext m f g : (forall i, (i < m)%nat -> f i = g i) -> csum m f = csum m g.
Proof. induction m as [|m IH]; intro H; simpl; auto. rewrite IH, H; auto. Qed.
Lemma csum_fst m f : fst (csum m f) = RS m (fun i => fst (f i)).
Proof. induction m as [|m IH]; simpl; auto. rewrite IH. reflexivity. Qed.
Lemma csum_snd m f : snd (csum m f) = RS m (fun i => snd (f i)).
Proof. induction m as [|m IH]; simpl; auto. rewrite IH. reflexivity. Qed.
Lemma csum_add m f g : csum m (fun i => cadd (f i) (g i)) = cadd (csum m f) (csum m g).
Proof. induction m as [|m IH]; simpl; [ring|rewrite IH; ring]. Qed.
Lemma csum_sub m f g : csum m (fun i => csub (f i) (g i)) = csub (csum m f) (csum m g).
Proof. induction m as [|m IH]; simpl; [ring|rewrite IH; ring]. Qed.
Lemma csum_mul_l m c f : csum m (fun i => cmul c (f i)) = cmul c (csum m f).
Proof. induction m as [|m IH]; simpl; [ring|rewrite IH; ring]. Qed.
Lemma csum_mul_r m c f : csum m (fun i => cmul (f i) c) = cmul (csum m f) c.
Proof. induction m as [|m IH]; simpl; [ring|rewrite IH; ring]. Qed.
Lemma csum_zero m : csum m (fun _ => C0) = C0.
Proof. induction m as [|m IH]; simpl; [auto|rewrite IH; ring]. Qed.
Lemma csum_conj m f : cconj (csum m f) = csum m (fun i => cconj (f i)).
Proof. induction m as [|m IH]; simpl; [apply c_ext; simpl; ring|rewrite cconj_add, IH; auto]. Qed.
Lemma csum_swap n m (F : nat -> nat -> C) : csum n (fun i => csum m (fun j => F i j)) = csum m (fun j => csum n (fun i => F i j)).
Proof. induction n as [|n IH]; cbn [csum]; [symmetry; apply csum_zero|]. rewrite IH, <- csum_add. reflexivity. Qed.
Lemma csum_const m c : csum m (fun _ => c) = cmul (cr (INR m)) c.
Proof. induction m as [|m IH]; [apply c_ext; simpl; ring|]. rewrite S_INR. cbn [csum]. rewrite IH. apply c_ext; unfold cadd, cmul, cr; simpl; ring. Qed.
Lemma csum_delta n k h : (k < n)%nat -> csum n (fun i => if Nat.eqb k i then h i else C0) = h k.
Proof.
  induction n as [|n IH]; intro H; [lia|]. cbn [csum]. destruct (Nat.eqb_spec k n) as [->|Hn].
  - rewrite (csum_ext n _ (fun _ => C0)); [rewrite csum_zero; ring|]. intros i Hi. destruct (Nat.eqb_spec n i); [lia|auto].
  - rewrite IH by lia. ring.
Qed.
Lemma csum_pad n N f : (n <= N)%nat -> (forall i, (n <= i)%nat -> f i = C0) -> csum N f = csum n f.
Proof.
  intros H Hf. induction H as [|N H IH]; auto. cbn [csum]. rewrite IH, (Hf N) by lia. ring.
Qed.

(** ** sums of roots of unity *)
Lemma cis_2pi_nat k : cis (2 * PI * INR k) = C1.
Proof.
  unfold cis. replace (2 * PI * INR k) with (0 + 2 * INR k * PI) by ring. rewrite cos_period, sin_period, cos_0, sin_0. reflexivity.
Qed.
Lemma cis_2pi (m : Z) : cis (2 * PI * IZR m) = C1.
Proof.
  destruct (Z_le_gt_dec 0 m) as [H|H].
  - rewrite <- (Z2Nat.id m H), <- INR_IZR_INZ. apply cis_2pi_nat.
  - replace (2 * PI * IZR m) with (- (2 * PI * INR (Z.to_nat (- m)))).
    + rewrite <- cconj_cis, cis_2pi_nat. apply c_ext; unfold C1, cconj; simpl; ring.
    + rewrite INR_IZR_INZ, Z2Nat.id by lia. rewrite opp_IZR. ring.
Qed.
Lemma geo t N : cmul (csub (cis t) C1) (csum N (fun k => cis (INR k * t))) = csub (cis (INR N * t)) C1.
Proof.
  induction N as [|N IH].
  - simpl. rewrite Rmult_0_l, cis_0. ring.
  - cbn [csum]. rewrite S_INR. replace ((INR N + 1) * t) with (INR N * t + t) by ring. rewrite cis_add.
    transitivity (cadd (cmul (csub (cis t) C1) (csum N (fun k => cis (INR k * t)))) (cmul (csub (cis t) C1) (cis (INR N * t)))); [ring|].
    rewrite IH. ring.
Qed.
Lemma roots_sum N (r : nat) : (0 < r < N)%nat -> csum N (fun k => cis (INR k * (2 * PI * INR r / INR N))) = C0.
Proof.
  intro H. assert (HN : 0 < INR N) by (apply lt_0_INR; lia). set (t := 2 * PI * INR r / INR N).
  pose proof (geo t N) as G.
  replace (INR N * t) with (2 * PI * INR r) in G by (unfold t; field; lra). rewrite cis_2pi_nat in G.
  assert (Hs : 0 < sin (t / 2)).
  { apply sin_gt_0.
    - unfold t. replace (2 * PI * INR r / INR N / 2) with (PI * (INR r / INR N)) by (field; lra). apply Rmult_lt_0_compat; [apply PI_RGT_0|].
      apply Rdiv_lt_0_compat; auto. apply lt_0_INR; lia.
    - unfold t. replace (2 * PI * INR r / INR N / 2) with (PI * (INR r / INR N)) by (field; lra).
      rewrite <- (Rmult_1_r PI) at 2. apply Rmult_lt_compat_l; [apply PI_RGT_0|]. apply (Rmult_lt_reg_r (INR N)); auto.
      unfold Rdiv. rewrite Rmult_assoc, Rinv_l by lra. rewrite Rmult_1_l, Rmult_1_r. apply lt_INR. lia. }
  assert (Hc : cos t < 1).
  { replace t with (2 * (t / 2)) by field. rewrite cos_2a_sin. nra. }
  set (S := csum N (fun k => cis (INR k * t))) in *. set (z := csub (cis t) C1) in *.
  assert (E : cmul (cconj z) (cmul z S) = C0) by (rewrite G; ring).
  assert (E2 : cmul (cr (cabs2 z)) S = C0) by (rewrite <- conj_abs2, <- E; ring).
  assert (Hz : 0 < cabs2 z) by (unfold cabs2, z, csub, cis, C1; simpl; pose proof (sin2_cos2 t); unfold Rsqr in *; nra).
  injection E2 as E3 E4. apply c_ext; simpl.
  - apply (Rmult_eq_reg_l (cabs2 z)); [|lra]. rewrite Rmult_0_r. lra.
  - apply (Rmult_eq_reg_l (cabs2 z)); [|lra]. rewrite Rmult_0_r. lra.
Qed.
(** sum over k of exp(2 pi i k d / N) *)
Lemma orth N (d : Z) : (0 < N)%nat ->
  csum N (fun k => cis (2 * PI * (INR k * IZR d) / INR N)) = if Z.eqb (d mod Z.of_nat N) 0 then cr (INR N) else C0.
Proof.
  intro HN. assert (HN' : 0 < INR N) by (apply lt_0_INR; lia).
  set (r := (d mod Z.of_nat N)%Z). set (q := (d / Z.of_nat N)%Z).
  assert (Hd : d = (Z.of_nat N * q + r)%Z) by (apply Z_div_mod_eq_full).
  assert (Hr : (0 <= r < Z.of_nat N)%Z) by (apply Z.mod_pos_bound; lia).
  rewrite (csum_ext _ _ (fun k => cis (INR k * (2 * PI * INR (Z.to_nat r) / INR N)))).
  - destruct (Z.eqb_spec r 0) as [E|E].
    + rewrite E. simpl (Z.to_nat 0). simpl (INR 0). rewrite (csum_ext _ _ (fun _ => C1)).
      * rewrite csum_const. apply c_ext; unfold cmul, cr, C1; simpl; ring.
      * intros. replace (INR i * (2 * PI * 0 / INR N)) with 0 by (field; lra). apply cis_0.
    + apply roots_sum. lia.
  - intros k Hk. rewrite (INR_IZR_INZ (Z.to_nat r)), Z2Nat.id by lia.
    replace (2 * PI * (INR k * IZR d) / INR N) with (2 * PI * IZR (Z.of_nat k * q) + INR k * (2 * PI * IZR r / INR N)).
    + rewrite cis_add, cis_2pi. ring.
    + rewrite Hd, plus_IZR, !mult_IZR, <- !INR_IZR_INZ. field. lra.
Qed.

(** ** transforms of sequences *)
Definition FI (N : nat) (g : nat -> C) (j : nat) : C :=
  cscal (/ INR N) (csum N (fun k => cmul (g k) (cis (2 * PI * (INR j * INR k) / INR N)))).

Lemma FF_ext N x y k : (forall i, (i < N)%nat -> x i = y i) -> FF N x k = FF N y k.
Proof. intro H. apply csum_ext. intros. rewrite H; auto. Qed.
Lemma FI_ext N x y k : (forall i, (i < N)%nat -> x i = y i) -> FI N x k = FI N y k.
Proof. intro H. unfold FI. f_equal. apply csum_ext. intros. rewrite H; auto. Qed.
Lemma FI_add N x y k : FI N (fun i => cadd (x i) (y i)) k = cadd (FI N x k) (FI N y k).
Proof.
  unfold FI. rewrite !cscal_mul.
  rewrite (csum_ext _ _ (fun i => cadd (cmul (x i) (cis (2 * PI * (INR k * INR i) / INR N))) (cmul (y i) (cis (2 * PI * (INR k * INR i) / INR N))))) by (intros; ring).
  rewrite csum_add. ring.
Qed.
Lemma FI_mul N c x k : FI N (fun i => cmul c (x i)) k = cmul c (FI N x k).
Proof.
  unfold FI. rewrite !cscal_mul.
  rewrite (csum_ext _ _ (fun i => cmul c (cmul (x i) (cis (2 * PI * (INR k * INR i) / INR N))))) by (intros; ring).
  rewrite csum_mul_l. ring.
Qed.
Lemma FI_sub N x y k : FI N (fun i => csub (x i) (y i)) k = csub (FI N x k) (FI N y k).
Proof.
  transitivity (FI N (fun i => cadd (x i) (cmul (cr (-1)) (y i))) k).
  - apply FI_ext. intros. apply c_ext; unfold csub, cadd, cmul, cr; simpl; ring.
  - rewrite FI_add, FI_mul. apply c_ext; unfold csub, cadd, cmul, cr; simpl; ring.
Qed.

Lemma inv_N N c : (0 < N)%nat -> cmul (cr (/ INR N)) (cmul (cr (INR N)) c) = c.
Proof. intro H. assert (0 < INR N) by (apply lt_0_INR; lia). apply c_ext; unfold cmul, cr; simpl; field; lra. Qed.

Lemma zmod_small (N : nat) (i j : nat) : (i < N)%nat -> (j < N)%nat -> Z.eqb ((Z.of_nat j - Z.of_nat i) mod Z.of_nat N) 0 = Nat.eqb i j.
Proof.
  intros Hi Hj. destruct (Nat.eqb_spec i j) as [->|H].
  - replace (Z.of_nat j - Z.of_nat j)%Z with 0%Z by lia. reflexivity.
  - apply Z.eqb_neq. intro E. apply Z.mod_divide in E; [|lia]. destruct E as [q Hq].
    assert (q = 0 \/ q <= -1 \/ 1 <= q)%Z as [->|[?|?]] by lia; [lia| |].
    + assert (q * Z.of_nat N <= -1 * Z.of_nat N)%Z by (apply Z.mul_le_mono_nonneg_r; lia). lia.
    + assert (1 * Z.of_nat N <= q * Z.of_nat N)%Z by (apply Z.mul_le_mono_nonneg_r; lia). lia.
Qed.
(** [FF] and [FI] are inverse to each other on 0..N-1. *)
Lemma FI_FF N x j : (j < N)%nat -> FI N (FF N x) j = x j.
Proof.
  intro Hj. assert (HN : (0 < N)%nat) by lia. assert (HN' : 0 < INR N) by (apply lt_0_INR; lia). unfold FI, FF. rewrite cscal_mul.
  rewrite (csum_ext N _ (fun k => csum N (fun i => cmul (x i) (cis (2 * PI * (INR k * IZR (Z.of_nat j - Z.of_nat i)) / INR N))))).
  2:{ intros k _. rewrite <- csum_mul_r. apply csum_ext. intros i _.
      replace (2 * PI * (INR k * IZR (Z.of_nat j - Z.of_nat i)) / INR N) with
        (- (2 * PI * (INR i * INR k) / INR N) + 2 * PI * (INR j * INR k) / INR N).
      - rewrite cis_add. ring. - rewrite minus_IZR, <- !INR_IZR_INZ. field. lra. }
  rewrite csum_swap.
  rewrite (csum_ext N _ (fun i => if Nat.eqb j i then cmul (cr (INR N)) (x i) else C0)).
  - rewrite csum_delta by auto. apply inv_N. auto.
  - intros i Hi. rewrite csum_mul_l, orth by auto. rewrite zmod_small by auto. rewrite (Nat.eqb_sym i j). destruct (Nat.eqb j i); ring.
Qed.
Lemma FF_FI N g k : (k < N)%nat -> FF N (FI N g) k = g k.
Proof.
  intro Hk. assert (HN : (0 < N)%nat) by lia. assert (HN' : 0 < INR N) by (apply lt_0_INR; lia). unfold FI, FF.
  rewrite (csum_ext N _ (fun j => cmul (cr (/ INR N)) (csum N (fun l => cmul (g l) (cis (2 * PI * (INR j * IZR (Z.of_nat l - Z.of_nat k)) / INR N)))))).
  2:{ intros j _. rewrite cscal_mul. transitivity (cmul (cr (/ INR N)) (cmul (csum N (fun k0 => cmul (g k0) (cis (2 * PI * (INR j * INR k0) / INR N)))) (cis (- (2 * PI * (INR j * INR k) / INR N))))); [ring|].
      f_equal. rewrite <- csum_mul_r. apply csum_ext. intros l _.
      replace (2 * PI * (INR j * IZR (Z.of_nat l - Z.of_nat k)) / INR N) with
        (2 * PI * (INR j * INR l) / INR N + - (2 * PI * (INR j * INR k) / INR N)).
      - rewrite cis_add. ring. - rewrite minus_IZR, <- !INR_IZR_INZ. field. lra. }
  rewrite csum_mul_l, csum_swap.
  rewrite (csum_ext N _ (fun l => if Nat.eqb k l then cmul (cr (INR N)) (g l) else C0)).
  - rewrite csum_delta by auto. apply inv_N. auto.
  - intros l Hl. rewrite csum_mul_l, orth by auto. rewrite zmod_small by auto. destruct (Nat.eqb k l); ring.
Qed.

(** circular correlation *)
Definition ccorr (N : nat) (h r : nat -> C) (m : nat) : C :=
  csum N (fun l => csum N (fun j => if Nat.eqb ((l + m) mod N) j then cmul (cconj (h l)) (r j) else C0)).

Lemma zmod_conv (N l m j : nat) : (0 < N)%nat -> (j < N)%nat ->
  Z.eqb ((Z.of_nat j - Z.of_nat (l + m)) mod Z.of_nat N) 0 = Nat.eqb ((l + m) mod N) j.
Proof.
  intros HN Hj. assert (Hm := Nat.mod_upper_bound (l + m) N ltac:(lia)).
  rewrite <- (zmod_small N ((l + m) mod N) j) by auto. f_equal.
  rewrite (Nat.div_mod (l + m) N) at 1 by lia.
  replace (Z.of_nat j - Z.of_nat (N * ((l + m) / N) + (l + m) mod N))%Z with
    ((Z.of_nat j - Z.of_nat ((l + m) mod N)) + (- Z.of_nat ((l + m) / N)) * Z.of_nat N)%Z by nia.
  apply Z_mod_plus_full.
Qed.
Lemma FI_conv N h x j : (j < N)%nat -> FI N (fun k => cmul (FF N h k) (FF N x k)) j = cconv N h x j.
Proof.
  intro Hj. assert (HN : (0 < N)%nat) by lia. assert (HN' : 0 < INR N) by (apply lt_0_INR; lia). unfold FI, FF. rewrite cscal_mul.
  rewrite (csum_ext N _ (fun k => csum N (fun l => csum N (fun m => cmul (cmul (h l) (x m)) (cis (2 * PI * (INR k * IZR (Z.of_nat j - Z.of_nat (l + m))) / INR N)))))).
  2:{ intros k _. rewrite <- !csum_mul_r. apply csum_ext. intros l _. rewrite <- csum_mul_l, <- csum_mul_r. apply csum_ext. intros m _.
      replace (2 * PI * (INR k * IZR (Z.of_nat j - Z.of_nat (l + m))) / INR N) with
        (- (2 * PI * (INR l * INR k) / INR N) + - (2 * PI * (INR m * INR k) / INR N) + 2 * PI * (INR j * INR k) / INR N).
      - rewrite !cis_add. ring. - rewrite minus_IZR, <- !INR_IZR_INZ, plus_INR. field. lra. }
  rewrite csum_swap. unfold cconv. rewrite <- csum_mul_l. apply csum_ext. intros l _. rewrite csum_swap, <- csum_mul_l. apply csum_ext. intros m _.
  rewrite csum_mul_l, orth by auto. rewrite zmod_conv by auto. destruct (Nat.eqb _ _); [|ring].
  transitivity (cmul (cr (/ INR N)) (cmul (cr (INR N)) (cmul (h l) (x m)))); [ring|apply inv_N; auto].
Qed.
Lemma FI_corr N h r m : (m < N)%nat -> FI N (fun k => cmul (cconj (FF N h k)) (FF N r k)) m = ccorr N h r m.
Proof.
  intro Hj. assert (HN : (0 < N)%nat) by lia. assert (HN' : 0 < INR N) by (apply lt_0_INR; lia). unfold FI, FF. rewrite cscal_mul.
  rewrite (csum_ext N _ (fun k => csum N (fun l => csum N (fun j => cmul (cmul (cconj (h l)) (r j)) (cis (2 * PI * (INR k * IZR (- (Z.of_nat j - Z.of_nat (l + m)))) / INR N)))))).
  2:{ intros k _. rewrite csum_conj, <- !csum_mul_r. apply csum_ext. intros l _. rewrite <- csum_mul_l, <- csum_mul_r. apply csum_ext. intros j _.
      rewrite cconj_mul, cconj_cis.
      replace (2 * PI * (INR k * IZR (- (Z.of_nat j - Z.of_nat (l + m)))) / INR N) with
        (- - (2 * PI * (INR l * INR k) / INR N) + - (2 * PI * (INR j * INR k) / INR N) + 2 * PI * (INR m * INR k) / INR N).
      - rewrite !cis_add. ring. - rewrite opp_IZR, minus_IZR, <- !INR_IZR_INZ, plus_INR. field. lra. }
  rewrite csum_swap. unfold ccorr. rewrite <- csum_mul_l. apply csum_ext. intros l _. rewrite csum_swap, <- csum_mul_l. apply csum_ext. intros j Hj'.
  rewrite csum_mul_l, orth by auto. rewrite <- (zmod_conv N l m j) by auto.
  assert (Z.eqb ((- (Z.of_nat j - Z.of_nat (l + m))) mod Z.of_nat N) 0 = Z.eqb ((Z.of_nat j - Z.of_nat (l + m)) mod Z.of_nat N) 0) as ->.
  { set (z := (Z.of_nat j - Z.of_nat (l + m))%Z). destruct (Z.eqb_spec (z mod Z.of_nat N) 0) as [E|E].
    - apply Z.eqb_eq. apply Z_mod_zero_opp_full. auto.
    - apply Z.eqb_neq. intro H. apply E. rewrite <- (Z.opp_involutive z). apply Z_mod_zero_opp_full. auto. }
  destruct (Z.eqb _ _); [|ring].
  transitivity (cmul (cr (/ INR N)) (cmul (cr (INR N)) (cmul (cconj (h l)) (r j)))); [ring|apply inv_N; auto].
Qed.
