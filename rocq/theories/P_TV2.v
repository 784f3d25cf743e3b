(** * Proofs about TV.prox: the loop is an accelerated dual iteration (M_TV.v, P_TV.v) *)
From Coq Require Import Psatz ZArith.
From Verif Require Import Base Space Spec SpecOps ConvexFacts VSum MatFacts M_ProxOp M_Loop M_Bilin M_TV DualTV Compact P_TV P_PG SeqConv.
From Verif Require Export S_TV2.
Open Scope result_scope.
Open Scope R_scope.

(** ** Existence of the dual minimiser *)
Section Exists.
Variable dims : list nat.
Hypothesis Hdims : dims_ok dims.
Hypothesis Hd : (1 <= length dims)%nat.
Let N := nprod dims.
Let d := length dims.
Variables (gamma : R) (x : Vec N).
Hypothesis Hg : 0 < gamma.
Let D := gradop dims Hdims.
Let K := pixball dims.
Let L := INR (4 * d).

Lemma L_pos : 0 < L. Proof. unfold L. apply lt_0_INR. unfold d. lia. Qed.
Lemma vcv_get n (u : nat -> Vec n) l i : (i < n)%nat -> vcv u l -> Un_cv (fun k => get (u k) i) (get l i).
Proof.
  intros Hi H eps He. destruct (H eps He) as [M HM]. exists M. intros k Hk. specialize (HM k Hk). unfold R_dist. rewrite <- get_sub by auto. eapply Rle_lt_trans; [apply get_le_norm; auto|exact HM].
Qed.
Lemma pixball_closed : seq_closed K.
Proof.
  intros u l Hu Hl i Hi. apply (Un_cv_le_lim (fun k => RS d (fun a => dent dims (u k) a i * dent dims (u k) a i))); [|intro k; apply (Hu k i Hi)].
  apply (RS_cv d (fun k a => dent dims (u k) a i * dent dims (u k) a i) (fun a => dent dims l a i * dent dims l a i)). intros a Ha. apply CV_mult; apply vcv_get; auto; apply flat_lt; auto.
Qed.
Lemma dobj_cont : seq_cont (dobj D gamma x).
Proof.
  intros u l Hl. unfold dobj. assert (HS : vcv (fun k => dsol D gamma x (u k)) (dsol D gamma x l)).
  { apply (vcv_map (dsol D gamma x) (gamma * sqrt L)); [apply Rmult_lt_0_compat; [auto|apply sqrt_lt_R0, L_pos]| |auto]. intros v w. rewrite dsol_sub, norm_scal, Rabs_right by lra. rewrite Rmult_assoc. apply Rmult_le_compat_l; [lra|].
    apply norm_le_of_sq; [apply Rmult_le_pos; [apply sqrt_pos|apply norm_nonneg]|]. pose proof L_pos. replace (sqrt L * norm (v [-] w) * (sqrt L * norm (v [-] w))) with ((sqrt L * sqrt L) * (norm (v [-] w) * norm (v [-] w))) by ring. rewrite sqrt_sqrt, norm_sq by lra. apply (adj_bound D L); auto. intro y. apply gradop_bound. }
  apply (CV_mult (fun _ => / 2) (fun k => norm2 (dsol D gamma x (u k)))); [intros e He; exists 0%nat; intros; unfold R_dist; rewrite Rminus_eq_0, Rabs_R0; auto|apply vcv_norm2; auto].
Qed.
Lemma dent_abs p a i : K p -> (a < d)%nat -> (i < N)%nat -> Rabs (dent dims p a i) <= 1.
Proof.
  intros Hp Ha Hi. specialize (Hp i Hi). assert (dent dims p a i * dent dims p a i <= 1).
  { eapply Rle_trans; [|exact Hp]. rewrite <- (RS_delta d a (fun k => dent dims p k i * dent dims p k i) Ha). apply RS_le. intros k Hk. pose proof (Rle_0_sqr (dent dims p k i)). unfold Rsqr in *. destruct (Nat.eqb a k); lra. }
  apply Rabs_le. nra.
Qed.
Lemma dmin_exists : exists z, dmin D K gamma x z.
Proof.
  set (s := / (gamma * gamma * L)). assert (HGL : 0 < gamma * gamma * L) by (pose proof L_pos; apply Rmult_lt_0_compat; [nra|auto]). assert (Hs : 0 < s) by (apply Rinv_0_lt_compat; auto).
  set (step := fun q => pixproj dims (q [-] s [*] dgrad D gamma x q)). set (qs := fun k => Base.iter k step vzero).
  assert (Hq : forall k, is_proj K (qs k [-] s [*] dgrad D gamma x (qs k)) (qs (S k))) by (intro k; unfold qs; rewrite iter_S_out; apply pixproj_ok).
  assert (HSm : smooth_convex (dobj D gamma x) (dgrad D gamma x) (gamma * gamma * L)) by (apply dobj_smooth; [apply L_pos|intro v; apply gradop_bound]).
  assert (HDoc : forall n, pg_doc (dgrad D gamma x) (indic K) (fun _ => 1) (fun _ => s) 1 (fun _ => 0) qs qs n).
  { intro n. split; [reflexivity|]. intros j _. exists (qs (S j)). split; [apply proj_prox; [lra|apply Hq]|]. split; vring. }
  assert (HR : forall v k, K v -> 2 * s * INR (S k) * (dobj D gamma x (qs (S k)) - dobj D gamma x v) <= norm2 v).
  { intros v k Hv. pose proof (pg_rate (dobj D gamma x) (dgrad D gamma x) (indic K) 1 (proj1 HSm) (indic_convex K (pixball_convex dims)) ltac:(lra) (fun _ => s) (fun _ => 0) qs qs ltac:(intros; lra) (S k) v ltac:(auto) (HDoc (S k))) as H.
    specialize (H ltac:(apply (suff_dec_small _ _ (gamma * gamma * L)); [auto|auto|intros; split; [exact Hs|apply Rle_refl]]) Hv ltac:(intros; lra) k ltac:(lia)). cbn [eval indic] in H. pose proof (norm2_nonneg (qs (S k) [-] v)).
    assert (E0 : norm2 (qs 0%nat [-] v) = norm2 v) by (change (qs 0%nat) with (vzero : Vec (d * N)); iring). rewrite E0 in H. lra. }
  destruct (minimiser_exists (d * N) K (dobj D gamma x) 1 (fun k => qs (S k))) as [z [Hz Hm]].
  - apply pixball_closed.
  - apply dobj_cont.
  - intro k. apply (Hq k).
  - intros k i Hi. assert (HN : (N <> 0)%nat) by nia. rewrite (Nat.div_mod i N HN), (Nat.mul_comm N). apply (dent_abs (qs (S k)) (i / N) (i mod N)); [apply (Hq k)|apply Nat.div_lt_upper_bound; lia|apply Nat.mod_upper_bound; auto].
  - intros v Hv eps He. destruct (archimed_cor1 (2 * s * eps / (norm2 v + 1))) as [M [HM HM0]].
    { pose proof (norm2_nonneg v). apply Rmult_lt_0_compat; [nra|apply Rinv_0_lt_compat; lra]. }
    exists M. intros k Hk. specialize (HR v k Hv). pose proof (norm2_nonneg v) as Hn. apply (Rmult_lt_compat_r (norm2 v + 1)) in HM; [|lra]. replace (2 * s * eps / (norm2 v + 1) * (norm2 v + 1)) with (2 * s * eps) in HM by (field; lra).
    assert (HMk : INR M <= INR (S k)) by (apply le_INR; lia). assert (HM1 : 0 < INR M) by (apply lt_0_INR; lia).
    assert (HB : norm2 v < 2 * s * eps * INR (S k)). { apply (Rmult_lt_compat_r (INR M)) in HM; [|auto]. replace (/ INR M * (norm2 v + 1) * INR M) with (norm2 v + 1) in HM by (field; lra). assert (2 * s * eps * INR M <= 2 * s * eps * INR (S k)) by (apply Rmult_le_compat_l; [nra|auto]). lra. }
    cbv beta in *. apply Rnot_lt_le. intro Hl. set (A := dobj D gamma x (qs (S k))) in *. set (B := dobj D gamma x v) in *. assert (2 * s * INR (S k) * eps < 2 * s * INR (S k) * (A - B)) by (apply Rmult_lt_compat_l; [apply Rmult_lt_0_compat; [apply Rmult_lt_0_compat; [lra|exact Hs]|lra]|lra]). apply (Rlt_irrefl (2 * s * INR (S k) * eps)). eapply Rlt_le_trans; [exact H|]. eapply Rle_trans; [exact HR|]. apply Rlt_le. eapply Rlt_le_trans; [exact HB|]. right; ring.
  - exists z. split; auto.
Qed.
End Exists.

(** ** The loop *)
Lemma get_ofl m l i : (i < m)%nat -> get (ofl m l) i = nth i l 0. Proof. apply get_vtab. Qed.
Lemma ofl_lst m (v : Vec m) : ofl m (lst v) = v. Proof. apply vtab_get. Qed.
Lemma lst_ofl m l : length l = m -> lst (ofl m l) = l.
Proof. intro H. unfold ofl, vtab, lst. simpl. apply (nth_ext _ _ 0 0); [rewrite map_length, seq_length; auto|]. intros i Hi. rewrite map_length, seq_length in Hi. rewrite (nth_indep _ 0 (nth 0 l 0)) by (rewrite map_length, seq_length; auto). rewrite (map_nth (fun i => nth i l 0)). rewrite seq_nth by auto. reflexivity. Qed.
Lemma map2_nth (f : R -> R -> R) a b i : length a = length b -> (i < length a)%nat -> nth i (map2 f a b) 0 = f (nth i a 0) (nth i b 0).
Proof. revert b i. induction a as [|u a IH]; intros [|v b] i H Hi; simpl in *; try lia. destruct i as [|i]; [reflexivity|]. apply IH; lia. Qed.
Lemma tab_length r c f : length (tab r c f) = (r * c)%nat. Proof. unfold tab. rewrite map_length, seq_length. reflexivity. Qed.
Lemma tab_nth r c f k : (k < r * c)%nat -> nth k (tab r c f) 0 = f (k / c)%nat (k mod c)%nat.
Proof. intro Hk. unfold tab. rewrite (nth_indep _ 0 (f (0 / c)%nat (0 mod c)%nat)) by (rewrite map_length, seq_length; auto). rewrite (map_nth (fun p => f (p / c)%nat (p mod c)%nat)). rewrite seq_nth by auto. reflexivity. Qed.

Lemma match_ne {A B} (l : list A) (a b : B) : (1 <= length l)%nat -> match l with [] => a | _ :: _ => b end = b.
Proof. destruct l; simpl; [lia|reflexivity]. Qed.

Section Run.
Variable dims : list nat.
Hypothesis Hdims : dims_ok dims.
Hypothesis Hd : (1 <= length dims <= 4)%nat.
Let N := nprod dims.
Let d := length dims.
Variables (sigma gamma rtol mt : R).
Variable x : Vec N.
Hypothesis Hg : 0 < gamma.
Hypothesis Hmt : 0 < mt.
Let D := gradop dims Hdims.
Let K := pixball dims.

(** solution of a dual point, as a list *)
Definition solL (r : list R) : list R := map2 (fun a b => a - gamma * b) (lst x) (tv_div dims r).
Lemma tv_div_length r : length (tv_div dims r) = N. Proof. unfold tv_div. rewrite map_length, seq_length. reflexivity. Qed.
Lemma solL_length r : length (solL r) = N. Proof. unfold solL. rewrite map2_length; rewrite ?tv_div_length, lst_length; reflexivity. Qed.
Lemma solL_vec r : length r = (d * N)%nat -> solL r = lst (dsol D gamma x (ofl (d * N) r)).
Proof.
  intro Hr. apply (nth_ext _ _ 0 0); [rewrite solL_length, lst_length; reflexivity|]. rewrite solL_length. intros i Hi. unfold solL. rewrite map2_nth by (rewrite ?tv_div_length, lst_length; auto).
  fold (get x i) (get (dsol D gamma x (ofl (d * N) r)) i). unfold dsol. rewrite get_add, get_scal by auto.
  change (ladj D (ofl (d * N) r)) with (gadj dims (ofl (d * N) r)). unfold gadj. rewrite get_vtab by auto. rewrite lst_ofl by auto. unfold tv_div. rewrite (nth_indep _ 0 ((fun i => RS (length dims) (fun a => div_entry dims r a i)) 0%nat)) by (rewrite map_length, seq_length; auto).
  rewrite (map_nth (fun i => RS (length dims) (fun a => div_entry dims r a i))), seq_nth by auto. cbn [Nat.add]. fold d. unfold get. match goal with |- ?a - gamma * ?b = ?a1 + gamma * - ?b1 => change a1 with a; change b1 with b; generalize a, b end. intros; ring.
Qed.
Lemma magn_pix r i : length r = (d * N)%nat -> magn dims r i = pixnorm dims (ofl (d * N) r) i \/ ~ (i < N)%nat.
Proof.
  intro Hr. destruct (lt_dec i N) as [Hi|]; [left|right; auto]. assert (EN : RS d (fun a => dent dims (ofl (d * N) r) a i * dent dims (ofl (d * N) r) a i) = RS d (fun a => ent N r a i * ent N r a i)).
  { apply RS_ext. intros a Ha. unfold dent. rewrite get_ofl by (apply flat_lt; auto). reflexivity. }
  unfold pixnorm. fold d N in EN |- *. rewrite EN. unfold magn. fold d. clear EN Hr. generalize d. intro d0. destruct d0 as [|[|d']]; [reflexivity| |reflexivity]. cbn [RS]. rewrite Rplus_0_l. rewrite <- sqrt_Rsqr_abs. unfold Rsqr. reflexivity.
Qed.
Lemma grad_vec (v : Vec N) : tv_grad dims (lst v) = lst (D v).
Proof. reflexivity. Qed.
Lemma tv_call_vec (v : Vec N) s : tv_call s dims (lst v) = Ok (s * tv_fun dims v).
Proof.
  unfold tv_call. rewrite lst_length. fold N. rewrite Nat.eqb_refl. cbn [negb]. rewrite (match_ne dims) by lia. do 2 f_equal.
  assert (H : forall (h : nat -> R) n a, Rsum (map h (seq a n)) = RS n (fun i => h (a + i)%nat)).
  { intros h n. induction n as [|n IH]; intro a; [reflexivity|]. cbn [seq map Rsum]. rewrite IH, RS_shift. f_equal; [f_equal; lia|]. apply RS_ext. intros i _. f_equal. lia. }
  rewrite H. unfold tv_fun. apply RS_ext. intros i Hi. cbn [Nat.add]. destruct (magn_pix (tv_grad dims (lst v)) i) as [E|E]; [apply tab_length| |contradiction]. rewrite E. f_equal. rewrite grad_vec. apply (ofl_lst _ (D v)).
Qed.

(** the pass as a state transformation *)
Definition cst : R := INR (4 * d) * gamma * (mt * mt).
Definition r1L (r : list R) : list R := map2 (fun a b => a - 1 / cst * b) r (tv_grad dims (solL r)).
Definition pL (r : list R) : list R := tab d N (fun a i => ent N (r1L r) a i / Rmax 1 (magn dims (r1L r) i)).
Definition objL (r : list R) : R := / 2 * sumsq (map2 Rminus (lst x) (solL r)) + gamma * (sigma * tv_fun dims (ofl N (solL r))).
Definition relL (s : TVst) : R := if Rltb (/ 10 ^ 10) (objL (tr s)) then Rabs (objL (tr s) - tprev s) / objL (tr s) else 2 * rtol.
Definition pass (s : TVst) : TVst :=
  let t := (1 + sqrt (4 * (ttold s * ttold s))) / 2 in
  mkTVst (map2 (fun a b => a + (ttold s - 1) / t * (a - b)) (pL (tr s)) (tpold s)) (pL (tr s)) t (objL (tr s)) (solL (tr s)).
Definition stop (s : TVst) : bool := Rltb (relL s) rtol.
Lemma cst_pos : 0 < cst.
Proof. unfold cst. assert (0 < INR (4 * d)) by (apply lt_0_INR; unfold d; lia). apply Rmult_lt_0_compat; [nra|nra]. Qed.
Lemma forallb_dims : forallb (Nat.leb 2) dims = true.
Proof. apply forallb_forall. intros n Hn. apply Nat.leb_le. apply Hdims. auto. Qed.
Lemma tv_body_ok s : tv_body sigma gamma rtol mt dims (lst x) s = Ok (if stop s then mkTVst (tr s) (tpold s) (ttold s) (objL (tr s)) (solL (tr s)) else pass s, stop s).
Proof.
  unfold tv_body. rewrite forallb_dims. cbn [negb]. fold (solL (tr s)). rewrite <- (lst_ofl N (solL (tr s))) at 1 by apply solL_length. rewrite tv_call_vec. cbn [bind].
  fold (objL (tr s)). fold (relL s). fold (stop s). destruct (stop s); [reflexivity|]. fold d. fold cst. destruct (Reqb_spec cst 0) as [[E _]|[_ ->]]; [pose proof cst_pos; lra|]. reflexivity.
Qed.
Definition st0 : TVst := mkTVst (repeat 0 (d * N)) (repeat 0 (d * N)) 1 0 (lst x).
Definition stk (k : nat) : TVst := Base.iter k pass st0.
(** the run with n + 1 passes returns the solution of pass k, the first one that passes the test, or the last *)
Lemma run_states n : exists k s', for_loop (fun _ => tv_body sigma gamma rtol mt dims (lst x)) (S n) 0 st0 = Ok s' /\ tsol (fst s') = solL (tr (stk k)) /\ (k <= n)%nat /\
  (forall j, (j < k)%nat -> stop (stk j) = false) /\ (k = n \/ stop (stk k) = true).
Proof.
  assert (G : forall n i, exists k s', for_loop (fun _ => tv_body sigma gamma rtol mt dims (lst x)) (S n) i (stk i) = Ok s' /\ tsol (fst s') = solL (tr (stk k)) /\ (i <= k <= i + n)%nat /\
    (forall j, (i <= j < k)%nat -> stop (stk j) = false) /\ (k = (i + n)%nat \/ stop (stk k) = true)).
  { clear n. induction n as [|n IH]; intro i.
    - cbn [for_loop]. rewrite tv_body_ok. cbn [bind fst snd]. exists i. destruct (stop (stk i)) eqn:Es.
      + eexists. split; [reflexivity|]. split; [reflexivity|]. split; [lia|]. split; [intros; lia|]. left; lia.
      + eexists. split; [reflexivity|]. split; [reflexivity|]. split; [lia|]. split; [intros; lia|]. left; lia.
    - change (for_loop (fun _ => tv_body sigma gamma rtol mt dims (lst x)) (S (S n)) i (stk i)) with (p <- tv_body sigma gamma rtol mt dims (lst x) (stk i) ;; if snd p then Ok (fst p, S i) else for_loop (fun _ => tv_body sigma gamma rtol mt dims (lst x)) (S n) (S i) (fst p)).
      rewrite tv_body_ok. cbn [bind fst snd]. destruct (stop (stk i)) eqn:Es.
      + exists i. eexists. split; [reflexivity|]. split; [reflexivity|]. split; [lia|]. split; [intros; lia|]. right; auto.
      + assert (EP : pass (stk i) = stk (S i)) by (unfold stk; rewrite iter_S_out; reflexivity). rewrite EP. destruct (IH (S i)) as (k & s' & H1 & H2 & H3 & H4 & H5). exists k, s'. split; [exact H1|]. split; [exact H2|]. split; [lia|]. split.
        * intros j Hj. destruct (Nat.eq_dec j i) as [->|]; [auto|]. apply H4. lia.
        * destruct H5 as [->|H5]; [left; lia|right; auto]. }
  destruct (G n 0%nat) as (k & s' & H1 & H2 & H3 & H4 & H5). exists k, s'. split; [exact H1|]. split; [exact H2|]. split; [lia|]. split; [intros; apply H4; lia|]. destruct H5 as [->|H5]; auto.
Qed.

(** the dual sequences *)
Definition psv (k : nat) : Vec (d * N) := ofl (d * N) (tpold (stk k)).
Definition ysv (k : nat) : Vec (d * N) := ofl (d * N) (tr (stk k)).
Lemma stk_S k : stk (S k) = pass (stk k). Proof. unfold stk. apply iter_S_out. Qed.
Lemma r1L_length r : length r = (d * N)%nat -> length (r1L r) = (d * N)%nat.
Proof. intro H. unfold r1L. rewrite map2_length; [auto|]. unfold tv_grad. rewrite tab_length. auto. Qed.
Lemma stk_len k : length (tr (stk k)) = (d * N)%nat /\ length (tpold (stk k)) = (d * N)%nat.
Proof.
  induction k as [|k [H1 H2]]; [split; apply repeat_length|]. rewrite stk_S. unfold pass. cbn [tr tpold]. assert (EL : length (pL (tr (stk k))) = (d * N)%nat) by apply tab_length. split; [rewrite map2_length; congruence|auto].
Qed.
Lemma stk_told k : ttold (stk k) = t2 k.
Proof.
  induction k as [|k IH]; [unfold t2; simpl; lra|]. rewrite stk_S. unfold pass. cbn [ttold]. rewrite IH. rewrite t2_S. pose proof (t2_ge1 k). replace (4 * (t2 k * t2 k)) with ((2 * t2 k) * (2 * t2 k)) by ring. rewrite sqrt_square by lra. field.
Qed.
Definition sstep : R := / (gamma * gamma * (INR (4 * d) * (mt * mt))).
Lemma ps_step k : is_proj K (ysv k [-] sstep [*] dgrad D gamma x (ysv k)) (psv (S k)).
Proof.
  destruct (stk_len k) as [Hr _]. set (r := tr (stk k)) in *.
  assert (ER : ofl (d * N) (r1L r) = ysv k [-] sstep [*] dgrad D gamma x (ysv k)).
  { apply vec_ext. intros i Hi. rewrite get_ofl by auto. unfold r1L. rewrite map2_nth by (unfold tv_grad; rewrite ?tab_length; auto; rewrite Hr; auto). rewrite get_sub, get_scal by auto. unfold ysv. fold r. rewrite get_ofl by auto.
    unfold dgrad. rewrite get_scal by auto. rewrite solL_vec by auto. rewrite grad_vec. fold (get (D (dsol D gamma x (ofl (d * N) r))) i).
    assert (EC : sstep * gamma = 1 / cst). { unfold sstep, cst. field. assert (0 < INR (4 * d)) by (apply lt_0_INR; unfold d; lia). repeat split; lra. } rewrite <- EC. ring. }
  rewrite <- ER. assert (EP : psv (S k) = pixproj dims (ofl (d * N) (r1L r))).
  { apply (dual_ext dims). intros a i Ha Hi. unfold pixproj. rewrite dent_dtab by auto. unfold psv. rewrite stk_S. unfold pass. cbn [tpold]. fold r. unfold dent at 1. rewrite get_ofl by (apply flat_lt; auto). unfold pL. rewrite tab_nth by (apply flat_lt; auto). fold N. destruct (divmod_flat N a i Hi) as [-> ->].
    destruct (magn_pix (r1L r) i (r1L_length r Hr)) as [E|E]; [|contradiction]. rewrite E. f_equal. unfold dent. rewrite get_ofl by (apply flat_lt; auto). reflexivity. }
  rewrite EP. apply pixproj_ok.
Qed.
Lemma ys_step k : ysv (S k) = psv (S k) [+] ((t2 k - 1) / t2 (S k)) [*] (psv (S k) [-] psv k).
Proof.
  destruct (stk_len k) as [Hr Hp]. destruct (stk_len (S k)) as [_ Hp']. pose proof (stk_told (S k)) as HT. rewrite stk_S in HT. unfold pass in HT. cbn [ttold] in HT. apply vec_ext. intros i Hi. rewrite get_add, get_scal, get_sub by auto. unfold ysv, psv. rewrite !get_ofl by auto. rewrite stk_S in *. unfold pass in *. cbn [tr tpold] in *.
  rewrite map2_nth; [|congruence|rewrite Hp'; auto]. rewrite HT, stk_told. reflexivity.
Qed.
Lemma ps_0 : psv 0 = vzero. Proof. apply vec_ext. intros i Hi. unfold psv. rewrite get_ofl, get_zero by auto. cbn. apply nth_repeat. Qed.
Lemma ys_0 : ysv 0 = vzero. Proof. apply vec_ext. intros i Hi. unfold ysv. rewrite get_ofl, get_zero by auto. cbn. apply nth_repeat. Qed.
End Run.
