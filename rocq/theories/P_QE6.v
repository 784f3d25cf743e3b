(** * Quadratic envelope of a rank bound plus a least-squares term (M_QE.v) *)
From Coq Require Import Permutation Sorting.
From Verif Require Import Base Space Spec SpecOps ConvexFacts Sep M_ProxOp M_L1 M_Pen MatFacts VSum M_Proj P_Proj2 M_L0 P_L0 M_SVD SVD SVD2 P_SVD M_QE P_QE P_QE2 P_QE3 P_QE4 P_QE5.
From Verif Require Export S_QE6.

(** ** Specification *)

(** ** Rank and singular values *)
Lemma outer_synth m n k s (u : nat -> Vec m) (v : nat -> Vec n) a b : << outer a b, synth k s u v >> = RS k (fun i => s i * (<< a, u i >> * << b, v i >>)).
Proof. unfold synth. rewrite inner_VS_r. apply RS_ext. intros i Hi. rewrite inner_scal_r, outer_inner. ring. Qed.
Lemma lowrank_sv m n r0 (X : Vec (m * n)) s : lowrank r0 X -> sing_vals X s -> forall i, (r0 <= i < Nat.min m n)%nat -> s i = 0.
Proof.
  intros [a [b HX]] [u [v [[Hs Hs0] [Hu [Hv EX]]]]] i Hi. set (k := Nat.min m n) in *.
  destruct (Rle_lt_or_eq_dec 0 (s i) (Hs0 i ltac:(lia))) as [Hp|]; [exfalso|auto].
  set (B := vtab (S r0 * r0) (fun p => << b (p mod r0)%nat, v (p / r0)%nat >>)).
  destruct (svd_exists (S r0) r0 B) as [s' [u' [v' [_ [Hu' [_ EB]]]]]]. replace (Nat.min (S r0) r0) with r0 in * by lia.
  destruct (on_extend (S r0) r0 u' Hu' ltac:(lia)) as [w [Hw Hw0]].
  assert (HB : forall j, (j < r0)%nat -> RS (S r0) (fun l => get w l * << b j, v l >>) = 0).
  { intros j Hj. assert (E : << outer w (basis r0 j), B >> = 0).
    { rewrite EB, outer_synth. rewrite (RS_ext r0 _ (fun _ => 0)); [apply RS_zero|]. intros q Hq. rewrite (inner_sym w), Hw0 by auto. ring. }
    rewrite <- mtv_bil, basis_inner in E by auto. unfold mtv in E. rewrite get_vtab in E by auto. rewrite <- E. apply RS_ext. intros l Hl.
    unfold B. rewrite get_vtab by (apply flat_lt; auto). destruct (divmod_flat r0 l j Hj) as [-> ->]. ring. }
  set (y := VS (S r0) (fun l => get w l [*] v l)).
  assert (Hz : forall l, (l < S r0)%nat -> get w l = 0).
  { intros l Hl. assert (E : << outer (u l) y, X >> = 0).
    { rewrite HX, inner_VS_r. rewrite (RS_ext r0 _ (fun _ => 0)); [apply RS_zero|]. intros j Hj. rewrite outer_inner. unfold y. rewrite inner_VS_l.
      rewrite (RS_ext (S r0) _ (fun l => get w l * << b j, v l >>)) by (intros q Hq; rewrite inner_scal_l, (inner_sym (v q)); reflexivity). rewrite HB by auto. ring. }
    rewrite EX, outer_synth in E. rewrite (RS_dlt k l (s l * get w l)) in E; [|lia|].
    - assert (Hsl : 0 < s l) by (pose proof (Hs l i ltac:(lia) ltac:(lia)); lra). destruct (Rmult_integral _ _ E); lra.
    - intros q Hq. rewrite Hu by lia. rewrite (Nat.eqb_sym l q). destruct (Nat.eqb_spec q l) as [->|]; [|ring].
      unfold y. rewrite inner_VS_l. rewrite (RS_dlt (S r0) l (get w l)); auto; [ring|]. intros t Ht. rewrite inner_scal_l, Hv by lia. destruct (Nat.eqb_spec t l) as [->|]; ring. }
  rewrite vec_norm2 in Hw. rewrite (RS_ext _ _ (fun _ => 0)), RS_zero in Hw; [lra|]. intros l Hl. rewrite Hz by auto. ring.
Qed.
Lemma lowrank_synth m n r0 k c (u : nat -> Vec m) (v : nat -> Vec n) : (length (filter (fun i => negb (Reqb (c i) 0)) (seq 0 k)) <= r0)%nat -> lowrank r0 (synth k c u v).
Proof.
  intro H. assert (G : forall k, exists (a : nat -> Vec m) (b : nat -> Vec n), synth k c u v = VS (length (filter (fun i => negb (Reqb (c i) 0)) (seq 0 k))) (fun i => outer (a i) (b i))).
  { clear. induction k as [|k [a [b IH]]]; [exists u, v; reflexivity|]. rewrite seq_S, filter_app, app_length. cbn [filter Nat.add].
    unfold synth in *. cbn [VS]. rewrite IH. destruct (Reqb_spec (c k) 0) as [[E ->]|[E ->]]; cbn [negb length].
    - exists a, b. rewrite Nat.add_0_r, E. vring.
    - set (q := length _). exists (setf a q (c k [*] u k)), (setf b q (v k)). rewrite Nat.add_1_r. cbn [VS]. rewrite !setf_eq, outer_scal_l. f_equal.
      apply VS_ext. intros i Hi. rewrite !setf_ne by auto. reflexivity. }
  destruct (G k) as [a [b E]]. set (q := length _) in *. rewrite E. exists (fun i => if (i <? q)%nat then a i else vzero), b.
  replace r0 with (q + (r0 - q))%nat by lia. assert (S2 : forall d, VS (q + d) (fun i => outer (if (i <? q)%nat then a i else vzero) (b i)) = VS q (fun i => outer (a i) (b i))).
  { induction d as [|d IHd].
    - rewrite Nat.add_0_r. apply VS_ext. intros i Hi. destruct (Nat.ltb_spec i q); [auto|lia].
    - rewrite Nat.add_succ_r. cbn [VS]. rewrite IHd. destruct (Nat.ltb_spec (q + d) q); [lia|].
      replace (outer (vzero : Vec m) (b (q + d)%nat)) with (vzero : Vec (m * n)); [vring|]. apply mat_ext. intros i j Hi Hj. rewrite get_outer, !get_zero by auto. ring. }
  symmetry. apply S2.
Qed.

(** ** The conjugate on matrices *)
Section Mat.
Context {m n : nat} (r0 : nat) (Hr : (0 < r0)%nat) (hs hss : efun (Vec (m * n))) (H1 : is_conj (sq_on (lowrank r0)) hs) (H2 : is_conj hs hss).
Notation k := (Nat.min m n).
Context (u : nat -> Vec m) (v : nat -> Vec n) (Hu : orthonormal k u) (Hv : orthonormal k v).

Lemma synth_coef c (Z : Vec (m * n)) : << synth k c u v, Z >> = RS k (fun l => c l * << outer (u l) (v l), Z >>).
Proof. unfold synth. rewrite inner_VS_l. apply RS_ext. intros. apply inner_scal_l. Qed.
Lemma mat_ge th (Z : Vec (m * n)) : (forall i, (i < k)%nat -> 0 <= th i <= 1) -> RS k th = INR r0 -> edom hs Z ->
  / 2 * RS k (fun i => th i * (<< outer (u i) (v i), Z >> * << outer (u i) (v i), Z >>)) <= eval hs Z.
Proof.
  intros Hth HS HZ. set (c := vtab k (fun i => << outer (u i) (v i), Z >>)).
  pose proof (hs_ge r0 Hr _ (sparse_conj k r0 Hr) th c Hth HS I) as Hg. cbn [eval etot] in Hg.
  pose proof (l0_proj_exact isort isort_ok k r0 c Hr) as [HW _]. set (W := l0_proj isort (Z.of_nat r0) c) in *.
  assert (EW : RS k (fun l => get W l * get c l) = norm2 W).
  { rewrite vec_norm2. apply RS_ext. intros i Hi. unfold W, l0_proj. rewrite get_vtab by auto. destruct (mem _ _); ring. }
  rewrite (RS_ext k _ (fun i => th i * (get c i * get c i))) by (intros i Hi; unfold c; rewrite get_vtab by auto; reflexivity).
  eapply Rle_trans; [exact Hg|]. destruct H1 as [_ H1']. destruct (H1' Z) as [_ Hl]. destruct (Hl HZ) as [Hub _].
  assert (HL : lowrank r0 (synth k (get W) u v)) by (apply lowrank_synth; exact HW).
  assert (Hq : << Z, synth k (get W) u v >> - / 2 * norm2 (synth k (get W) u v) <= eval hs Z) by (apply Hub; exists (synth k (get W) u v); split; auto).
  rewrite inner_sym, synth_coef in Hq. unfold norm2 in Hq at 1. rewrite synth_same in Hq by auto. rewrite <- vec_norm2 in Hq.
  rewrite (RS_ext k _ (fun l => get W l * get c l)) in Hq by (intros i Hi; unfold c; rewrite get_vtab by auto; reflexivity). rewrite EW in Hq. lra.
Qed.
Lemma mat_le th s (z : Vec k) (Y : Vec (m * n)) : levelled r0 th s z -> noninc k (get z) -> lowrank r0 Y ->
  << synth k (get z) u v, Y >> - / 2 * norm2 Y <= / 2 * RS k (fun i => th i * (get z i * get z i)).
Proof.
  intros HL Hz HY. destruct (svd_exists m n Y) as [t [u' [v' HS]]]. pose proof (lowrank_sv m n r0 Y t HY ltac:(exists u', v'; exact HS)) as H0.
  destruct HS as [Ht [Hu' [Hv' EY]]]. set (y := vtab k t).
  assert (Hy : l0_ball r0 y).
  { unfold l0_ball, nnz. destruct (Nat.le_gt_cases r0 k) as [Hk|Hk].
    - apply INR_le. rewrite <- RS_count, <- (RS_head k r0 Hk). apply RS_le. intros i Hi. unfold y. rewrite get_vtab by auto. destruct (Nat.ltb_spec i r0); [destruct (negb _); lra|].
      rewrite H0 by lia. destruct (Reqb_spec 0 0) as [[_ ->]|[? _]]; [simpl; lra|lra].
    - apply Nat.le_trans with (length (seq 0 k)); [|rewrite seq_length; lia]. generalize (seq 0 k) as l. induction l as [|a l IHl]; simpl; auto. destruct (negb _); simpl; lia. }
  pose proof (sparse_le r0 th s z y HL Hy) as Hv0. eapply Rle_trans; [|exact Hv0].
  assert (EN : norm2 Y = norm2 y). { rewrite EY. unfold norm2 at 1. rewrite synth_same by auto. rewrite vec_norm2. apply RS_ext. intros i Hi. unfold y. rewrite get_vtab by auto. reflexivity. }
  rewrite EN. apply Rplus_le_compat_r. rewrite EY. eapply Rle_trans; [apply trace_ineq; auto|]. rewrite vec_inner. apply Req_le, RS_ext. intros i Hi. unfold y. rewrite get_vtab by auto. reflexivity.
Qed.
Lemma mat_tight th s (z : Vec k) : levelled r0 th s z -> noninc k (get z) ->
  tight hs (synth k (fun i => th i * get z i) u v) (synth k (get z) u v) (/ 2 * RS k (fun i => th i * (get z i * get z i))).
Proof.
  intros HL Hz. set (X := synth k (fun i => th i * get z i) u v). set (Z := synth k (get z) u v). set (q := RS k (fun i => th i * (get z i * get z i))). pose proof HL as [Hth [HS _]].
  destruct H1 as [_ H1']. destruct (H1' Z) as [Hd Hl]. assert (HZ : edom hs Z) by (apply Hd; eexists; intros y Hy; apply (mat_le th s z y HL Hz Hy)).
  assert (EZ : eval hs Z = / 2 * q).
  { apply Rle_antisym.
    - apply (Hl HZ). intros t [y [Hy ->]]. apply (mat_le th s z y HL Hz Hy).
    - eapply Rle_trans; [|apply (mat_ge th Z Hth HS HZ)]. apply Req_le. f_equal. apply RS_ext. intros i Hi.
      assert (Ei : << outer (u i) (v i), Z >> = get z i); [|rewrite Ei; reflexivity]. unfold Z. rewrite outer_synth. apply (RS_dlt k i); auto. intros j Hj. rewrite Hu, Hv by auto. rewrite (Nat.eqb_sym i j). destruct (Nat.eqb_spec j i) as [->|]; ring. }
  split; [|split; [auto|]].
  - intros Z' HZ'. pose proof (mat_ge th Z' Hth HS HZ') as Hg. unfold X. rewrite synth_coef. set (c := fun i => << outer (u i) (v i), Z' >>) in *.
    assert (Hc : RS k (fun l => th l * get z l * c l) <= RS k (fun i => / 2 * (th i * (c i * c i)) + / 2 * (th i * (get z i * get z i)))).
    { apply RS_le. intros i Hi. pose proof (Rle_0_sqr (get z i - c i)) as Hq. unfold Rsqr in Hq. pose proof (Hth i Hi).
      assert (0 <= th i * ((get z i - c i) * (get z i - c i))) by (apply Rmult_le_pos; lra). lra. }
    rewrite RS_add, !RS_scal in Hc. fold q in Hc. change (RS k (fun l => th l * get z l * << outer (u l) (v l), Z' >>)) with (RS k (fun l => th l * get z l * c l)).
    change (/ 2 * RS k (fun i => th i * (c i * c i)) <= eval hs Z') in Hg. lra.
  - unfold X, Z at 1. rewrite synth_same by auto. rewrite (RS_ext k _ (fun i => th i * (get z i * get z i))) by (intros; ring). fold q. rewrite EZ. field.
Qed.
End Mat.

Lemma ls_prox {E : IPS} (Q : efun E) rho (M x Y p : E) : 0 < rho -> Y = / (1 + rho) [*] (M [+] rho [*] x) -> is_prox Q (1 / (1 + rho)) Y p -> is_prox (plus_ls Q M) (1 / rho) x p.
Proof.
  intros Hr EY [Hp Hm]. split; [exact Hp|]. intros w Hw. specialize (Hm w Hw). cbn [eval plus_ls]. replace (/ (2 * (1 / (1 + rho)))) with (/ 2 * (1 + rho)) in Hm by (field; lra).
  replace (/ (2 * (1 / rho))) with (/ 2 * rho) by (field; lra).
  assert (EM : M = (1 + rho) [*] Y [-] rho [*] x). { rewrite EY, vscal_vscal. replace ((1 + rho) * / (1 + rho)) with 1 by (field; lra). vring. }
  rewrite EM. revert Hm. unfold norm2. iexp. intro. nra.
Qed.
Lemma synth_env m n k P y z th (u : nat -> Vec m) (v : nat -> Vec n) : (forall i, (i < k)%nat -> (P * y i - z i) / (P - 1) = th i * z i) ->
  / (P - 1) [*] (P [*] synth k y u v [-] synth k z u v) = synth k (fun i => th i * z i) u v.
Proof.
  intro H. unfold synth. rewrite <- VS_scal, <- VS_sub, <- VS_scal. apply VS_ext. intros i Hi. rewrite <- H by auto. unfold Rdiv. rewrite (Rmult_comm (P * y i - z i)), <- vscal_vscal. f_equal. vring.
Qed.


(*! C31_rank_prox : for every shape, 1 <= r0 <= min(m, n), tau > 0, target matrix and input, whatever sorting permutation and singular vectors numpy picks, QuadraticEnvelopeRankL2.prox returns
   (its level search always breaks, no IndexError) a global minimiser of Q(u) + |u - M|^2/2 + |u - x|^2/(2 tau), Q the quadratic envelope of the indicator of {rank at most r0};
   required: min(m, n) >= 3, or min(m, n) = 2 with r0 = 2 or the two singular values of (M + x/tau)/(1 + 1/tau) within a factor 1 + 1/tau *)
Lemma C31_rank_prox_l : forall argsort, argsort_ok argsort -> forall m n (svd : svdT m n) eig r0 M (Q : efun (Vec (m * n))) fuel (x : Vec (m * n)) tau,
  quad_env (lowrank r0) Q -> (0 < r0 <= Nat.min m n)%nat -> 0 < tau ->
  let Y := / (1 + 1 / tau) [*] (M [+] (1 / tau) [*] x) in svd_at svd Y -> rl_shape (Nat.min m n) r0 (svals Y) (1 / tau) ->
  exists p, o_prox (obj (S fuel) (rl_body argsort svd eig r0 M)) x tau = Ok p /\ is_prox (plus_ls Q M) tau x p.
Proof.
  intros argsort HA m n svd eig r0 M Q fuel x tau [hs [hss [H1 [H2 [HD HE]]]]] Hr Ht Y Hsvd Hsh. set (k := Nat.min m n) in *.
  simpl. unfold check_tau. destruct (Rleb_spec tau 0) as [[? _]|[_ ->]]; [lra|]. unfold rl_prox. set (rho := 1 / tau) in *. fold Y.
  assert (Hrho : 0 < rho) by (apply Rmult_lt_0_compat; [lra|apply Rinv_0_lt_compat; auto]).
  pose proof (svd_at_vals m n svd Y Hsvd) as Hvals. unfold svd_at in Hsvd. destruct (svd Y) as [[U yk] Vh] eqn:Esv. cbn [fst snd] in *. destruct Hsvd as [[Hs Hs0] [Hu [Hv EY]]]. fold k in Hs, Hs0, Hu, Hv, EY, Hvals.
  assert (Hlen : length (lst yk) = k) by apply lst_length.
  destruct (rl_core_ok argsort HA rho Hrho r0 (lst yk)) as [zl [Ez [[Hzl [th [s [Hs' [HS HG]]]]] Hnz]]].
  - rewrite Hlen. auto.
  - intros i j Hij. apply Hs; lia.
  - intros j Hj. apply Hs0. lia.
  - rewrite Hlen. destruct Hsh as [H|[H [H3|H3]]]; [left; auto|right; split; auto|right; split; auto; right]. rewrite !Hvals in H3 by lia. exact H3.
  - rewrite Ez. cbn [bind]. rewrite Hlen in *. set (z := vtab k (nthr zl)).
    assert (Hz : forall i, (i < k)%nat -> get z i = nth i zl 0) by (intros i Hi; unfold z; rewrite get_vtab by auto; reflexivity).
    assert (HL : levelled r0 th s z).
    { split; [intros i Hi; apply (HG i Hi)|]. split; [auto|]. split; [auto|]. intros i Hi. rewrite Hz by auto. destruct (HG i Hi) as [_ [G1 [_ [_ [G2 G3]]]]]. rewrite Rabs_right by lra. auto. }
    assert (Hn : noninc k (get z)). { destruct Hnz as [N1 N2]. split; [intros i j Hi Hj|intros i Hi]; rewrite !Hz by lia; [apply N1|apply N2]; auto. }
    fold k. fold z. rewrite usv_synth.
    destruct (tight_hss hs hss H2 _ _ _ (mat_tight r0 ltac:(lia) hs H1 (colv U) (rowv Vh) Hu Hv th s z HL Hn)) as [_ [_ Hsub]]. fold k in Hsub.
    eexists. split; [reflexivity|]. set (Z := synth k (get z) (colv U) (rowv Vh)) in *. set (p := x [+] / rho [*] (M [-] Z)).
    assert (Ep : p = / (1 + rho - 1) [*] ((1 + rho) [*] Y [-] Z)).
    { unfold p, Y. rewrite vscal_vscal. replace ((1 + rho) * / (1 + rho)) with 1 by (field; lra). replace (1 + rho - 1) with rho by ring.
      apply vec_ext. intros i Hi. rewrite !get_add, !get_scal, !get_sub, !get_scal, !get_add, !get_scal by auto. field. lra. }
    assert (Ex : p = synth k (fun i => th i * get z i) (colv U) (rowv Vh)).
    { rewrite Ep, EY. apply synth_env. intros i Hi. rewrite Hz by auto. destruct (HG i Hi) as [_ [_ [_ [G _]]]]. exact G. }
    replace tau with (1 / rho) by (unfold rho; field; lra). apply (ls_prox Q rho M x Y p Hrho eq_refl).
    apply (env_prox hss Q (1 + rho) Y p Z HD HE); [lra| |exact Ep]. rewrite Ex. exact Hsub.
Qed.

Lemma argsort_one argsort a : argsort_ok argsort -> argsort [a] = [0%nat].
Proof. intro HA. destruct (HA [a]) as [HP _]. simpl in HP. apply Permutation_sym, Permutation_length_1_inv in HP. exact HP. Qed.
Lemma argsort_swap argsort a b : argsort_ok argsort -> b < a -> argsort [a; b] = [1%nat; 0%nat].
Proof.
  intros HA H. destruct (HA [a; b]) as [HP HS]. simpl in HP. apply Permutation_sym, Permutation_length_2_inv in HP. destruct HP as [HP|HP]; rewrite HP in *; [|auto].
  inversion HS as [|? ? _ HF]; subst. inversion HF as [|? ? H0 _]; subst. simpl in H0. lra.
Qed.
(*! C31_rank_index_refuted : when min(m, n) = 1, and when min(m, n) = 2 with r0 = 1 and the first singular value of (M + x/tau)/(1 + 1/tau) exceeds (1 + 1/tau) times the second,
   QuadraticEnvelopeRankL2.prox raises IndexError: the level search reads one entry past the end of the breakpoints *)
Lemma C31_rank_index_refuted_l : forall argsort, argsort_ok argsort -> forall m n (svd : svdT m n) eig M fuel (x : Vec (m * n)) tau, 0 < tau ->
  let Y := / (1 + 1 / tau) [*] (M [+] (1 / tau) [*] x) in svd_at svd Y ->
  (Nat.min m n = 1%nat \/ (Nat.min m n = 2%nat /\ (1 + 1 / tau) * svals Y 1 < svals Y 0)) ->
  o_prox (obj (S fuel) (rl_body argsort svd eig 1 M)) x tau = Err IndexError.
Proof.
  intros argsort HA m n svd eig M fuel x tau Ht Y Hsvd Hsh. simpl. unfold check_tau. destruct (Rleb_spec tau 0) as [[? _]|[_ ->]]; [lra|]. unfold rl_prox. set (rho := 1 / tau) in *. fold Y.
  assert (Hrho : 0 < rho) by (apply Rmult_lt_0_compat; [lra|apply Rinv_0_lt_compat; auto]). assert (Hc : 0 < (rho + 1) / rho) by (apply Rmult_lt_0_compat; [lra|apply Rinv_0_lt_compat; auto]).
  pose proof (svd_at_vals m n svd Y Hsvd) as Hvals. destruct (svd Y) as [[U yk] Vh] eqn:Esv. cbn [fst snd] in *. pose proof (lst_length _ yk) as Hlen. unfold get in Hvals.
  destruct Hsh as [Hk|[Hk Hlt]].
  - rewrite Hk in Hlen. destruct (lst yk) as [|a [|]]; simpl in Hlen; try lia. unfold rl_core. cbn [firstn skipn map app length Rsum]. rewrite argsort_one by auto. cbn [rl_loop take map nth Nat.ltb Nat.leb nth_error].
    simpl INR. replace ((1 - 1) / rho + (rho + 1) / rho) with ((rho + 1) / rho) by (field; lra). destruct (Reqb_spec ((rho + 1) / rho) 0) as [[? _]|[_ ->]]; [lra|].
    replace (((rho + 1) / rho * 0 + (rho + 1) / rho * a) / ((rho + 1) / rho)) with a by (field; lra). destruct (Rleb_spec a a) as [[_ ->]|[? _]]; [reflexivity|lra].
  - rewrite !Hvals in Hlt by lia. rewrite Hk in Hlen. destruct (lst yk) as [|a [|b [|]]]; simpl in Hlen; try lia. cbn [nth] in Hlt. unfold rl_core. cbn [firstn skipn map app length Rsum]. rewrite argsort_swap by auto.
    cbn [rl_loop take map nth Nat.ltb Nat.leb nth_error]. simpl INR. replace ((1 + 1 - 1) / rho - 1 / rho) with 0 by (field; lra). destruct (Reqb_spec 0 0) as [[_ ->]|[? _]]; [|lra].
    rewrite Rplus_0_l. destruct (Reqb_spec ((rho + 1) / rho) 0) as [[? _]|[_ ->]]; [lra|].
    replace (((rho + 1) / rho * (b + 0) - (rho + 1) / rho * b + (rho + 1) / rho * a) / ((rho + 1) / rho)) with a by (field; lra). destruct (Rleb_spec a a) as [[_ ->]|[? _]]; [reflexivity|lra].
Qed.

Lemma lowrank_all m n r0 (X : Vec (m * n)) : (Nat.min m n <= r0)%nat -> lowrank r0 X.
Proof.
  intro H. destruct (svd_exists m n X) as [s [u [v [_ [_ [_ E]]]]]]. rewrite E. apply lowrank_synth. apply Nat.le_trans with (length (seq 0 (Nat.min m n))); [|rewrite seq_length; auto].
  generalize (seq 0 (Nat.min m n)) as l. induction l as [|a l IHl]; simpl; auto. destruct (negb _); simpl; lia.
Qed.
Lemma env_zero {E : IPS} (C : E -> Prop) (Q : efun E) x : quad_env C Q -> C x -> edom Q x /\ eval Q x = 0.
Proof.
  intros [hs [hss [H1 [H2 [HD HE]]]]] Hx. destruct (tight_hss hs hss H2 x x _ (sparse_tight C hs H1 x Hx)) as [Hd [Ev _]]. split; [apply HD; auto|]. rewrite HE, Ev by auto. ring.
Qed.
(*! C31_rank_bound_refuted : r0 above the number of singular values (r0 = 3, min(m, n) = 2): the rank bound is void, so the minimiser at x = M is M, but whenever M has singular values 3 and 1 and tau = 1,
   QuadraticEnvelopeRankL2.prox returns another matrix *)
Lemma C31_rank_bound_refuted_l : forall argsort, argsort_ok argsort -> forall m n (svd : svdT m n) eig M (Q : efun (Vec (m * n))) fuel, Nat.min m n = 2%nat -> quad_env (lowrank 3) Q ->
  svd_at svd M -> svals M 0 = 3 -> svals M 1 = 1 ->
  exists p, o_prox (obj (S fuel) (rl_body argsort svd eig 3 M)) M 1 = Ok p /\ ~ is_prox (plus_ls Q M) 1 M p.
Proof.
  intros argsort HA m n svd eig M Q fuel Hk HQ Hsvd Hs0 Hs1. simpl. unfold check_tau. destruct (Rleb_spec 1 0) as [[? _]|[_ ->]]; [lra|]. unfold rl_prox.
  replace (1 / 1) with 1 by field. replace (/ (1 + 1) [*] (M [+] 1 [*] M)) with M by (apply vec_ext; intros i Hi; rewrite get_scal, get_add, get_scal by auto; field).
  pose proof (svd_at_vals m n svd M Hsvd) as Hvals. unfold svd_at in Hsvd. destruct (svd M) as [[U yk] Vh] eqn:Esv. cbn [fst snd] in *. destruct Hsvd as [_ [Hu [Hv EM]]].
  rewrite Hvals in Hs0, Hs1 by lia. pose proof (lst_length _ yk) as Hlen. unfold get in Hs0, Hs1.
  assert (El : lst yk = [3; 1]). { rewrite Hk in Hlen. destruct (lst yk) as [|a [|b [|]]]; simpl in Hlen; try lia. cbn [nth] in Hs0, Hs1. subst. reflexivity. }
  rewrite El. unfold rl_core. cbn [firstn skipn map app length Rsum]. rewrite argsort_swap by (auto; lra). cbn [rl_loop take map nth Nat.ltb Nat.leb nth_error]. simpl INR.
  replace ((1 + 1 - (1 + 1 + 1)) / 1 + (1 + 1) / 1) with 1 by field. destruct (Reqb_spec 1 0) as [[? _]|[_ ->]]; [lra|].
  replace (((1 + 1) / 1 * 0 + (1 + 1) / 1 * 1) / 1) with 2 by field. destruct (Rleb_spec 1 2) as [[_ ->]|[? _]]; [|lra]. destruct (Rleb_spec 2 3) as [[_ ->]|[? _]]; [|lra]. cbn [bind].
  rewrite Rmax_right, Rmax_left by lra. rewrite usv_synth. eexists. split; [reflexivity|]. set (Z := synth _ _ (colv U) (rowv Vh)).
  assert (EN : norm2 (M [-] Z) = 1).
  { rewrite EM. unfold Z. rewrite svd_same_dist by auto. rewrite (RS_ext _ _ (fun i => (nthr [3; 1] i - nthr [3; 2] i) * (nthr [3; 1] i - nthr [3; 2] i))).
    - rewrite Hk. unfold nthr. cbn. ring.
    - intros i Hi. rewrite get_vtab by auto. unfold get. rewrite El. reflexivity. }
  intros [Hd Hm]. destruct (env_zero _ Q M HQ (lowrank_all m n 3 M ltac:(lia))) as [HdM E0]. specialize (Hm M HdM). cbn [eval plus_ls] in Hm.
  set (p := M [+] / 1 [*] (M [-] Z)) in *. destruct (env_zero _ Q p HQ (lowrank_all m n 3 p ltac:(lia))) as [_ E1]. rewrite E0, E1 in Hm.
  assert (Ep : norm2 (p [-] M) = 1). { rewrite <- EN. f_equal. unfold p. replace (/ 1) with 1 by field. vring. }
  rewrite Ep, vsub_diag, norm2_zero in Hm. lra.
Qed.

(*! C31_rank_call_refuted : evaluating QuadraticEnvelopeRankL2 at a matrix of rank at most r0, where the envelope is zero, returns |x - M|/2; the documented function (the one its prox minimises)
   has the value |x - M|^2/2 there, a different number when |x - M| > 1 *)
Lemma C31_rank_call_refuted_l : forall argsort m n (svd : svdT m n) eig r0 M (Q : efun (Vec (m * n))) fuel (x : Vec (m * n)),
  quad_env (lowrank r0) Q -> eig_at eig (gram x) -> lowrank r0 x -> 1 < norm (x [-] M) ->
  eval (plus_ls Q M) x = / 2 * norm2 (x [-] M) /\
  exists v, o_call (obj fuel (rl_body argsort svd eig r0 M)) x = Ok (VNum v) /\ v = / 2 * norm (x [-] M) /\ v <> eval (plus_ls Q M) x.
Proof.
  intros argsort m n svd eig r0 M Q fuel x HQ He Hx Hn. destruct (env_zero _ Q x HQ Hx) as [_ E0].
  assert (Ev : eval (plus_ls Q M) x = / 2 * norm2 (x [-] M)) by (cbn [eval plus_ls]; rewrite E0; ring). split; auto.
  assert (Hnz : (nnz (sqrt_eigs (eig (gram x))) <= r0)%nat \/ (n <= r0)%nat).
  { destruct (Nat.le_gt_cases n r0) as [H|H]; [auto|left]. unfold nnz. apply INR_le. rewrite <- RS_count, <- RS_rev, <- (RS_head n r0 ltac:(lia)). apply RS_le. intros j Hj.
    rewrite (sqrt_eigs_sing m n x (svals x) eig (svals_ok m n x) He j Hj). unfold padded. destruct (Nat.ltb_spec j r0); [destruct (negb _); lra|]. destruct (Nat.ltb_spec j (Nat.min m n)).
    - rewrite (lowrank_sv m n r0 x _ Hx (svals_ok m n x)) by lia. destruct (Reqb_spec 0 0) as [[_ ->]|[? _]]; [simpl; lra|lra].
    - destruct (Reqb_spec 0 0) as [[_ ->]|[? _]]; [simpl; lra|lra]. }
  exists (/ 2 * norm (x [-] M)). split; [|split; [reflexivity|]].
  - assert (Ec : ci_call argsort r0 (sqrt_eigs (eig (gram x))) = Ok (VNum 0)).
    { unfold ci_call. replace ((n <=? r0)%nat || (nnz (sqrt_eigs (eig (gram x))) <=? r0)%nat) with true; [reflexivity|]. symmetry. apply orb_true_iff. destruct Hnz; [right|left]; apply Nat.leb_le; auto. }
    transitivity (rl_call argsort eig r0 M x); [destruct fuel; reflexivity|]. unfold rl_call. rewrite Ec. cbn [bind as_num]. do 2 f_equal. field.
  - rewrite Ev, <- norm_sq. nra.
Qed.

(** the conjugate of a function whose pairing is bounded exists *)
Lemma conj_exists {E : IPS} (h : efun E) : (exists x, edom h x) -> (forall y, exists B, forall x, edom h x -> << y, x >> - eval h x <= B) -> exists f, is_conj h (etot f).
Proof.
  intros Hne Hb. assert (G : forall y, bound (fun t => exists x, edom h x /\ t = << y, x >> - eval h x) /\ exists t, exists x, edom h x /\ t = << y, x >> - eval h x).
  { intro y. destruct (Hb y) as [B HB]. destruct Hne as [x Hx]. split; [exists B; intros t [x' [Hx' ->]]; auto|eexists; exists x; split; [auto|reflexivity]]. }
  exists (fun y => proj1_sig (completeness _ (proj1 (G y)) (proj2 (G y)))). split; [exact Hne|]. intro y. split; [split; [intros _; destruct (Hb y) as [B HB]; exists B; exact HB|intros _; exact I]|].
  intros _. cbn [eval etot]. destruct (completeness _ _ _) as [t Ht]. exact Ht.
Qed.
Lemma rank_env_exists m n r0 : (0 < r0 <= Nat.min m n)%nat -> exists Q : efun (Vec (m * n)), quad_env (lowrank r0) Q.
Proof.
  intro Hr. destruct (conj_exists (sq_on (lowrank (m:=m) (n:=n) r0))) as [hs H1].
  - exists vzero. exists (fun _ => vzero), (fun _ => vzero). rewrite (VS_ext r0 _ (fun _ => vzero : Vec (m * n))); [symmetry; apply VS_zero|]. intros i _. apply mat_ext. intros a b Ha Hb. rewrite get_outer, !get_zero by auto. ring.
  - intro y. exists (/ 2 * norm2 y). intros x _. cbn [eval sq_on]. pose proof (inner_pos (y [-] x)) as Hp. revert Hp. unfold norm2. iexp. intro. lra.
  - destruct (conj_exists (etot hs)) as [hss H2].
    + exists vzero. exact I.
    + intro X. destruct (svd_exists m n X) as [s [u [v [Hs [Hu [Hv EX]]]]]]. set (k := Nat.min m n) in *. set (c := INR r0 / INR k).
      assert (Hk0 : 0 < INR k) by (apply lt_0_INR; lia). assert (Hr0 : 0 < INR r0) by (apply lt_0_INR; lia). assert (Hrk : INR r0 <= INR k) by (apply le_INR; lia).
      assert (Hc : 0 < c <= 1). { split; [apply Rmult_lt_0_compat; [auto|apply Rinv_0_lt_compat; auto]|]. apply (Rmult_le_reg_r (INR k)); auto. unfold c, Rdiv. rewrite Rmult_assoc, Rinv_l by lra. lra. }
      exists (/ 2 * / c * RS k (fun i => s i * s i)). intros Z _.
      pose proof (mat_ge r0 ltac:(lia) (etot hs) H1 u v Hu Hv (fun _ => c) Z ltac:(intros; lra) ltac:(rewrite RS_const; unfold c; fold k; field; lra) I) as Hg. fold k in Hg.
      rewrite EX. unfold k at 1. rewrite synth_coef. fold k.
      assert (Hq : RS k (fun l => s l * << outer (u l) (v l), Z >>) <= RS k (fun i => / 2 * (c * (<< outer (u i) (v i), Z >> * << outer (u i) (v i), Z >>)) + / 2 * / c * (s i * s i))).
      { apply RS_le. intros i Hi. set (q := << outer (u i) (v i), Z >>). pose proof (Rle_0_sqr (c * q - s i)) as Hs2. unfold Rsqr in Hs2. apply (Rmult_le_reg_l c); [lra|].
        replace (c * (/ 2 * (c * (q * q)) + / 2 * / c * (s i * s i))) with (/ 2 * (c * q * (c * q)) + / 2 * (s i * s i)) by (field; lra). lra. }
      cbv beta in Hg. rewrite RS_add, !RS_scal in Hq. rewrite (RS_scal k c) in Hg. cbn [eval etot] in *. lra.
    + exists (mkEfun (fun _ => True) (fun x => hss x - / 2 * norm2 x)), (etot hs), (etot hss). split; [auto|]. split; [auto|]. split; [intro; split; auto|intros; reflexivity].
Qed.
(*!ex C31_rank_example : an envelope of the rank bound exists for every shape and 1 <= r0 <= min(m, n), a function returning factorizations exists, and every shape with min(m, n) >= 3 meets the conditions of the prox theorem *)
Lemma C31_rank_example_l : (forall m n r0, (0 < r0 <= Nat.min m n)%nat -> exists Q : efun (Vec (m * n)), quad_env (lowrank r0) Q) /\
  (forall m n (X : Vec (m * n)), exists svd, svd_at svd X) /\ argsort_ok isort /\ forall r0 s rho, rl_shape (Nat.min 3 4) r0 s rho.
Proof.
  split; [apply rank_env_exists|]. split; [intros; apply svd_at_exists|]. split; [exact isort_ok|]. intros. left. simpl. lia.
Qed.
