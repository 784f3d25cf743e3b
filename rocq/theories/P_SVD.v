(** * Nuclear, NuclearBall, SingularValuePenalty: proofs *)
From Verif Require Import Base Space Spec SpecOps ConvexFacts Sep M_ProxOp M_L1 P_L1 MatFacts VSum M_Proj P_Proj P_Proj2 P_Proj3 SVD SVD2 M_SVD.
From Coq Require Import Psatz.
From Verif Require Export S_SVD.
Open Scope result_scope.

(** ** specification *)
(** the i-th singular value as a function of the matrix: the Ky Fan sum of order a is the least upper bound of <X, sum_(i<a) u_i v_i^T> over orthonormal families *)
Definition kyfan_set {m n} (a : nat) (X : Vec (m * n)) (r : R) : Prop := exists (u : nat -> Vec m) (v : nat -> Vec n),
  orthonormal (Nat.min m n) u /\ orthonormal (Nat.min m n) v /\ r = << X, synth (Nat.min m n) (fun i => if Nat.ltb i a then 1 else 0) u v >>.
Lemma kyfan_lub m n a (X : Vec (m * n)) s : (a <= Nat.min m n)%nat -> sing_vals X s -> is_lub (kyfan_set a X) (RS a s).
Proof.
  intros Ha [u [v [[H1 H0] [Hu [Hv EX]]]]]. set (k := Nat.min m n) in *. set (e := fun i => if Nat.ltb i a then 1 else 0).
  assert (He : noninc k e). { split; [intros i j Hij Hj|intros i Hi]; unfold e; [destruct (Nat.ltb_spec i a), (Nat.ltb_spec j a)|destruct (Nat.ltb_spec i a)]; try lra; lia. }
  assert (ES : RS k (fun i => s i * e i) = RS a s).
  { replace k with (a + (k - a))%nat by lia. rewrite RS_split. rewrite (RS_ext a _ s) by (intros i Hi; unfold e; destruct (Nat.ltb_spec i a); [ring|lia]).
    rewrite (RS_ext (k - a) _ (fun _ => 0)) by (intros i Hi; unfold e; destruct (Nat.ltb_spec (a + i) a); [lia|ring]). rewrite RS_zero. ring. }
  split.
  - intros r [u' [v' [Hu' [Hv' ->]]]]. fold e. rewrite EX. eapply Rle_trans; [apply trace_ineq; auto; split; auto|]. fold k. lra.
  - intros b Hb. apply Hb. exists u, v. split; auto. split; auto. rewrite EX. fold k e. rewrite synth_same by auto. auto.
Qed.
Lemma kyfan_bound m n a (X : Vec (m * n)) : bound (kyfan_set (Nat.min a (Nat.min m n)) X) /\ exists r, kyfan_set (Nat.min a (Nat.min m n)) X r.
Proof.
  destruct (svd_exists m n X) as [s [u [v H]]]. destruct (kyfan_lub m n (Nat.min a (Nat.min m n)) X s) as [H1 _]; [lia|exists u, v; exact H|]. split; [eexists; exact H1|].
  destruct H as [_ [Hu [Hv _]]]. eexists. exists u, v. split; auto.
Qed.
Definition kyfan {m n} (a : nat) (X : Vec (m * n)) : R := proj1_sig (completeness _ (proj1 (kyfan_bound m n a X)) (proj2 (kyfan_bound m n a X))).
Definition svals {m n} (X : Vec (m * n)) (i : nat) : R := kyfan (S i) X - kyfan i X.
Lemma kyfan_eq m n a (X : Vec (m * n)) s : (a <= Nat.min m n)%nat -> sing_vals X s -> kyfan a X = RS a s.
Proof.
  intros Ha Hs. unfold kyfan. destruct (completeness _ _ _) as [r Hr]. cbn [proj1_sig]. rewrite Nat.min_l in Hr by auto. pose proof (kyfan_lub m n a X s Ha Hs) as H. destruct Hr as [A1 A2], H as [B1 B2]. apply Rle_antisym; auto.
Qed.
Lemma svals_eq m n (X : Vec (m * n)) s : sing_vals X s -> forall i, (i < Nat.min m n)%nat -> svals X i = s i.
Proof. intros Hs i Hi. unfold svals. rewrite (kyfan_eq m n (S i) X s), (kyfan_eq m n i X s) by (auto; lia). cbn [RS]. ring. Qed.
Lemma sing_vals_ext m n (X : Vec (m * n)) s t : sing_vals X s -> (forall i, (i < Nat.min m n)%nat -> t i = s i) -> sing_vals X t.
Proof.
  intros [u [v [[A1 A2] [A3 [A4 A5]]]]] E. exists u, v. split; [split; intros; rewrite !E by lia; [apply A1|apply A2]; auto|]. split; auto. split; auto. rewrite A5. unfold synth. apply VS_ext. intros i Hi. rewrite E by auto. reflexivity.
Qed.
Lemma svals_ok m n (X : Vec (m * n)) : sing_vals X (svals X).
Proof. destruct (svd_exists m n X) as [s [u [v H]]]. apply (sing_vals_ext m n X s); [exists u, v; exact H|]. intros i Hi. apply svals_eq; auto. exists u, v. exact H. Qed.
Lemma svd_at_vals m n (svd : svdT m n) X : svd_at svd X -> forall i, (i < Nat.min m n)%nat -> svals X i = get (snd (fst (svd X))) i.
Proof. intros H. apply svals_eq. do 2 eexists. exact H. Qed.
(** functions of the singular values: sum_i w_i s_i and sum_i phi(s_i) *)
Definition wnuclear {m n} (w : nat -> R) : efun (Vec (m * n)) := etot (fun X : Vec (m * n) => RS (Nat.min m n) (fun i => w i * svals X i)).
Definition spectral {m n} (phi : R -> R) : efun (Vec (m * n)) := etot (fun X : Vec (m * n) => RS (Nat.min m n) (fun i => phi (svals X i))).

Lemma synth_ext m n k s s' (u u' : nat -> Vec m) (v v' : nat -> Vec n) : (forall i, (i < k)%nat -> s i = s' i /\ u i = u' i /\ v i = v' i) -> synth k s u v = synth k s' u' v'.
Proof. intro H. unfold synth. apply VS_ext. intros i Hi. destruct (H i Hi) as [-> [-> ->]]. reflexivity. Qed.
Lemma get_synth m n k s (u : nat -> Vec m) (v : nat -> Vec n) i j : (i < m)%nat -> (j < n)%nat -> get (synth k s u v) (i * n + j) = RS k (fun l => s l * (get (u l) i * get (v l) j)).
Proof. intros Hi Hj. unfold synth. rewrite get_VS by (apply flat_lt; auto). apply RS_ext. intros l Hl. rewrite get_scal by (apply flat_lt; auto). rewrite get_outer by auto. reflexivity. Qed.
Lemma usv_synth m n k (U : Vec (m * k)) (p : Vec k) (V : Vec (k * n)) : usv U p V = synth k (get p) (colv U) (rowv V).
Proof.
  apply mat_ext. intros i j Hi Hj. rewrite get_synth by auto. unfold usv. rewrite get_vtab by (apply flat_lt; auto). destruct (divmod_flat n i j Hj) as [-> ->].
  apply RS_ext. intros l Hl. unfold colv, rowv. rewrite !get_vtab by auto. ring.
Qed.

(** *** soft thresholding of the singular values *)
Lemma soft_pos th a : 0 <= th -> 0 <= a -> soft th a = Rmax (a - th) 0.
Proof.
  intros Ht Ha. unfold soft. rewrite (Rabs_right a) by lra. destruct (Req_dec a 0) as [->|E]; [rewrite sgn_0, Rmax_right by lra; ring|rewrite sgn_pos by lra; ring].
Qed.
Lemma thr_min w tau s q : 0 < tau -> 0 <= q -> let p := Rmax (s - tau * w) 0 in w * p + / (2 * tau) * ((p - s) * (p - s)) <= w * q + / (2 * tau) * ((q - s) * (q - s)).
Proof.
  intros Ht Hq p. assert (Hi : 0 < / (2 * tau)) by (apply Rinv_0_lt_compat; lra).
  apply (Rmult_le_reg_l (2 * tau)); [lra|]. rewrite !Rmult_plus_distr_l. replace (2 * tau * (/ (2 * tau) * ((p - s) * (p - s)))) with ((p - s) * (p - s)) by (field; lra). replace (2 * tau * (/ (2 * tau) * ((q - s) * (q - s)))) with ((q - s) * (q - s)) by (field; lra).
  pose proof (Rle_0_sqr (q - p)) as H. unfold Rsqr in H. unfold p, Rmax in *. destruct (Rle_dec (s - tau * w) 0); nra.
Qed.
Lemma weighted_lift m n (X : Vec (m * n)) s u v w tau : 0 < tau -> is_svd X s u v -> (forall i j, (i <= j)%nat -> (j < Nat.min m n)%nat -> w i <= w j) ->
  let p i := Rmax (s i - tau * w i) 0 in let Y := synth (Nat.min m n) p u v in
  sing_vals Y p /\ forall Z t, sing_vals Z t ->
    RS (Nat.min m n) (fun i => w i * p i) + / (2 * tau) * norm2 (Y [-] X) <= RS (Nat.min m n) (fun i => w i * t i) + / (2 * tau) * norm2 (Z [-] X).
Proof.
  intros Ht HX Hw p Y. pose proof HX as [[Hs1 Hs0] _]. apply (svd_lift m n X s u v p (fun t => RS (Nat.min m n) (fun i => w i * t i)) tau Ht HX).
  - split; [|intros; apply Rmax_r]. intros i j Hij Hj. unfold p. apply Rle_max_compat_r. pose proof (Hs1 i j Hij Hj). pose proof (Hw i j Hij Hj). nra.
  - intros q [_ Hq]. rewrite <- !RS_scal, <- !RS_add. apply RS_le. intros i Hi. apply thr_min; auto.
Qed.

(** *** the output of the prox *)
Lemma nuclear_out m n svd sigma (X : Vec (m * n)) tau w : 0 < tau -> svd_at svd X -> nuclear_weights (m:=m) (n:=n) sigma = Ok w -> (forall i, (i < Nat.min m n)%nat -> 0 <= w i) ->
  nuclear_prox svd sigma X tau = Ok (synth (Nat.min m n) (fun i => Rmax (get (snd (fst (svd X))) i - tau * w i) 0) (colv (fst (fst (svd X)))) (rowv (snd (svd X)))).
Proof.
  intros Ht HX Hw Hp. unfold nuclear_prox, svd_at in *. destruct (Rleb_spec tau 0) as [[? ->]|[_ ->]]; [lra|]. destruct (svd X) as [[U Sv] V]. cbn [fst snd] in *. rewrite Hw. cbn [bind]. f_equal.
  rewrite usv_synth. apply synth_ext. intros i Hi. split; [|auto]. rewrite get_vtab by auto. destruct HX as [[_ H0] _]. apply soft_pos; [apply Rmult_le_pos; [lra|auto]|auto].
Qed.

(*! C32_exists : every real matrix X has exactly one list of singular values svals X in non-increasing order: X = sum_i s_i u_i v_i^T with orthonormal u, v holds for s = svals X and for no other s *)
Lemma C32_exists_l : forall m n (X : Vec (m * n)), sing_vals X (svals X) /\ forall s, sing_vals X s -> forall i, (i < Nat.min m n)%nat -> s i = svals X i.
Proof. intros m n X. split; [apply svals_ok|]. intros. symmetry. apply svals_eq; auto. Qed.

(** the nuclear norm is convex: dual formula *)
Lemma nuc_dual m n (X : Vec (m * n)) s (u : nat -> Vec m) (v : nat -> Vec n) : sing_vals X s -> orthonormal (Nat.min m n) u -> orthonormal (Nat.min m n) v ->
  << X, synth (Nat.min m n) (fun _ => 1) u v >> <= RS (Nat.min m n) s.
Proof.
  intros [u' [v' [H1 [H2 [H3 ->]]]]] Hu Hv. eapply Rle_trans; [apply trace_ineq; auto; split; intros; lra|]. apply Req_le, RS_ext. intros; ring.
Qed.
Lemma nuc_convex m n (X Y Z : Vec (m * n)) s t z a : sing_vals X s -> sing_vals Y t -> sing_vals Z z -> 0 <= a <= 1 -> Z = (1 - a) [*] X [+] a [*] Y ->
  RS (Nat.min m n) z <= (1 - a) * RS (Nat.min m n) s + a * RS (Nat.min m n) t.
Proof.
  intros HX HY [u [v [H1 [H2 [H3 E]]]]] Ha EZ. pose proof (nuc_dual _ _ _ _ u v HX H2 H3). pose proof (nuc_dual _ _ _ _ u v HY H2 H3).
  assert (HD : << Z, synth (Nat.min m n) (fun _ => 1) u v >> = RS (Nat.min m n) z). { rewrite E, synth_same by auto. apply RS_ext. intros; ring. }
  rewrite EZ, inner_add_l, !inner_scal_l in HD. nra.
Qed.
(** minimisers of the nuclear prox objective coincide *)
Lemma nuc_prox_unique m n (X Y1 Y2 : Vec (m * n)) p1 p2 sigma tau : 0 < tau -> 0 <= sigma -> sing_vals Y1 p1 -> sing_vals Y2 p2 ->
  (forall Z t, sing_vals Z t -> sigma * RS (Nat.min m n) p1 + / (2 * tau) * norm2 (Y1 [-] X) <= sigma * RS (Nat.min m n) t + / (2 * tau) * norm2 (Z [-] X)) ->
  (forall Z t, sing_vals Z t -> sigma * RS (Nat.min m n) p2 + / (2 * tau) * norm2 (Y2 [-] X) <= sigma * RS (Nat.min m n) t + / (2 * tau) * norm2 (Z [-] X)) -> Y1 = Y2.
Proof.
  intros Ht Hs H1 H2 M1 M2. set (Z := (1 - / 2) [*] Y1 [+] (/ 2) [*] Y2). destruct (svd_exists m n Z) as [t [u [v HZ]]]. assert (HZ' : sing_vals Z t) by (exists u, v; auto).
  pose proof (nuc_convex m n Y1 Y2 Z p1 p2 t (/ 2) H1 H2 HZ' ltac:(lra) eq_refl) as HC. pose proof (M1 Z t HZ') as A1. pose proof (M2 Z t HZ') as A2.
  assert (E : norm2 (Z [-] X) = / 2 * norm2 (Y1 [-] X) + / 2 * norm2 (Y2 [-] X) - / 4 * norm2 (Y1 [-] Y2)) by (unfold Z, norm2; iexp; field).
  rewrite E in *. assert (Hi : 0 < / (2 * tau)) by (apply Rinv_0_lt_compat; lra). set (c := / (2 * tau)) in *. pose proof (norm2_nonneg (Y1 [-] Y2)) as Hn.
  assert (HC' : sigma * RS (Nat.min m n) t <= sigma * ((1 - / 2) * RS (Nat.min m n) p1 + / 2 * RS (Nat.min m n) p2)) by (apply Rmult_le_compat_l; auto).
  assert (c * norm2 (Y1 [-] Y2) <= 0) by lra. assert (norm2 (Y1 [-] Y2) <= 0) by nra. apply vsub_eq, norm2_eq0. lra.
Qed.

Lemma wnuclear_prox m n (X Y : Vec (m * n)) w p tau : sing_vals Y p ->
  (forall Z t, sing_vals Z t -> RS (Nat.min m n) (fun i => w i * p i) + / (2 * tau) * norm2 (Y [-] X) <= RS (Nat.min m n) (fun i => w i * t i) + / (2 * tau) * norm2 (Z [-] X)) -> is_prox (wnuclear w) tau X Y.
Proof.
  intros HY H. split; [exact I|]. intros Z _. unfold wnuclear. cbn [eval etot].
  rewrite (RS_ext _ (fun i => w i * svals Y i) (fun i => w i * p i)) by (intros i Hi; rewrite (svals_eq _ _ _ _ HY) by auto; reflexivity). apply H, svals_ok.
Qed.

(*! C32_nuclear_prox : all shapes, all matrices X, tau > 0, sigma >= 0, whatever singular vectors numpy's svd returns: Nuclear.prox returns Y whose singular values are max(s_i - tau sigma, 0)
   and Y is the proximal point of sigma times the nuclear norm, over all matrices; the result does not depend on the singular vectors chosen *)
Lemma C32_nuclear_prox_l : forall m n svd sigma (X : Vec (m * n)) tau, 0 < tau -> 0 <= sigma -> svd_at svd X ->
  exists Y, nuclear_prox svd (WNum sigma) X tau = Ok Y /\ sing_vals Y (fun i => Rmax (svals X i - tau * sigma) 0) /\ is_prox (wnuclear (fun _ => sigma)) tau X Y /\
    forall svd', svd_at svd' X -> nuclear_prox svd' (WNum sigma) X tau = Ok Y.
Proof.
  intros m n svd sigma X tau Ht Hs HX. pose proof (nuclear_out m n svd (WNum sigma) X tau (fun _ => sigma) Ht HX eq_refl (fun _ _ => Hs)) as HO.
  destruct (weighted_lift m n X _ _ _ (fun _ => sigma) tau Ht HX ltac:(intros; lra)) as [W1 W2]. cbn zeta in W1, W2. set (Y := synth _ _ _ _) in *. exists Y. split; auto. split; [|split].
  - apply (sing_vals_ext m n Y _ _ W1). intros i Hi. rewrite (svd_at_vals m n svd X HX) by auto. reflexivity.
  - eapply wnuclear_prox; eauto.
  - intros svd' HX'. rewrite (nuclear_out m n svd' (WNum sigma) X tau (fun _ => sigma) Ht HX' eq_refl (fun _ _ => Hs)). f_equal.
    destruct (weighted_lift m n X _ _ _ (fun _ => sigma) tau Ht HX' ltac:(intros; lra)) as [V1 V2]. cbn zeta in V1, V2.
    eapply (nuc_prox_unique m n X _ _ _ _ sigma tau); auto; [exact V1|exact W1| |]; intros Z t HZ; [specialize (V2 Z t HZ)|specialize (W2 Z t HZ)]; rewrite !RS_scal in *; auto.
Qed.

(*! C32_nuclear_convex : sigma >= 0 times the sum of the singular values is a convex function on matrices of every shape *)
Lemma C32_nuclear_convex_l : forall m n sigma, 0 <= sigma -> convex (wnuclear (m:=m) (n:=n) (fun _ => sigma)).
Proof.
  intros m n sigma Hs X Y a _ _ Ha. split; [exact I|]. unfold wnuclear. cbn [eval etot]. rewrite !RS_scal. pose proof (nuc_convex m n X Y _ _ _ _ a (svals_ok m n X) (svals_ok m n Y) (svals_ok m n _) Ha eq_refl) as H.
  apply (Rmult_le_compat_l sigma) in H; auto. lra.
Qed.

Lemma nthr_firstn k l i : (i < k)%nat -> nthr (firstn k l) i = nthr l i.
Proof. revert k i. induction l as [|a l IH]; intros k i Hi; [rewrite firstn_nil; reflexivity|]. destruct k as [|k]; [lia|]. destruct i as [|i]; [reflexivity|]. apply (IH k i). lia. Qed.
Lemma weights_arr m n l : (Nat.min m n <= length l)%nat -> exists w, nuclear_weights (m:=m) (n:=n) (WArr l) = Ok w /\ forall i, (i < Nat.min m n)%nat -> w i = nthr l i.
Proof.
  intro H. unfold nuclear_weights. set (k := Nat.min m n) in *. destruct (Nat.ltb_spec 1 (length l)) as [H1|H1].
  - rewrite firstn_length, Nat.min_l by auto. rewrite Nat.eqb_refl. eexists. split; [reflexivity|]. intros. apply nthr_firstn; auto.
  - destruct (Nat.eqb_spec (length l) k) as [E|E]; [eexists; split; eauto|]. destruct l as [|a [|b l]]; cbn [length] in *; try lia. eexists. split; [reflexivity|]. intros. lia.
Qed.
(*! C32_weighted : an array of at least min(m, n) weights, non-negative and non-descending (the non-convex case): Nuclear.prox returns a global minimiser of sum_i w_i s_i(Y) + |Y - X|^2/(2 tau) over all matrices,
   with singular values max(s_i - tau w_i, 0) *)
Lemma C32_weighted_l : forall m n svd l (X : Vec (m * n)) tau, 0 < tau -> svd_at svd X -> (Nat.min m n <= length l)%nat ->
  (forall i, (i < Nat.min m n)%nat -> 0 <= nthr l i) -> (forall i j, (i <= j)%nat -> (j < Nat.min m n)%nat -> nthr l i <= nthr l j) ->
  exists Y, nuclear_prox svd (WArr l) X tau = Ok Y /\ sing_vals Y (fun i => Rmax (svals X i - tau * nthr l i) 0) /\ is_prox (wnuclear (nthr l)) tau X Y.
Proof.
  intros m n svd l X tau Ht HX Hl H0 H1. destruct (weights_arr m n l Hl) as [w [Hw Ew]].
  pose proof (nuclear_out m n svd (WArr l) X tau w Ht HX Hw ltac:(intros; rewrite Ew by auto; auto)) as HO.
  destruct (weighted_lift m n X _ _ _ (nthr l) tau Ht HX H1) as [W1 W2]. cbn zeta in W1, W2. set (Y := synth _ _ _ _) in W1, W2. exists Y. split; [|split].
  - rewrite HO. f_equal. unfold Y. apply synth_ext. intros i Hi. rewrite Ew by auto. auto.
  - apply (sing_vals_ext m n Y _ _ W1). intros i Hi. rewrite (svd_at_vals m n svd X HX) by auto. reflexivity.
  - eapply wnuclear_prox; eauto.
Qed.

Lemma synth2 (s : nat -> R) (u v : nat -> Vec 2) : synth 2 s u v = s 0%nat [*] outer (u 0%nat) (v 0%nat) [+] s 1%nat [*] outer (u 1%nat) (v 1%nat).
Proof. unfold synth. cbn [VS]. rewrite vadd_0_l. reflexivity. Qed.
Lemma on_swap (u : nat -> Vec 2) : orthonormal 2 u -> orthonormal 2 (pr2 (u 1%nat) (u 0%nat)).
Proof. intros H i j Hi Hj. destruct i as [|[|]], j as [|[|]]; try lia; unfold pr2; cbn [Nat.eqb]; rewrite H by lia; reflexivity. Qed.
Lemma sing2 (s : nat -> R) (u v : nat -> Vec 2) : orthonormal 2 u -> orthonormal 2 v -> 0 <= s 0%nat -> 0 <= s 1%nat ->
  sing_vals (m:=2) (n:=2) (synth 2 s u v) (pr2 (Rmax (s 0%nat) (s 1%nat)) (Rmin (s 0%nat) (s 1%nat))).
Proof.
  intros Hu Hv H0 H1. destruct (Rle_dec (s 1%nat) (s 0%nat)) as [H|H].
  - exists u, v. split; [|split; [auto|split; [auto|]]].
    + split; [intros i j Hij Hj|intros i Hi]; cbn in *; unfold pr2, Rmax, Rmin; [destruct i as [|[|]], j as [|[|]]; try lia|destruct i as [|[|]]; try lia]; cbn [Nat.eqb]; repeat destruct (Rle_dec _ _); lra.
    + cbn [Nat.min]. rewrite !synth2. unfold pr2. cbn [Nat.eqb]. rewrite Rmax_left, Rmin_right by lra. reflexivity.
  - exists (pr2 (u 1%nat) (u 0%nat)), (pr2 (v 1%nat) (v 0%nat)). split; [|split; [apply on_swap; auto|split; [apply on_swap; auto|]]].
    + split; [intros i j Hij Hj|intros i Hi]; cbn in *; unfold pr2, Rmax, Rmin; [destruct i as [|[|]], j as [|[|]]; try lia|destruct i as [|[|]]; try lia]; cbn [Nat.eqb]; repeat destruct (Rle_dec _ _); lra.
    + cbn [Nat.min]. rewrite !synth2. unfold pr2. cbn [Nat.eqb]. rewrite Rmax_right, Rmin_left by lra. vring.
Qed.
Lemma weighted_bad (X : Vec (2 * 2)) sv (u v : nat -> Vec 2) : is_svd (m:=2) (n:=2) X sv u v -> sv 0%nat = 3 -> sv 1%nat = 5 / 2 ->
  ~ is_prox (wnuclear (m:=2) (n:=2) (nthr [2; 0])) 1 X (synth 2 (fun i => Rmax (sv i - 1 * nthr [2; 0] i) 0) u v).
Proof.
  intros [_ [Hu [Hv EX]]] E0 E1 [_ H]. cbn [Nat.min] in Hu, Hv, EX.
  set (p := fun i => Rmax (sv i - 1 * nthr [2; 0] i) 0) in H. assert (P0 : p 0%nat = 1) by (unfold p, nthr; cbn [nth]; rewrite E0, Rmax_left; lra). assert (P1 : p 1%nat = 5 / 2) by (unfold p, nthr; cbn [nth]; rewrite E1, Rmax_left; lra). clearbody p.
  specialize (H (synth 2 (fun _ => 7 / 4) u v) I). unfold wnuclear in H. cbn [eval etot Nat.min] in H.
  pose proof (sing2 p u v Hu Hv ltac:(lra) ltac:(lra)) as Q1. pose proof (sing2 (fun _ => 7 / 4) u v Hu Hv ltac:(lra) ltac:(lra)) as Q2. cbv beta in Q2.
  cbn [RS] in H. rewrite !(svals_eq _ _ _ _ Q1), !(svals_eq _ _ _ _ Q2) in H by (cbn; lia). rewrite EX in H. rewrite !svd_same_dist in H by auto. cbn [RS] in H. unfold pr2, nthr in H. cbn [Nat.eqb nth] in H.
  rewrite P0, P1, E0, E1 in H. rewrite (Rmax_right 1 (5 / 2)), (Rmin_left 1 (5 / 2)), (Rmax_left (7 / 4) (7 / 4)), (Rmin_left (7 / 4) (7 / 4)) in H by lra. lra.
Qed.
(*! C32_weighted_refuted : for non-ascending weights, where the documentation calls the function convex, the returned matrix need not be the proximal point: 2 x 2 matrices with singular values 3 and 5/2,
   sigma = [2, 0], tau = 1, whatever the svd: the objective is 7 at the output and 4.5625 at a matrix with both singular values 7/4 *)
Lemma C32_weighted_refuted_l : forall svd (X : Vec (2 * 2)), svd_at svd X -> svals X 0 = 3 -> svals X 1 = 5 / 2 ->
  exists Y, nuclear_prox (m:=2) (n:=2) svd (WArr [2; 0]) X 1 = Ok Y /\ ~ is_prox (wnuclear (nthr [2; 0])) 1 X Y.
Proof.
  intros svd X HX S0 S1. pose proof (nuclear_out 2 2 svd (WArr [2; 0]) X 1 (nthr [2; 0]) ltac:(lra) HX eq_refl) as HO.
  assert (E0 : get (snd (fst (svd X))) 0 = 3) by (rewrite <- S0; symmetry; apply (svd_at_vals 2 2 svd X HX); cbn; lia).
  assert (E1 : get (snd (fst (svd X))) 1 = 5 / 2) by (rewrite <- S1; symmetry; apply (svd_at_vals 2 2 svd X HX); cbn; lia).
  eexists. split; [apply HO; intros i Hi; cbn in Hi; destruct i as [|[|]]; [cbn; lra|cbn; lra|lia]|]. exact (weighted_bad X _ _ _ HX E0 E1).
Qed.

(** *** values through the eigenvalues of the Gram matrix *)
Lemma on_full n k (v : nat -> Vec n) : orthonormal k v -> (k <= n)%nat -> exists v', orthonormal n v' /\ forall i, (i < k)%nat -> v' i = v i.
Proof.
  intros Hv Hk. assert (G : forall d, (k + d <= n)%nat -> exists v', orthonormal (k + d) v' /\ forall i, (i < k)%nat -> v' i = v i).
  { induction d as [|d IH]; intro Hd; [rewrite Nat.add_0_r; eauto|]. destruct IH as [v' [A B]]; [lia|]. destruct (on_extend n (k + d) v' A ltac:(lia)) as [w [W1 W2]]. exists (setf v' (k + d) w).
    replace (k + S d)%nat with (S (k + d)) by lia. split; [apply on_set; auto|]. intros i Hi. rewrite setf_ne by lia. auto. }
  destruct (G (n - k)%nat ltac:(lia)) as [v' H]. replace (k + (n - k))%nat with n in H by lia. eauto.
Qed.
Lemma get_gram m n (X : Vec (m * n)) a b : (a < n)%nat -> (b < n)%nat -> get (gram X) (a * n + b) = RS m (fun i => get X (i * n + a) * get X (i * n + b)).
Proof. intros Ha Hb. unfold gram. rewrite get_vtab by (apply flat_lt; auto). destruct (divmod_flat n a b Hb) as [-> ->]. reflexivity. Qed.
Lemma gram_bil m n (X : Vec (m * n)) a b : << outer a b, gram X >> = << mv X a, mv X b >>.
Proof.
  rewrite <- mv_bil. rewrite !vec_inner. unfold mv.
  rewrite (RS_ext n _ (fun i => RS n (fun j => RS m (fun l => get a i * (get X (l * n + i) * get X (l * n + j) * get b j))))).
  2:{ intros i Hi. rewrite get_vtab by auto. rewrite <- RS_scal. apply RS_ext. intros j Hj. rewrite get_gram by auto. rewrite <- RS_scal_r, <- RS_scal. reflexivity. }
  rewrite (RS_ext m _ (fun l => RS n (fun i => RS n (fun j => get a i * (get X (l * n + i) * get X (l * n + j) * get b j))))).
  2:{ intros l Hl. rewrite !get_vtab by auto. rewrite RS_mult. apply RS_ext. intros i Hi. apply RS_ext. intros j Hj. ring. }
  rewrite (RS_ext n _ (fun i => RS m (fun l => RS n (fun j => get a i * (get X (l * n + i) * get X (l * n + j) * get b j))))) by (intros; apply RS_swap). apply RS_swap.
Qed.
(** equality of matrices through bilinear forms on orthonormal bases *)
Lemma bil_eq n (A B : Vec (n * n)) (w : nat -> Vec n) : orthonormal n w -> (forall a j, (j < n)%nat -> << outer a (w j), A >> = << outer a (w j), B >>) -> A = B.
Proof.
  intros Hw H. apply vsub_eq, bil_zero. intros a b. rewrite (on_complete n w Hw b).
  assert (HO : forall k h, outer a (VS k h : Vec n) = VS k (fun i => outer a (h i))).
  { intros k h. induction k as [|k IH]; cbn [VS]; [replace (vzero : Vec n) with (0 [*] (vzero : Vec n)) by vring; rewrite outer_scal_r; apply vscal_0|]. rewrite outer_add_r, IH. reflexivity. }
  rewrite HO, inner_VS_l. rewrite (RS_ext n _ (fun _ => 0)); [apply RS_zero|]. intros i Hi. rewrite outer_scal_r, inner_scal_l, inner_sub_r, H by auto. ring.
Qed.
Lemma mv_synth m n k s (u : nat -> Vec m) (v : nat -> Vec n) b : mv (synth k s u v) b = VS k (fun i => (s i * << v i, b >>) [*] u i).
Proof.
  apply vec_ext. intros i Hi. unfold mv. rewrite get_vtab, get_VS by auto. rewrite (RS_ext n _ (fun j => RS k (fun l => s l * (get (u l) i * get (v l) j) * get b j))) by (intros j Hj; rewrite get_synth by auto; rewrite RS_scal_r; reflexivity).
  rewrite RS_swap. apply RS_ext. intros l Hl. rewrite get_scal by auto. rewrite vec_inner, <- RS_scal, <- RS_scal_r. apply RS_ext. intros; ring.
Qed.
(** singular values padded with zeros *)
Definition padded (k : nat) (s : nat -> R) (i : nat) : R := if Nat.ltb i k then s i else 0.
Lemma gram_basis m n (X : Vec (m * n)) s (u : nat -> Vec m) (v v' : nat -> Vec n) : let k := Nat.min m n in orthonormal k u -> X = synth k s u v -> orthonormal n v' -> (forall i, (i < k)%nat -> v' i = v i) ->
  forall a b, (b < n)%nat -> << outer a (v' b), gram X >> = padded k s b * padded k s b * << v' b, a >>.
Proof.
  intros k Hu HX Hv' Ev a b Hb. rewrite gram_bil. rewrite HX, !mv_synth. rewrite (on_sum2 k u (fun i => s i * << v i, a >>) (fun i => s i * << v i, v' b >>)) by auto.
  unfold padded. destruct (Nat.ltb_spec b k) as [Hbk|Hbk].
  - rewrite (RS_dlt k b (s b * s b * << v b, a >>)); auto; [rewrite Ev by auto; ring|]. intros i Hi. rewrite <- (Ev i Hi). rewrite (Hv' i b) by (unfold k in *; lia). destruct (Nat.eqb_spec i b) as [Q|Q]; [rewrite Q; rewrite Ev by auto|]; ring.
  - rewrite (RS_ext k _ (fun _ => 0)); [rewrite RS_zero; ring|]. intros i Hi. rewrite <- (Ev i Hi). rewrite (Hv' i b) by (unfold k in *; lia). destruct (Nat.eqb_spec i b); [lia|ring].
Qed.
Lemma eig_sing m n (X : Vec (m * n)) s eig : sing_vals X s -> eig_at eig (gram X) -> forall j, (j < n)%nat -> get (eig (gram X)) (n - 1 - j) = padded (Nat.min m n) s j * padded (Nat.min m n) s j.
Proof.
  intros [u [v [[Hs Hs0] [Hu [Hv HX]]]]] [He [w [Hw HA]]] j Hj. set (k := Nat.min m n) in *. set (e := get (eig (gram X))) in *.
  destruct (on_full n k v Hv ltac:(unfold k; lia)) as [v' [Hv' Ev]]. set (s2 := fun i => padded k s i * padded k s i).
  assert (Hp0 : forall i, 0 <= padded k s i) by (intro i; unfold padded; destruct (Nat.ltb_spec i k); [auto|lra]).
  assert (Hp1 : forall i j, (i <= j)%nat -> padded k s j <= padded k s i).
  { intros a b Hab. unfold padded. destruct (Nat.ltb_spec b k), (Nat.ltb_spec a k); try lia; try lra; auto. }
  assert (S1 : sing_vals (gram X) s2).
  { exists v', v'. unfold is_svd. rewrite Nat.min_id. split; [split|split; [auto|split; [auto|]]].
    - intros a b Hab Hb. unfold s2. apply Rmult_le_compat; auto.
    - intros a Ha. unfold s2. apply Rmult_le_pos; auto.
    - apply (bil_eq n _ _ v' Hv'). intros a b Hb. rewrite (gram_basis m n X s u v v') by auto. fold k. rewrite <- mv_bil, mv_synth, inner_VS_r. symmetry. apply (RS_dlt n b); auto.
      intros i Hi. rewrite inner_scal_r, (Hv' i b) by auto. unfold s2. destruct (Nat.eqb_spec i b) as [->|]; [rewrite (inner_sym a)|]; ring. }
  assert (S2 : sing_vals (gram X) (fun i => e (n - 1 - i)%nat)).
  { exists (fun i => w (n - 1 - i)%nat), (fun i => w (n - 1 - i)%nat). unfold is_svd. rewrite Nat.min_id.
    assert (Hw' : orthonormal n (fun i => w (n - 1 - i)%nat)). { intros a b Ha Hb. rewrite (Hw (n - 1 - a)%nat (n - 1 - b)%nat) by lia. destruct (Nat.eqb_spec a b), (Nat.eqb_spec (n - 1 - a) (n - 1 - b)); try lia; reflexivity. }
    split; [split|split; [auto|split; [auto|]]].
    - intros a b Hab Hb. apply He; lia.
    - intros a Ha. unfold e. rewrite <- (Rmult_1_r (get _ _)). rewrite <- (on_norm n w (n - 1 - a) Hw) by lia. unfold norm2. rewrite <- inner_scal_r, <- HA by lia. rewrite mv_bil, gram_bil. apply norm2_nonneg.
    - apply (bil_eq n _ _ _ Hw'). intros a b Hb. rewrite <- !mv_bil. rewrite HA by lia. fold e. rewrite mv_synth, inner_scal_r, inner_VS_r. symmetry. apply (RS_dlt n b); auto.
      intros i Hi. rewrite inner_scal_r, (Hw' i b) by auto. destruct (Nat.eqb_spec i b) as [->|]; ring. }
  apply (svd_unique n n (gram X) _ _ S2 S1 j). rewrite Nat.min_id. auto.
Qed.
Lemma sqrt_eigs_sing m n (X : Vec (m * n)) s eig : sing_vals X s -> eig_at eig (gram X) -> forall j, (j < n)%nat -> get (sqrt_eigs (eig (gram X))) (n - 1 - j) = padded (Nat.min m n) s j.
Proof.
  intros HS HE j Hj. pose proof HS as [u [v [[_ H0] _]]]. unfold sqrt_eigs. rewrite get_vtab by lia. rewrite (eig_sing m n X s eig) by auto.
  assert (0 <= padded (Nat.min m n) s j) by (unfold padded; destruct (Nat.ltb_spec j (Nat.min m n)); [auto|lra]). set (p := padded _ s j) in *.
  destruct (Rltb_spec (p * p) 0) as [[? ->]|[? ->]]; [nra|]. apply sqrt_square; auto.
Qed.

Lemma RS_rev n h : RS n (fun i => h (n - 1 - i)%nat) = RS n h.
Proof.
  induction n as [|n IH]; [reflexivity|]. rewrite RS_shift. cbn [RS]. rewrite <- IH. replace (S n - 1 - 0)%nat with n by lia. rewrite (RS_ext n (fun i => h (S n - 1 - S i)%nat) (fun i => h (n - 1 - i)%nat)) by (intros; f_equal; lia). ring.
Qed.
Lemma Rsum_map_lst n (x : Vec n) (f : R -> R) : Rsum (map f (lst x)) = RS n (fun i => f (get x i)).
Proof. rewrite Rsum_RS, map_length, lst_length. apply RS_ext. intros i Hi. unfold nthr, get. apply map_nth_lt. rewrite lst_length. auto. Qed.
Lemma RS_padded k n s (f : nat -> R -> R) : (k <= n)%nat -> RS n (fun i => f i (padded k s i)) = RS k (fun i => f i (s i)) + RS (n - k) (fun i => f (k + i)%nat 0).
Proof.
  intro H. replace n with (k + (n - k))%nat at 1 by lia. rewrite RS_split. f_equal; apply RS_ext; intros i Hi; unfold padded; [destruct (Nat.ltb_spec i k)|destruct (Nat.ltb_spec (k + i) k)]; try lia; reflexivity.
Qed.
Lemma RS_sqrt_eigs m n (X : Vec (m * n)) eig (f : nat -> R -> R) : eig_at eig (gram X) ->
  RS n (fun i => f (n - 1 - i)%nat (get (sqrt_eigs (eig (gram X))) i)) = RS (Nat.min m n) (fun i => f i (svals X i)) + RS (n - Nat.min m n) (fun i => f (Nat.min m n + i)%nat 0).
Proof.
  intro HE. rewrite <- RS_padded by lia. rewrite <- RS_rev. apply RS_ext. intros i Hi. rewrite (sqrt_eigs_sing m n X (svals X)) by (auto using svals_ok). f_equal. lia.
Qed.
(*! C32_nuclear_value : for every shape and X, when eigvalsh gives the eigenvalues of X^T X in ascending order: Nuclear(X) with a number (or an array of one number) sigma is sigma times the sum of the singular
   values, and with an array of n weights it is sum_i sigma_i s_i(X), largest singular value first *)
Lemma C32_nuclear_value_l : forall m n eig (X : Vec (m * n)), eig_at eig (gram X) ->
  (forall sigma, nuclear_call eig (WNum sigma) X = Ok (sigma * RS (Nat.min m n) (svals X))) /\
  (forall sigma, nuclear_call eig (WArr [sigma]) X = Ok (sigma * RS (Nat.min m n) (svals X))) /\
  (forall l, length l = n -> nuclear_call eig (WArr l) X = Ok (RS (Nat.min m n) (fun i => nthr l i * svals X i))).
Proof.
  intros m n eig X HE. set (r := sqrt_eigs (eig (gram X))) in *.
  assert (H1 : forall sigma, Rsum (map (fun t => sigma * t) (lst r)) = sigma * RS (Nat.min m n) (svals X)).
  { intro sigma. rewrite Rsum_map_lst. pose proof (RS_sqrt_eigs m n X eig (fun _ t => sigma * t) HE) as H. cbv beta in H. fold r in H. rewrite H. rewrite !RS_scal, RS_zero. ring. }
  split; [intro sigma; unfold nuclear_call; fold r; rewrite H1; reflexivity|].
  assert (H3 : forall l, length l = n -> nuclear_call eig (WArr l) X = Ok (RS (Nat.min m n) (fun i => nthr l i * svals X i))).
  { intros l Hl. unfold nuclear_call, bmul. fold r. rewrite rev_length, lst_length, Hl, Nat.eqb_refl. cbn [bind]. f_equal.
    rewrite Rsum_RS, map2_length, rev_length, Hl by (rewrite rev_length, lst_length; auto). pose proof (RS_sqrt_eigs m n X eig (fun i t => nthr l i * t) HE) as H. cbv beta in H. fold r in H.
    rewrite (RS_ext (n - Nat.min m n) _ (fun _ => 0)) in H by (intros; ring). rewrite RS_zero, Rplus_0_r in H. rewrite <- H. apply RS_ext. intros i Hi. unfold nthr.
    rewrite (nth_map2 Rmult (rev l) (lst r) i 0 0) by (rewrite ?rev_length, ?lst_length; lia). fold (get r i). f_equal. rewrite rev_nth by lia. f_equal. lia. }
  split; auto. intro sigma. destruct (Nat.eq_dec n 1) as [->|Hn].
  - rewrite H3 by reflexivity. f_equal. rewrite <- RS_scal. apply RS_ext. intros i Hi. replace i with 0%nat by lia. reflexivity.
  - unfold nuclear_call, bmul. fold r. cbn [rev app length]. rewrite lst_length. destruct (Nat.eqb_spec 1 n); [lia|]. cbn [bind]. rewrite H1. reflexivity.
Qed.
(*! C32_weights_size_refuted : sigma given as one weight per singular value, 1 < min(m, n) = m < n: prox accepts it but evaluating the function raises ValueError for every matrix *)
Lemma C32_weights_size_refuted_l : forall m n svd eig l (X : Vec (m * n)) tau, (1 < m < n)%nat -> length l = Nat.min m n -> 0 < tau ->
  nuclear_call eig (WArr l) X = Err ValueError /\ exists Y, nuclear_prox svd (WArr l) X tau = Ok Y.
Proof.
  intros m n svd eig l X tau Hmn Hl Ht. split.
  - unfold nuclear_call, bmul. set (r := lst _). assert (Hr : length r = n) by apply lst_length. rewrite rev_length, Hl, Hr. destruct (Nat.eqb_spec (Nat.min m n) n); [lia|].
    assert (Hv : length (rev l) = Nat.min m n) by (rewrite rev_length; auto). destruct (rev l) as [|a [|b l']]; cbn [length] in Hv; try lia. destruct r as [|c [|d r']]; cbn [length] in Hr; try lia. reflexivity.
  - unfold nuclear_prox. destruct (Rleb_spec tau 0) as [[? ->]|[_ ->]]; [lra|]. destruct (svd X) as [[U Sv] V]. destruct (weights_arr m n l ltac:(lia)) as [w [-> _]]. cbn [bind]. eauto.
Qed.

(** *** NuclearBall *)
Lemma max_noninc k s mu : noninc k s -> noninc k (fun i => Rmax (s i - mu) 0).
Proof. intros [H1 H0]. split; [|intros; apply Rmax_r]. intros i j Hij Hj. apply Rle_max_compat_r. specialize (H1 i j Hij Hj). lra. Qed.
(*! C32_ball : matrices on or outside the nuclear-norm ball (sum s_i >= radius), all shapes: whenever NuclearBall.prox returns Y, Y is within sqrt k (xtol + rtol max(1, 2 sum_i |p_i - s_i|)) of the Euclidean
   projection P of X on {sum of singular values <= radius}, k = min(m, n), p the singular values of P *)
Lemma C32_ball_l : forall m n svd radius maxiter xtol fuel (X Y : Vec (m * n)) tau, (0 < Nat.min m n)%nat -> svd_at svd X -> radius <= RS (Nat.min m n) (svals X) ->
  nball_prox svd radius maxiter xtol fuel X tau = Ok Y ->
  exists P, is_proj (nuclear_ball radius) X P /\ norm (Y [-] P) <= (xtol + bisect_rtol * Rmax 1 (2 * RS (Nat.min m n) (fun i => Rabs (svals P i - svals X i)))) * sqrt (INR (Nat.min m n)).
Proof.
  intros m n svd radius maxiter xtol fuel X Y tau Hk HX Hr. pose proof (svd_at_vals m n svd X HX) as ES. unfold nball_prox, svd_at in *. destruct (Rleb_spec tau 0) as [[? ->]|[Ht ->]]; [discriminate|].
  destruct (svd X) as [[U Sv] V]. cbn [fst snd] in *. set (k := Nat.min m n) in *. destruct (l1_ball_proj radius maxiter xtol fuel Sv) as [y|] eqn:Ey; cbn [bind]; [|discriminate]. intro EY. apply Ok_inj in EY. subst Y.
  pose proof HX as [Hn [Hu [Hv EX]]]. fold k in Hn, Hu, Hv, EX. pose proof Hn as [_ Hs0].
  assert (Ha : forall i, (i < k)%nat -> Rabs (get Sv i) = get Sv i) by (intros i Hi; apply Rabs_right, Rle_ge, Hs0; auto).
  destruct (l1_outside_core k radius maxiter xtol fuel Sv y Hk) as [mo [H0 [HP HN]]]; auto.
  { rewrite (RS_ext k _ (svals X)); auto. intros i Hi. rewrite Ha, ES by auto. reflexivity. }
  set (p := fun i => Rmax (get Sv i - mo) 0). assert (Ep : forall i, (i < k)%nat -> get (softv Sv mo) i = p i).
  { intros i Hi. unfold softv, p. rewrite get_vtab, Ha by auto. specialize (Hs0 i Hi). destruct (Req_dec (get Sv i) 0) as [E|E]; [rewrite E, sgn_0, Rmax_right by lra; ring|rewrite sgn_pos by lra; ring]. }
  assert (Hp : noninc k p) by (apply max_noninc; auto). assert (SP : sing_vals (synth k p (colv U) (rowv V)) p) by (do 2 eexists; split; [exact Hp|split; [exact Hu|split; [exact Hv|reflexivity]]]).
  exists (synth k p (colv U) (rowv V)). split; [split|].
  - exists p. split; auto. destruct HP as [HP _]. unfold l1_ball in HP. rewrite (RS_ext k _ p) in HP; auto. intros i Hi. rewrite Ep by auto. apply Rabs_right, Rle_ge, Hp; auto.
  - intros Z [t [Ht' Hz]]. apply norm_le_iff. rewrite EX at 1. rewrite svd_same_dist by auto. apply Rle_trans with (RS k (fun i => (get Sv i - t i) * (get Sv i - t i))).
    + destruct HP as [_ HP]. specialize (HP (vtab k t)). rewrite norm_le_iff in HP. rewrite !vec_norm2 in HP.
      rewrite (RS_ext k _ (fun i => (p i - get Sv i) * (p i - get Sv i))) in HP by (intros i Hi; rewrite !get_sub, Ep by auto; reflexivity).
      eapply Rle_trans; [apply HP|apply Req_le, RS_ext; intros i Hi; rewrite !get_sub, !get_vtab by auto; ring].
      unfold l1_ball. rewrite (RS_ext k _ t); auto. intros i Hi. rewrite get_vtab by auto. destruct Ht' as [? [? [[_ Ht'] _]]]. apply Rabs_right, Rle_ge, Ht'; auto.
    + rewrite norm2_sub_sym. apply svd_dist; auto. do 2 eexists. exact HX.
  - rewrite usv_synth. replace (norm (synth k (get y) (colv U) (rowv V) [-] synth k p (colv U) (rowv V))) with (norm (y [-] softv Sv mo)).
    + rewrite (RS_ext k _ (fun i => Rabs (get (softv Sv mo) i - get Sv i))); auto. intros i Hi. rewrite (svals_eq m n _ _ SP), ES, Ep by auto. reflexivity.
    + unfold norm. f_equal. rewrite svd_same_dist by auto. rewrite vec_norm2. apply RS_ext. intros i Hi. rewrite get_sub, Ep by auto. reflexivity.
Qed.
(*! C32_ball_inside_refuted : NuclearBall.prox is not a projection inside the ball: every X with all singular values > 0, however small, is sent to a Y whose singular values sum to the radius, up to the accuracy
   k (xtol + rtol max(1, 2 sum_i |q_i - s_i|)) of the search (q the projection of s on the simplex) *)
Lemma C32_ball_inside_refuted_l : forall m n svd radius maxiter xtol fuel (X Y : Vec (m * n)) tau, svd_at svd X -> (forall i, (i < Nat.min m n)%nat -> 0 < svals X i) ->
  nball_prox svd radius maxiter xtol fuel X tau = Ok Y ->
  exists q, is_proj (simplex_set radius) (vtab (Nat.min m n) (svals X)) q /\
    Rabs (RS (Nat.min m n) (svals Y) - radius) <= INR (Nat.min m n) * (xtol + bisect_rtol * Rmax 1 (2 * RS (Nat.min m n) (fun i => Rabs (get q i - svals X i)))).
Proof.
  intros m n svd radius maxiter xtol fuel X Y tau HX Hpos. pose proof (svd_at_vals m n svd X HX) as ES. unfold nball_prox, svd_at in *. destruct (Rleb_spec tau 0) as [[? ->]|[Ht ->]]; [discriminate|].
  destruct (svd X) as [[U Sv] V]. cbn [fst snd] in *. set (k := Nat.min m n) in *. unfold l1_ball_proj. destruct (simplex_proj radius maxiter xtol fuel (absv Sv)) as [y|] eqn:Ey; cbn [bind]; [|discriminate]. intro EY. apply Ok_inj in EY. subst Y.
  pose proof HX as [Hn [Hu [Hv EX]]]. fold k in Hn, Hu, Hv, EX.
  assert (Hp : forall i, (i < k)%nat -> 0 < get Sv i) by (intros; rewrite <- ES by auto; auto).
  assert (EA : absv Sv = vtab k (svals X)) by (apply vec_ext; intros i Hi; rewrite get_absv, get_vtab, ES, Rabs_right by (auto; apply Rle_ge, Rlt_le; auto); reflexivity).
  rewrite EA in Ey. destruct (C23_simplex_l _ _ _ _ _ _ _ Ey) as [q [HQ [[mu H1] [H2 _]]]]. exists q. split; auto.
  rewrite (RS_ext k (fun i => Rabs (get q i - svals X i)) (fun i => Rabs (get q i - get (vtab k (svals X)) i))) by (intros i Hi; rewrite get_vtab by auto; reflexivity).
  replace (RS k (svals (usv U (vtab k (fun i => sgn (get Sv i) * get y i)) V))) with (RS k (get y)); auto. apply RS_ext. intros i Hi. symmetry. apply svals_eq; auto. rewrite usv_synth.
  rewrite (synth_ext m n k _ (fun i => Rmax (get Sv i - mu) 0) (colv U) (colv U) (rowv V) (rowv V)).
  2:{ intros j Hj. split; auto. rewrite get_vtab, sgn_pos, H1, get_vtab, ES by auto. ring. }
  apply (sing_vals_ext m n _ (fun i => Rmax (get Sv i - mu) 0)).
  - do 2 eexists. split; [apply max_noninc; auto|split; [exact Hu|split; [exact Hv|reflexivity]]].
  - intros j Hj. rewrite H1, get_vtab, ES by auto. reflexivity.
Qed.
(*! C32_ball_call : NuclearBall(X) accepts X exactly when the sum of its singular values is < radius + tol *)
Lemma C32_ball_call_l : forall m n svd radius tol (X : Vec (m * n)), svd_at svd X -> nball_call svd radius tol X = true <-> RS (Nat.min m n) (svals X) < radius + tol.
Proof.
  intros m n svd radius tol X HX. pose proof (svd_at_vals m n svd X HX) as ES. unfold nball_call. destruct (svd X) as [[U Sv] V]. cbn [fst snd] in ES. rewrite (RS_ext _ (svals X) (get Sv)) by auto. rewrite Rltb_true. split; lra.
Qed.

(** *** SingularValuePenalty *)
Lemma pr_nonneg phi tau pr : 0 < tau -> even_penalty phi -> (forall a, is_prox (E:=R_IPS) (etot (E:=R_IPS) phi) tau a (pr a)) -> forall a, 0 <= a -> 0 <= pr a.
Proof.
  intros Ht Hphi Hpr a Ha. destruct (Rle_dec 0 (pr a)) as [H|H]; auto. exfalso. assert (Hi : 0 < / (2 * tau)) by (apply Rinv_0_lt_compat; lra). set (c := / (2 * tau)) in *.
  destruct (Hpr a) as [_ M]. cbn [eval etot] in M. destruct (Req_dec a 0) as [->|E].
  - pose proof (M 0 I) as M0. rewrite !Rn2, !Rsub in M0. fold c in M0. destruct (Hphi (pr 0)) as [_ H1]. assert (0 < c * ((pr 0 - 0) * (pr 0 - 0))) by (apply Rmult_lt_0_compat; auto; nra). change (phi (pr 0) + c * ((pr 0 - 0) * (pr 0 - 0)) <= phi 0 + c * ((0 - 0) * (0 - 0))) in M0. lra.
  - pose proof (M (- pr a) I) as M0. rewrite !Rn2, !Rsub in M0. fold c in M0. destruct (Hphi (pr a)) as [H1 _]. change (phi (pr a) + c * ((pr a - a) * (pr a - a)) <= phi (- pr a) + c * ((- pr a - a) * (- pr a - a))) in M0. rewrite H1 in M0.
    assert (0 < c * (4 * (- pr a) * a)) by (apply Rmult_lt_0_compat; auto; apply Rmult_lt_0_compat; lra). lra.
Qed.
Lemma pr_mono phi tau pr : 0 < tau -> (forall a, is_prox (E:=R_IPS) (etot (E:=R_IPS) phi) tau a (pr a)) -> forall a b, a <= b -> pr a <= pr b.
Proof.
  intros Ht Hpr a b Hab. destruct (Req_dec a b) as [->|E]; [lra|]. assert (Hi : 0 < / (2 * tau)) by (apply Rinv_0_lt_compat; lra). set (c := / (2 * tau)) in *.
  destruct (Hpr a) as [_ Ma]. destruct (Hpr b) as [_ Mb]. specialize (Ma (pr b) I). specialize (Mb (pr a) I). cbn [eval etot] in Ma, Mb. rewrite !Rn2, !Rsub in Ma, Mb. fold c in Ma, Mb.
  change (phi (pr a) + c * ((pr a - a) * (pr a - a)) <= phi (pr b) + c * ((pr b - a) * (pr b - a))) in Ma. change (phi (pr b) + c * ((pr b - b) * (pr b - b)) <= phi (pr a) + c * ((pr a - b) * (pr a - b))) in Mb.
  destruct (Rle_dec (pr a) (pr b)) as [H|H]; auto. exfalso. assert (0 < c * (2 * (b - a) * (pr a - pr b))) by (apply Rmult_lt_0_compat; auto; apply Rmult_lt_0_compat; lra). lra.
Qed.
(*! C32_penalty : SingularValuePenalty with a penalty acting entrywise as a proximal map pr of an even function phi smallest at 0 (no convexity needed), tau > 0, all shapes, whatever the svd: prox returns a Y with
   singular values pr(s_i) which minimises sum_i phi(s_i(Y)) + |Y - X|^2/(2 tau) over all matrices *)
Lemma C32_penalty_l : forall m n svd phi pr pprox (X : Vec (m * n)) tau, 0 < tau -> svd_at svd X -> even_penalty phi ->
  (forall a, is_prox (E:=R_IPS) (etot (E:=R_IPS) phi) tau a (pr a)) -> (forall S, pprox S tau = Ok (vtab (Nat.min m n) (fun i => pr (get S i)))) ->
  exists Y, svp_prox svd pprox X tau = Ok Y /\ sing_vals Y (fun i => pr (svals X i)) /\ is_prox (spectral phi) tau X Y.
Proof.
  intros m n svd phi pr pprox X tau Ht HX Hphi Hpr Hpp. pose proof (svd_at_vals m n svd X HX) as ES. unfold svp_prox, svd_at in *. destruct (Rleb_spec tau 0) as [[? ->]|[_ ->]]; [lra|].
  destruct (svd X) as [[U Sv] V]. cbn [fst snd] in *. rewrite Hpp. cbn [bind]. eexists. split; [reflexivity|]. rewrite usv_synth. set (k := Nat.min m n) in *.
  set (p := fun i => pr (get Sv i)). rewrite (synth_ext m n k _ p (colv U) (colv U) (rowv V) (rowv V)) by (intros i Hi; rewrite get_vtab by auto; auto).
  pose proof HX as [[H1 H0] _]. fold k in H1, H0.
  destruct (svd_lift m n X (get Sv) (colv U) (rowv V) p (fun t => RS k (fun i => phi (t i))) tau Ht HX) as [L1 L2].
  - split; [intros i j Hij Hj; unfold p; apply (pr_mono phi tau pr); auto|intros i Hi; unfold p; apply (pr_nonneg phi tau pr); auto].
  - intros q Hq. fold k. rewrite <- !RS_scal, <- !RS_add. apply RS_le. intros i Hi. destruct (Hpr (get Sv i)) as [_ M]. specialize (M (q i) I). cbn [eval etot] in M. rewrite !Rn2, !Rsub in M. exact M.
  - fold k in L1, L2. split; [apply (sing_vals_ext m n _ _ _ L1); intros i Hi; rewrite ES by auto; reflexivity|]. split; [exact I|]. intros Z _. unfold spectral. cbn [eval etot]. fold k.
    rewrite (RS_ext k (fun i => phi (svals (synth k p (colv U) (rowv V)) i)) (fun i => phi (p i))) by (intros i Hi; rewrite (svals_eq _ _ _ _ L1) by auto; reflexivity). apply L2, svals_ok.
Qed.
(*! C32_penalty_value : SingularValuePenalty(X) with a penalty that sums phi over the entries is sum_(i<k) phi(s_i) + (n - k) phi(0), k = min(m, n): the right value when n <= m or phi(0) = 0, off by (n - m) phi(0) otherwise *)
Lemma C32_penalty_value_l : forall m n eig phi (X : Vec (m * n)), eig_at eig (gram X) ->
  svp_call eig (fun r => Ok (RS n (fun i => phi (get r i)))) X = Ok (eval (spectral phi) X + INR (n - Nat.min m n) * phi 0).
Proof.
  intros m n eig phi X HE. unfold svp_call. f_equal. pose proof (RS_sqrt_eigs m n X eig (fun _ t => phi t) HE) as H. cbv beta in H. rewrite H, RS_const. reflexivity.
Qed.

(** the oracles exist *)
Lemma svd_at_exists m n (X : Vec (m * n)) : exists svd, svd_at svd X.
Proof.
  destruct (svd_exists m n X) as [s [u [v [[A1 A2] [A3 [A4 A5]]]]]]. set (k := Nat.min m n) in *.
  exists (fun _ => (vtab (m * k) (fun q => get (u (q mod k)%nat) (q / k)%nat), vtab k s, vtab (k * n) (fun q => get (v (q / n)%nat) (q mod n)%nat))). unfold svd_at. cbn [fst snd].
  assert (EU : forall i, (i < k)%nat -> colv (r:=m) (c:=k) (vtab (m * k) (fun q => get (u (q mod k)%nat) (q / k)%nat)) i = u i).
  { intros i Hi. apply vec_ext. intros j Hj. unfold colv. rewrite !get_vtab by (auto; apply flat_lt; auto). destruct (divmod_flat k j i Hi) as [-> ->]. reflexivity. }
  assert (EV : forall i, (i < k)%nat -> rowv (r:=k) (c:=n) (vtab (k * n) (fun q => get (v (q / n)%nat) (q mod n)%nat)) i = v i).
  { intros i Hi. apply vec_ext. intros j Hj. unfold rowv. rewrite !get_vtab by (auto; apply flat_lt; auto). destruct (divmod_flat n i j Hj) as [-> ->]. reflexivity. }
  split; [split; intros; rewrite !get_vtab by lia; [apply A1|apply A2]; auto|]. fold k. split; [intros i j Hi Hj; rewrite !EU by auto; apply A3; auto|]. split; [intros i j Hi Hj; rewrite !EV by auto; apply A4; auto|].
  rewrite A5. apply synth_ext. intros i Hi. rewrite get_vtab, EU, EV by auto. auto.
Qed.
Definition eig_sv (n : nat) : eigT n := fun A => vtab n (fun i => svals A (n - 1 - i)).
Lemma eig_at_exists m n (X : Vec (m * n)) : eig_at (eig_sv n) (gram X).
Proof.
  destruct (svd_exists m n X) as [s [u [v [[A1 A2] [A3 [A4 A5]]]]]]. set (k := Nat.min m n) in *. destruct (on_full n k v A4 ltac:(unfold k; lia)) as [v' [Hv' Ev]].
  pose proof (gram_basis m n X s u v v' A3 A5 Hv' Ev) as HG. fold k in HG.
  assert (Hp0 : forall i, 0 <= padded k s i) by (intro i; unfold padded; destruct (Nat.ltb_spec i k); [auto|lra]).
  assert (Hp1 : forall i j, (i <= j)%nat -> padded k s j <= padded k s i).
  { intros a b Hab. unfold padded. destruct (Nat.ltb_spec b k), (Nat.ltb_spec a k); try lia; try lra; auto. }
  assert (S1 : sing_vals (gram X) (fun i => padded k s i * padded k s i)).
  { exists v', v'. unfold is_svd. rewrite Nat.min_id. split; [split|split; [auto|split; [auto|]]].
    - intros a b Hab Hb. apply Rmult_le_compat; auto.
    - intros a Ha. apply Rmult_le_pos; auto.
    - apply (bil_eq n _ _ v' Hv'). intros a b Hb. rewrite HG by auto. rewrite <- mv_bil, mv_synth, inner_VS_r. symmetry. apply (RS_dlt n b); auto.
      intros i Hi. rewrite inner_scal_r, (Hv' i b) by auto. destruct (Nat.eqb_spec i b) as [->|]; [rewrite (inner_sym a)|]; ring. }
  assert (EE : forall i, (i < n)%nat -> get (eig_sv n (gram X)) i = padded k s (n - 1 - i) * padded k s (n - 1 - i)).
  { intros i Hi. unfold eig_sv. rewrite get_vtab by auto. apply (svals_eq n n _ _ S1). rewrite Nat.min_id. lia. }
  split.
  - intros i j Hij Hj. rewrite !EE by lia. apply Rmult_le_compat; auto; apply Hp1; lia.
  - exists (fun i => v' (n - 1 - i)%nat). split.
    + intros a b Ha Hb. rewrite (Hv' (n - 1 - a)%nat (n - 1 - b)%nat) by lia. destruct (Nat.eqb_spec a b), (Nat.eqb_spec (n - 1 - a) (n - 1 - b)); try lia; reflexivity.
    + intros j Hj. rewrite EE by auto. apply vsub_eq, norm2_eq0. unfold norm2. set (d := _ [-] _). unfold d at 2. rewrite inner_sub_r, mv_bil, HG, inner_scal_r, (inner_sym d) by lia. ring.
Qed.
(** diagonal 2 x 2 matrices *)
Definition diag2 (a b : R) : Vec (2 * 2) := synth (m:=2) (n:=2) 2 (pr2 a b) (basis 2) (basis 2).
Lemma basis_on n : orthonormal n (basis n).
Proof. intros i j Hi Hj. rewrite basis_inner by auto. unfold basis. rewrite get_vtab by auto. rewrite Nat.eqb_sym. reflexivity. Qed.
Lemma diag2_vals a b : 0 <= b <= a -> sing_vals (diag2 a b) (pr2 a b).
Proof. intro H. pose proof (sing2 (pr2 a b) (basis 2) (basis 2) (basis_on 2) (basis_on 2)) as Q. unfold pr2 at 1 2 in Q. cbn [Nat.eqb] in Q. unfold diag2. apply (sing_vals_ext 2 2 _ _ _ (Q ltac:(lra) ltac:(lra))). intros i Hi. unfold pr2. cbn [Nat.eqb]. rewrite Rmax_left, Rmin_right by lra. reflexivity. Qed.

(*! C32_penalty_order_refuted : a penalty that treats its entries differently is evaluated on the singular values in ascending order but its prox is applied to them in descending order: with L1(sigma=1, g=[2, 0]),
   tau = 1 and any 2 x 2 matrix X with singular values 2 and 0, prox returns X, where the value the object itself reports is 4, although another matrix has value 2 at squared distance 2 *)
Lemma C32_penalty_order_refuted_l : forall svd eig (X : Vec (2 * 2)), svd_at svd X -> svals X 0 = 2 -> svals X 1 = 0 -> (forall Z : Vec (2 * 2), eig_at eig (gram Z)) ->
  let sig := fun _ : nat => exist (fun l : list R => length l = 2%nat) [1; 1] eq_refl in let g := vtab 2 (pr2 2 0) in
  let value := svp_call (m:=2) (n:=2) eig (fun r => Ok (l1_call sig (Some g) 0 r)) in
  svp_prox (m:=2) (n:=2) svd (fun r tau => snd (l1_prox sig (Some g) 0 r tau)) X 1 = Ok X /\ value X = Ok 4 /\
  exists Z, value Z = Ok 2 /\ norm2 (Z [-] X) = 2.
Proof.
  intros svd eig X HX S0 S1 HE sig g value.
  assert (HV : forall Z a b, svals Z 0 = a -> svals Z 1 = b -> value Z = Ok (Rabs (b - 2) + Rabs (a - 0))).
  { intros Z a b Ha Hb. unfold value, svp_call. f_equal. pose proof (sqrt_eigs_sing 2 2 Z (svals Z) eig (svals_ok 2 2 Z) (HE Z)) as Q. set (r := sqrt_eigs (eig (gram Z))) in *. clearbody r.
    pose proof (Q 0%nat ltac:(lia)) as Q0. pose proof (Q 1%nat ltac:(lia)) as Q1. cbn in Q0, Q1. unfold padded in Q0, Q1. cbn in Q0, Q1. rewrite Ha in Q0. rewrite Hb in Q1.
    unfold l1_call. assert (G0 : get (r [-] g) 0 = b - 2) by (rewrite get_sub, Q1 by lia; unfold g; rewrite get_vtab by lia; reflexivity).
    assert (G1 : get (r [-] g) 1 = a - 0) by (rewrite get_sub, Q0 by lia; unfold g; rewrite get_vtab by lia; reflexivity).
    set (d := r [-] g) in *. clearbody d. unfold get in G0, G1. unfold lst in *. destruct d as [l Hl]. cbn [proj1_sig] in *. destruct l as [|x [|y [|]]]; try discriminate Hl. cbn [nth] in G0, G1. subst. cbn. ring. }
  pose proof (svd_at_vals 2 2 svd X HX) as ES. split; [|split].
  - unfold svp_prox. destruct (Rleb_spec 1 0) as [[? ->]|[_ ->]]; [lra|]. unfold svd_at in HX. destruct (svd X) as [[U Sv] V]. cbn [fst snd] in *. unfold l1_prox. destruct (Rleb_spec 1 0) as [[? ->]|[_ ->]]; [lra|]. cbn [snd bind]. f_equal.
    assert (EP : forall Sw : Vec 2, (forall i, (i < 2)%nat -> get g i = get Sw i) -> (vzip (fun s a => soft (1 * s) a) (sig 1%nat) (Sw [-] g) : Vec 2) [+] g = Sw).
    { intros Sw EG. apply vec_ext. intros i Hi. rewrite get_add by auto. assert (ED : get (Sw [-] g) i = 0) by (rewrite get_sub by auto; rewrite EG by auto; ring).
      unfold get at 1, lst, vzip. cbn [proj1_sig sig]. rewrite (nth_map2 _ _ _ i 0 0); [|symmetry; exact (lst_length 2 (Sw [-] g))|exact Hi]. fold (lst (Sw [-] g)). fold (get (Sw [-] g) i). rewrite ED. unfold soft. rewrite sgn_0, EG by auto. ring. }
    assert (EG : forall i, (i < 2)%nat -> get g i = get (Sv : Vec 2) i).
    { intros i Hi. change (get g i = get Sv i). rewrite <- ES by (cbn; lia). unfold g. rewrite get_vtab by auto. destruct i as [|[|]]; [rewrite S0|rewrite S1|lia]; reflexivity. }
    specialize (EP Sv EG).
    rewrite EP. rewrite usv_synth. destruct HX as [_ [_ [_ EX]]]. symmetry. exact EX.
  - rewrite (HV X 2 0 S0 S1). f_equal. rewrite (Rabs_left (0 - 2)), (Rabs_right (2 - 0)) by lra. lra.
  - destruct HX as [_ [Hu [Hv EX]]]. pose proof (ES 0%nat ltac:(cbn; lia)) as E0. pose proof (ES 1%nat ltac:(cbn; lia)) as E1. rewrite S0 in E0. rewrite S1 in E1. cbn [Nat.min] in Hu, Hv, EX.
    exists (synth (m:=2) (n:=2) 2 (fun _ => 1) (colv (fst (fst (svd X)))) (rowv (snd (svd X)))). pose proof (sing2 (fun _ => 1) _ _ Hu Hv ltac:(lra) ltac:(lra)) as Q. split.
    + rewrite (HV _ 1 1); [f_equal; rewrite (Rabs_left (1 - 2)), (Rabs_right (1 - 0)) by lra; lra| |]; rewrite (svals_eq _ _ _ _ Q) by (cbn; lia); unfold pr2; cbn [Nat.eqb]; [apply Rmax_left|apply Rmin_left]; lra.
    + rewrite EX at 3. rewrite svd_same_dist by auto. cbn [RS]. cbn [Nat.min] in E0, E1. rewrite <- E0, <- E1. ring.
Qed.

(*!ex C32_example : the hypotheses are met for every matrix: some svd satisfies the specification, one eigvalsh satisfies it on every X^T X, and diag(3, 5/2), diag(2, 0) have the singular values used above *)
Lemma C32_example_l : (forall m n (X : Vec (m * n)), (exists svd, svd_at svd X) /\ exists eig, forall Z : Vec (m * n), eig_at eig (gram Z)) /\
  svals (diag2 3 (5 / 2)) 0 = 3 /\ svals (diag2 3 (5 / 2)) 1 = 5 / 2 /\ svals (diag2 2 0) 0 = 2 /\ svals (diag2 2 0) 1 = 0.
Proof.
  split; [intros m n X; split; [apply svd_at_exists|exists (eig_sv n); intro Z; apply eig_at_exists]|].
  rewrite !(svals_eq 2 2 (diag2 3 (5 / 2)) _ (diag2_vals 3 (5 / 2) ltac:(lra))), !(svals_eq 2 2 (diag2 2 0) _ (diag2_vals 2 0 ltac:(lra))) by (cbn; lia). unfold pr2. cbn [Nat.eqb]. repeat split; reflexivity.
Qed.
