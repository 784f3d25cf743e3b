(** * Integer arrays: proofs *)
From Coq Require Import String Psatz.
From Coq Require Import Rtrigo1 Ratan Rpower.
From Verif Require Import Base Space Spec SpecOps Sep VSum MatFacts ConvexFacts M_ProxOp P_ProxOp M_L1 P_L1 M_Pen P_Pen M_Proj M_Norms M_Loop LoopFacts M_PG M_Split M_Multi M_Dyk M_VStack P_VStack S_Seq Fejer P_Iter M_Int.
From Verif Require Export S_Int.
Open Scope result_scope.
Open Scope R_scope.

Lemma Int_part_IZR z : Int_part (IZR z) = z.
Proof. symmetry. unfold Int_part. assert (H : up (IZR z) = (z + 1)%Z). { symmetry. apply tech_up; rewrite plus_IZR; lra. } rewrite H. lia. Qed.
Lemma trunc_int z : trunc (IZR z) = IZR z.
Proof. unfold trunc. destruct (Rleb_spec 0 (IZR z)) as [[H ->]|[H ->]]; [rewrite Int_part_IZR; reflexivity|]. rewrite <- (opp_IZR z), Int_part_IZR, opp_IZR. ring. Qed.
Lemma trunc_integral r : integral r -> trunc r = r.
Proof. intros [z ->]. apply trunc_int. Qed.
Lemma trunc_0 : trunc 0 = 0. Proof. exact (trunc_int 0). Qed.
Lemma trunc_opp r : trunc (- r) = - trunc r.
Proof.
  unfold trunc. destruct (Rleb_spec 0 (- r)) as [[H ->]|[H ->]]; destruct (Rleb_spec 0 r) as [[H' ->]|[H' ->]]; try ring.
  - assert (r = 0) by lra. subst. replace (- 0) with (IZR 0) by lra. change 0 with (IZR 0). rewrite Int_part_IZR. simpl. ring.
  - rewrite Ropp_involutive. reflexivity.
  - lra.
Qed.
Lemma trunc_spec r : toward_zero r (trunc r).
Proof.
  unfold toward_zero, trunc. destruct (Rleb_spec 0 r) as [[H ->]|[H ->]].
  - destruct (base_Int_part r) as [A B]. assert (P : (0 <= Int_part r)%Z). { assert (-1 < Int_part r)%Z by (apply lt_IZR; lra). lia. } apply IZR_le in P.
    split; [exists (Int_part r); reflexivity|]. rewrite !Rabs_pos_eq by lra. split; [lra|]. apply Rmult_le_pos; lra.
  - destruct (base_Int_part (- r)) as [A B]. assert (P : (0 <= Int_part (- r))%Z). { assert (-1 < Int_part (- r))%Z by (apply lt_IZR; lra). lia. } apply IZR_le in P.
    split; [exists (- Int_part (- r))%Z; rewrite opp_IZR; reflexivity|]. rewrite (Rabs_left r) by lra. rewrite Rabs_Ropp, Rabs_pos_eq by lra. split; [lra|].
    replace (r * - IZR (Int_part (- r))) with ((- r) * IZR (Int_part (- r))) by ring. apply Rmult_le_pos; lra.
Qed.
Lemma integral_abs_le a b : integral a -> integral b -> Rabs a < Rabs b -> Rabs a <= Rabs b - 1.
Proof.
  intros [z ->] [w ->] H. rewrite <- !abs_IZR in *. apply lt_IZR in H. rewrite <- minus_IZR. apply IZR_le. lia.
Qed.
(** the number obtained by dropping the fractional part is unique *)
Lemma toward_zero_unique r a b : toward_zero r a -> toward_zero r b -> a = b.
Proof.
  intros (Ia & A & A') (Ib & B & B').
  assert (E : Rabs a = Rabs b).
  { destruct (Rtotal_order (Rabs a) (Rabs b)) as [H|[H|H]]; auto; exfalso; [pose proof (integral_abs_le _ _ Ia Ib H)|pose proof (integral_abs_le _ _ Ib Ia H)]; lra. }
  destruct (Req_dec (Rabs a) 0) as [Z|NZ].
  { assert (a = 0) by (destruct (Req_dec a 0); auto; apply Rabs_no_R0 in H; contradiction). rewrite Z in E. symmetry in E. assert (b = 0) by (destruct (Req_dec b 0); auto; apply Rabs_no_R0 in H0; contradiction). congruence. }
  pose proof (Rabs_pos a). assert (r <> 0) by (intro; subst; rewrite Rabs_R0 in A; lra).
  revert A A' B B' E NZ H H0. unfold Rabs. repeat destruct Rcase_abs; intros; try lra; exfalso; nra.
Qed.
Lemma toward_zero_near r t : toward_zero r t -> Rabs (t - r) < 1.
Proof.
  intros (_ & A & B). destruct (Req_dec t 0) as [->|N].
  { rewrite Rabs_R0 in A. replace (0 - r) with (- r) by ring. rewrite Rabs_Ropp. lra. }
  destruct (Rlt_dec 0 t) as [P|P].
  - assert (0 <= r) by (apply (Rmult_le_reg_r t); lra). rewrite !(Rabs_pos_eq) in A by lra. apply Rabs_def1; lra.
  - assert (r <= 0) by (apply (Rmult_le_reg_r (- t)); lra). rewrite (Rabs_left t), (Rabs_left1 r) in A by lra. apply Rabs_def1; lra.
Qed.
Lemma trunc_sgn r a : trunc r * sgn a = trunc (r * sgn a).
Proof.
  unfold sgn. destruct (Rltb a 0); [|destruct (Rltb 0 a); [rewrite !Rmult_1_r; reflexivity|rewrite !Rmult_0_r, trunc_0; reflexivity]].
  replace (r * -1) with (- r) by ring. rewrite trunc_opp. ring.
Qed.
Lemma get_vmap n f (x : Vec n) i : (i < n)%nat -> get (vmap f x) i = f (get x i).
Proof. intro H. destruct x as [l Hl]. unfold get, vmap. cbn [proj1_sig lst]. rewrite (nth_indep (map f l) 0 (f 0)) by exact (eq_ind_r (fun k => (i < k)%nat) H (eq_trans (map_length f l) Hl)). apply map_nth. Qed.

(** ** the entrywise operators *)
Lemma sep_trunc n fuel e e' pr pr' : (forall tau a, 0 < tau -> integral a -> pr' tau a = trunc (pr tau a)) ->
  truncates (obj (S fuel) (sep_body (n:=n) e pr)) (obj (S fuel) (sep_body e' pr')).
Proof.
  intros H x tau Hx Ht. exists (vmap (pr tau) x), (vmap (pr' tau) x). simpl. rewrite !check_tau_pos by auto. split; [reflexivity|]. split; [reflexivity|].
  intros i Hi. rewrite !get_vmap by auto. rewrite H by auto. apply trunc_spec.
Qed.

(*! C83_float_arrays : for float arrays the models of this file are the ones of the other properties *)
Lemma C83_float_arrays_l : forall n,
  (forall alpha, ihuber_body (n:=n) false alpha = sep_body (huber_elem alpha) (huber_pr alpha)) /\
  (forall sigma gamma, ilog_body (n:=n) false sigma gamma = sep_body (log_elem sigma gamma) (log_pr sigma gamma)) /\
  (forall sigma delta, ilog1_body (n:=n) false sigma delta = sep_body (log1_elem delta) (log1_pr sigma delta)) /\
  (forall sigma a, iscad_body (n:=n) false sigma a = sep_body (scad_elem sigma a) (scad_pr sigma a)) /\
  (forall mu, iqec_body (n:=n) false mu = sep_body (qec_elem mu) (qec_pr mu)) /\
  (forall W sigma gamma, ietp_body (n:=n) false W sigma gamma = sep_body (etp_elem sigma gamma) (etp_pr W sigma gamma)) /\
  (forall sigma gamma, igeman_body (n:=n) false sigma gamma = sep_body (geman_elem sigma gamma) (geman_pr sigma gamma)).
Proof. intro n. repeat split; reflexivity. Qed.

(*! C83_truncated : Huber, Log, Log1, SCAD, QuadraticEnvelopeCard, ETP and Geman applied to an array of integers, for all their
   parameters and every tau > 0: prox returns the vector it returns for the same numbers stored as floats with the fractional
   part of every entry dropped *)
Lemma C83_truncated_l : forall n fuel,
  (forall alpha, truncates (obj (S fuel) (ihuber_body (n:=n) false alpha)) (obj (S fuel) (ihuber_body true alpha))) /\
  (forall sigma gamma, truncates (obj (S fuel) (ilog_body (n:=n) false sigma gamma)) (obj (S fuel) (ilog_body true sigma gamma))) /\
  (forall sigma delta, truncates (obj (S fuel) (ilog1_body (n:=n) false sigma delta)) (obj (S fuel) (ilog1_body true sigma delta))) /\
  (forall sigma a, truncates (obj (S fuel) (iscad_body (n:=n) false sigma a)) (obj (S fuel) (iscad_body true sigma a))) /\
  (forall mu, truncates (obj (S fuel) (iqec_body (n:=n) false mu)) (obj (S fuel) (iqec_body true mu))) /\
  (forall W sigma gamma, truncates (obj (S fuel) (ietp_body (n:=n) false W sigma gamma)) (obj (S fuel) (ietp_body true W sigma gamma))) /\
  (forall sigma gamma, truncates (obj (S fuel) (igeman_body (n:=n) false sigma gamma)) (obj (S fuel) (igeman_body true sigma gamma))).
Proof.
  intros n fuel. repeat split; intros; apply sep_trunc; intros tau x Ht Hx.
  - unfold ihuber_pr, store. destruct (Rltb alpha (Rabs x)); reflexivity.
  - unfold ilog_pr, store. cbv zeta. match goal with |- context[Rleb 0 ?d] => destruct (Rleb 0 d) end; [apply trunc_sgn|rewrite Rmult_0_l, trunc_0; reflexivity].
  - unfold ilog1_pr, store. cbv zeta. destruct (Rltb x _); [reflexivity|]. destruct (Rltb _ x); [reflexivity|]. symmetry; apply trunc_0.
  - unfold iscad_pr, store. cbv zeta. destruct (Rleb (Rabs x) _); [reflexivity|]. destruct (Rleb (Rabs x) _); [reflexivity|]. symmetry; apply trunc_integral; auto.
  - unfold iqec_pr, store. cbv zeta. destruct (Rltb (Rabs x) _).
    + destruct (Rleb 1 tau); [rewrite Rmult_0_l, trunc_0; reflexivity|apply trunc_sgn].
    + rewrite <- trunc_sgn. f_equal. symmetry. apply trunc_integral. destruct Hx as [z ->]. exists (Z.abs z). rewrite abs_IZR. reflexivity.
  - unfold ietp_pr, store. cbv zeta. destruct (Rleb _ _); [|symmetry; apply trunc_0]. destruct (Rltb _ _); [reflexivity|symmetry; apply trunc_0].
  - unfold igeman_pr, store. cbv zeta. destruct (Rleb _ _); [|symmetry; apply trunc_0]. destruct (Rltb _ _); [reflexivity|symmetry; apply trunc_0].
Qed.

(*! C83_exact_iff : whenever the float version returns the only proximal point of a function, the integer version returns the
   proximal point exactly when that point has integer entries, and is less than 1 away from it in every entry otherwise *)
Lemma C83_exact_iff_l : forall n (f g : Op (Vec n)) phi x tau, truncates f g -> int_vec x -> 0 < tau ->
  (exists p, o_prox f x tau = Ok p /\ is_prox phi tau x p /\ forall p', is_prox phi tau x p' -> p' = p) ->
  exists p q, o_prox g x tau = Ok q /\ is_prox phi tau x p /\ (is_prox phi tau x q <-> int_vec p) /\ forall i, (i < n)%nat -> Rabs (get q i - get p i) < 1.
Proof.
  intros n f g phi x tau HT Hx Ht (p & E1 & H1 & HU). destruct (HT x tau Hx Ht) as (p' & q & E2 & E3 & H). rewrite E1 in E2. injection E2 as <-.
  exists p, q. split; [exact E3|]. split; [exact H1|]. split; [split|].
  - intro Hq. rewrite <- (HU q Hq). intros i Hi. apply (H i Hi).
  - intro Hp. assert (q = p); [|subst; auto]. apply vec_ext. intros i Hi. apply (toward_zero_unique (get p i)); [apply H; auto|]. rewrite <- (trunc_integral (get p i)) at 2 by auto. apply trunc_spec.
  - intros i Hi. apply toward_zero_near. auto.
Qed.

(*!ex C83_exact_example : QuadraticEnvelopeCard with mu = 9/2: the integer 2 with tau = 1/2 gives exactly 1, as for floats; with tau = 1/4
   the float result 5/3 becomes 1 *)
Lemma C83_exact_example_l : int_vec (nl [2] : Vec 1) /\ (forall isint, iqec_pr isint (9/2) (1/2) 2 = 1) /\ iqec_pr false (9/2) (1/4) 2 = 5/3 /\ iqec_pr true (9/2) (1/4) 2 = 1.
Proof.
  assert (S : sqrt (2 * (9 / 2)) = 3) by (replace (2 * (9 / 2)) with (3 * 3) by lra; apply sqrt_square; lra).
  assert (A2 : Rabs 2 = 2) by (apply Rabs_right; lra).
  assert (G : sgn 2 = 1) by (unfold sgn; destruct (Rltb_spec 2 0) as [[? ->]|[? ->]]; [lra|]; destruct (Rltb_spec 0 2) as [[? ->]|[? ->]]; lra).
  assert (T : trunc (5/3) = 1). { apply (toward_zero_unique (5/3)); [apply trunc_spec|]. split; [exists 1%Z; reflexivity|]. rewrite Rabs_R1, Rabs_right by lra. lra. }
  split; [|split; [|split]].
  - intros i Hi. assert (i = 0)%nat by lia. subst. exists 2%Z. reflexivity.
  - intro isint. unfold iqec_pr. cbv zeta. rewrite S, A2, G. destruct (Rltb_spec 2 3) as [[? ->]|[? ->]]; [|lra]. destruct (Rleb_spec 1 (1/2)) as [[? ->]|[? ->]]; [lra|].
    replace ((2 - 1 / 2 * 3) / (1 - 1 / 2)) with 1 by field. rewrite Rmax_right by lra. unfold store. destruct isint; [change (trunc 1) with (trunc (IZR 1)); rewrite trunc_int|]; lra.
  - unfold iqec_pr. cbv zeta. rewrite S, A2, G. destruct (Rltb_spec 2 3) as [[? ->]|[? ->]]; [|lra]. destruct (Rleb_spec 1 (1/4)) as [[? ->]|[? ->]]; [lra|].
    replace ((2 - 1 / 4 * 3) / (1 - 1 / 4)) with (5/3) by field. rewrite Rmax_right by lra. unfold store. lra.
  - unfold iqec_pr. cbv zeta. rewrite S, A2, G. destruct (Rltb_spec 2 3) as [[? ->]|[? ->]]; [|lra]. destruct (Rleb_spec 1 (1/4)) as [[? ->]|[? ->]]; [lra|].
    replace ((2 - 1 / 4 * 3) / (1 - 1 / 4)) with (5/3) by field. rewrite Rmax_right by lra. unfold store. lra.
Qed.

Lemma tz_intro z r : Rabs (IZR z) <= Rabs r < Rabs (IZR z) + 1 -> 0 <= r * IZR z -> trunc r = IZR z.
Proof. intros A B. apply (toward_zero_unique r); [apply trunc_spec|]. split; [exists z; reflexivity|auto]. Qed.

(*! C83_worse_than_input_refuted : the point returned for integers need not be the best integer point, it can even have a larger objective
   than the input itself: Huber(alpha=1), x = 3, tau = 1/10 gives 2 (the proximal point is 29/10) and tau f(2) + (2-3)^2/2 = 13/20,
   while tau f(3) = 1/4 *)
Lemma C83_worse_than_input_refuted_l : forall fuel,
  o_prox (obj (S fuel) (ihuber_body (n:=1) true 1)) (nl [3] : Vec 1) (1/10) = Ok (nl [2] : Vec 1) /\
  is_prox (etot (E:=Vec 1) (fun v : Vec 1 => huber_elem 1 (get v 0))) (1/10) (nl [3] : Vec 1) (nl [29/10] : Vec 1) /\
  1/10 * huber_elem 1 2 + (2 - 3) * (2 - 3) / 2 = 13/20 /\ 1/10 * huber_elem 1 3 + (3 - 3) * (3 - 3) / 2 = 1/4.
Proof.
  intro fuel. assert (H3 : huber_elem 1 3 = 5/2) by (unfold huber_elem; rewrite Rabs_right by lra; destruct (Rltb_spec 1 3) as [[? ->]|[? ->]]; lra).
  assert (H2 : huber_elem 1 2 = 3/2) by (unfold huber_elem; rewrite Rabs_right by lra; destruct (Rltb_spec 1 2) as [[? ->]|[? ->]]; lra).
  split; [|split; [|split; [rewrite H2; lra|rewrite H3; lra]]].
  - simpl. rewrite check_tau_pos by lra. f_equal. apply vec_ext. intros i Hi. assert (i = 0)%nat by lia. subst. rewrite get_vmap by lia.
    unfold get, lst. cbn [proj1_sig nth nl]. unfold ihuber_pr, store. rewrite Rabs_right by lra. destruct (Rltb_spec 1 3) as [[? ->]|[? ->]]; [|lra].
    destruct (soft_cases (1/10 * 1) 3 ltac:(lra)) as [[? ->]|[[? ->]|[? ->]]]; try (rewrite ?Rabs_right in * by lra; lra).
    apply (tz_intro 2); [rewrite !Rabs_right by lra|]; lra.
  - assert (P : is_prox (etot (E:=Vec 1) (sumf (huber_elem 1))) (1/10) (nl [3] : Vec 1) (nl [29/10] : Vec 1)).
    { destruct (C20_huber_exact_iff_l 1 fuel 1 (1/10) (nl [3]) ltac:(lra) ltac:(lra)) as (p & E & HP). simpl in E. rewrite check_tau_pos in E by lra. injection E as E.
      replace (nl [29/10] : Vec 1) with p; [apply HP|].
      - cbn [proj1_sig nl]. intros a [<-|[]]. rewrite Rabs_right; lra.
      - rewrite <- E. apply vec_ext. intros i Hi. assert (i = 0)%nat by lia. subst. rewrite get_vmap by lia. unfold get, lst. cbn [proj1_sig nth nl]. unfold huber_pr. rewrite Rabs_right by lra. destruct (Rltb_spec 1 3) as [[? ->]|[? ->]]; [|lra].
        destruct (soft_cases (1/10 * 1) 3 ltac:(lra)) as [[? ->]|[[? ->]|[? ->]]]; try lra; rewrite ?Rabs_right in * by lra; lra. }
    assert (Q : forall v : Vec 1, sumf (huber_elem 1) v = huber_elem 1 (get v 0)).
    { intro v. destruct v as [[|a [|b l]] Hl]; try discriminate. unfold sumf, get, lst. cbn. lra. }
    destruct P as [D M]. split; [exact I|]. intros y Hy. specialize (M y Hy). cbn [eval etot] in *. rewrite !Q in M. exact M.
Qed.

(*! C83_huber_value_refuted : called on integers, Huber and SCAD add up the entries with their fractional parts dropped: Huber(1) of an array of
   ones is 0 (each term is 1/2), SCAD(1/2, 3) of an array of ones is 0 (each term is 7/16) *)
Lemma C83_huber_value_refuted_l : forall n fuel, let x : Vec n := vtab n (fun _ => 1) in
  o_call (obj fuel (ihuber_body true 1)) x = Ok (VNum 0) /\ o_call (obj fuel (ihuber_body false 1)) x = Ok (VNum (INR n / 2)) /\
  o_call (obj fuel (iscad_body true (1/2) 3)) x = Ok (VNum 0) /\ o_call (obj fuel (iscad_body false (1/2) 3)) x = Ok (VNum (INR n * (7/16))).
Proof.
  intros n fuel x.
  assert (G : forall (e : R -> R) c, e 1 = c -> Rsum (map e (proj1_sig (x : nlist R n))) = INR n * c).
  { intros e c Hc. unfold x, vtab. cbn [proj1_sig]. rewrite map_map. rewrite <- (seq_length n 0) at 2. induction (seq 0 n) as [|a l IH]; [simpl; lra|]. cbn [map Datatypes.length Rsum]. rewrite S_INR, IH, Hc. ring. }
  assert (T1 : trunc (1 * 1 / (2 * 1)) = 0) by (apply (tz_intro 0); rewrite ?Rabs_R0, ?Rabs_right by lra; lra).
  assert (T2 : trunc ((- (1 * 1) + 2 * 3 * (1/2) * 1 - 1/2 * (1/2)) / (2 * (3 - 1))) = 0) by (apply (tz_intro 0); rewrite ?Rabs_R0, ?Rabs_right by lra; lra).
  split; [|split; [|split]]; cbn [obj o_call d_call]; unfold ihuber_body, iscad_body, sep_body; cbn; do 2 f_equal.
  - rewrite (G _ 0); [ring|]. unfold ihuber_elem, store. rewrite Rabs_R1. destruct (Rltb_spec 1 1) as [[? ->]|[? ->]]; [lra|exact T1].
  - rewrite (G _ (1/2)); [field|]. unfold ihuber_elem, store. rewrite Rabs_R1. destruct (Rltb_spec 1 1) as [[? ->]|[? ->]]; lra.
  - rewrite (G _ 0); [ring|]. unfold iscad_elem, store. rewrite Rabs_R1. destruct (Rleb_spec 1 (1/2)) as [[? ->]|[? ->]]; [lra|]. destruct (Rleb_spec 1 (3 * (1/2))) as [[? ->]|[? ->]]; [exact T2|lra].
  - rewrite (G _ (7/16)); [ring|]. unfold iscad_elem, store. rewrite Rabs_R1. destruct (Rleb_spec 1 (1/2)) as [[? ->]|[? ->]]; [lra|]. destruct (Rleb_spec 1 (3 * (1/2))) as [[? ->]|[? ->]]; lra.
Qed.

(** ** ProximalPoint *)
Lemma ihuber_shrinks alpha tau a : 0 < alpha -> 0 < tau -> integral a -> a <> 0 -> integral (ihuber_pr true alpha tau a) /\ Rabs (ihuber_pr true alpha tau a) <= Rabs a - 1.
Proof.
  intros Ha Ht Ia Na. pose proof (Rabs_pos_lt a Na) as Pa.
  assert (K : exists r, ihuber_pr true alpha tau a = trunc r /\ Rabs r < Rabs a).
  { unfold ihuber_pr, store. destruct (Rltb_spec alpha (Rabs a)) as [[H ->]|[H ->]]; eexists; (split; [reflexivity|]).
    - destruct (soft_cases (tau * 1) a ltac:(lra)) as [[A ->]|[[A ->]|[A ->]]]; rewrite ?Rmult_1_r in *.
      + rewrite !Rabs_pos_eq by lra. lra.
      + rewrite (Rabs_left1 a) by lra. rewrite Rabs_left1 by lra. lra.
      + rewrite Rabs_R0. exact Pa.
    - assert (C : 1 < 1 + tau * (1 / alpha)) by (assert (0 < tau * (1 / alpha)) by (apply Rmult_lt_0_compat; [auto|apply Rdiv_lt_0_compat; lra]); lra).
      unfold Rdiv at 1. rewrite Rabs_mult, (Rabs_pos_eq (/ (1 + tau * (1 / alpha)))) by (apply Rlt_le, Rinv_0_lt_compat; lra).
      rewrite <- (Rmult_1_r (Rabs a)) at 2. apply Rmult_lt_compat_l; [auto|]. rewrite <- Rinv_1. apply Rinv_lt_contravar; lra. }
  destruct K as (r & -> & Hr). destruct (trunc_spec r) as (I & B & _). split; [exact I|]. apply integral_abs_le; auto. lra.
Qed.

(*! C83_proximal_point_huber : ProximalPoint with Huber from an array of integers reaches the minimiser 0 exactly, after at most max_i |x_i|
   iterations, for all alpha, tau > 0 *)
Lemma C83_proximal_point_huber_l : forall n fuel alpha tau (x0 : Vec n) N niter, 0 < alpha -> 0 < tau -> int_vec x0 -> (forall i, (i < n)%nat -> Rabs (get x0 i) <= INR N) -> (N <= niter)%nat ->
  exists tr, ProximalPoint (obj (S fuel) (ihuber_body true alpha)) x0 tau niter None = Ok (vzero, tr).
Proof.
  intros n fuel alpha tau x0 N niter Ha Ht Hx HN Hn. unfold ProximalPoint.
  set (o := obj (S fuel) (ihuber_body true alpha)).
  assert (Z : ihuber_pr true alpha tau 0 = 0).
  { unfold ihuber_pr, store. rewrite Rabs_R0. destruct (Rltb_spec alpha 0) as [[? ->]|[? ->]]; [lra|]. unfold Rdiv at 1. rewrite Rmult_0_l. apply trunc_0. }
  set (P := fun (k : nat) (s : pp_state (Vec n)) => int_vec (pp_x s) /\ forall i, (i < n)%nat -> get (pp_x s) i = 0 \/ Rabs (get (pp_x s) i) <= INR N - INR k).
  assert (Hstep : forall k s, P k s -> exists s', pp_body o tau None k s = Ok (s', false) /\ P (S k) s').
  { intros k s [I B]. unfold pp_body, o. simpl o_prox. rewrite check_tau_pos by auto. cbn [bind]. eexists. split; [reflexivity|]. split; cbn [pp_x]; intros i Hi; rewrite get_vmap by auto.
    - destruct (Req_dec (get (pp_x s) i) 0) as [->|Nz]; [rewrite Z; exists 0%Z; reflexivity|]. apply ihuber_shrinks; auto.
    - destruct (Req_dec (get (pp_x s) i) 0) as [->|Nz]; [left; exact Z|]. right. destruct (ihuber_shrinks alpha tau (get (pp_x s) i) Ha Ht (I i Hi) Nz) as [_ L]. destruct (B i Hi) as [?|B']; [contradiction|]. rewrite S_INR. lra. }
  assert (P0 : P 0%nat (PP x0 None [])) by (split; [exact Hx|]; intros i Hi; right; simpl; specialize (HN i Hi); lra).
  assert (R : forall m k s, P k s -> exists s', for_loop (pp_body o tau None) m k s = Ok (s', (k + m)%nat) /\ P (k + m)%nat s').
  { induction m as [|m IH]; intros k s Hs; [exists s; rewrite Nat.add_0_r; auto|]. cbn [for_loop]. destruct (Hstep k s Hs) as (s1 & -> & H1). cbn [bind fst snd]. destruct (IH (S k) s1 H1) as (s2 & -> & H2). exists s2. rewrite <- plus_n_Sm. auto. }
  destruct (R niter 0%nat _ P0) as (s & -> & [I B]). cbn [bind fst snd]. exists (pp_tr s). do 2 f_equal.
  apply vec_ext. intros i Hi. rewrite get_zero. destruct (B i Hi) as [?|B']; auto. destruct (Req_dec (get (pp_x s) i) 0) as [?|Nz]; auto.
  exfalso. cbn [plus] in B'. apply le_INR in Hn. pose proof (Rabs_pos_lt _ Nz). lra.
Qed.

(*!ex C83_proximal_point_example : from the integers 3 and -2 with alpha = tau = 1, three iterations give 0 *)
Lemma C83_proximal_point_example_l : exists tr, ProximalPoint (obj 1 (ihuber_body true 1)) (nl [3; -2] : Vec 2) 1 3 None = Ok (vzero, tr).
Proof.
  apply (C83_proximal_point_huber_l 2 0 1 1 (nl [3; -2]) 3 3); try lra; try lia.
  - intros i Hi. destruct i as [|[|i]]; [exists 3%Z; reflexivity|exists (-2)%Z; reflexivity|lia].
  - intros i Hi. destruct i as [|[|i]]; [| |lia]; unfold get, lst; cbn [proj1_sig nl nth]; simpl INR; [rewrite Rabs_right by lra|rewrite Rabs_left by lra]; lra.
Qed.

(** ** Simplex *)
Lemma by_rows_trunc {r c} (P : Vec c -> result (Vec c)) (x y : Vec (r * c)) : by_rows P x = Ok y ->
  by_rows (fun v => p <- P v ;; Ok (vmap (store true) p)) x = Ok (vmap trunc y).
Proof.
  unfold by_rows. intro H.
  assert (K : forall l ys, M_Proj.mapM (fun i => P (rowv x i)) l = Ok ys -> M_Proj.mapM (fun i => p <- P (rowv x i) ;; Ok (vmap (store true) p)) l = Ok (map (vmap trunc) ys)).
  { induction l as [|i l IH]; intros ys Hl; cbn [M_Proj.mapM map] in *; [injection Hl as <-; reflexivity|]. destruct (P (rowv x i)) as [p|e]; [|discriminate]. cbn [bind] in *.
    destruct (M_Proj.mapM (fun i => P (rowv x i)) l) as [qs|e]; [|discriminate]. cbn [bind] in Hl. injection Hl as <-. rewrite (IH qs eq_refl). reflexivity. }
  destruct (M_Proj.mapM (fun i => P (rowv x i)) (seq 0 r)) as [ys|e] eqn:E; [|discriminate]. cbn [bind] in H. injection H as <-. rewrite (K _ _ E). cbn [bind]. f_equal.
  apply vec_ext. intros p Hp. rewrite get_vmap by auto. unfold stack. rewrite !get_vtab by auto. assert (Hc : (0 < c)%nat) by (destruct c; [lia|lia]).
  replace (vzero : Vec c) with (vmap trunc (vzero : Vec c)) at 1 by (apply vec_ext; intros; rewrite get_vmap, get_zero by auto; apply trunc_0). rewrite map_nth. apply get_vmap. apply Nat.mod_upper_bound. lia.
Qed.

Lemma classic_le_1 c h : (forall j, (j < c)%nat -> 0 <= h j) -> RS c h = 1 ->
  (exists k, (k < c)%nat /\ forall j, (j < c)%nat -> h j = if Nat.eqb j k then 1 else 0) \/ (forall j, (j < c)%nat -> h j < 1).
Proof.
  intros Hp Hs.
  assert (D : forall m, (exists k, (k < m)%nat /\ h k = 1) \/ (forall j, (j < m)%nat -> h j <> 1)).
  { induction m as [|m [(k & Hk & E)|N]]; [right; lia|left; exists k; split; auto|]. destruct (Req_dec (h m) 1); [left; exists m; auto|]. right. intros j Hj. destruct (Nat.eq_dec j m) as [->|]; [auto|apply N; lia]. }
  assert (LE : forall k, (k < c)%nat -> 0 <= RS c (fun j => if Nat.eqb j k then 0 else h j) /\ RS c h = h k + RS c (fun j => if Nat.eqb j k then 0 else h j)).
  { intros k Hk. split; [apply RS_nonneg; intros j Hj; destruct (Nat.eqb j k); [lra|auto]|].
    rewrite (RS_ext c h (fun j => (if Nat.eqb j k then h k else 0) + (if Nat.eqb j k then 0 else h j))) by (intros j Hj; destruct (Nat.eqb_spec j k) as [->|]; ring).
    rewrite RS_add. f_equal. transitivity (RS c (fun i => h i * (if Nat.eqb k i then 1 else 0))); [|apply RS_delta; auto]. apply RS_ext. intros j Hj. rewrite (Nat.eqb_sym k j). destruct (Nat.eqb_spec j k) as [->|]; ring. }
  destruct (D c) as [(k & Hk & E)|N].
  - left. exists k. split; auto. intros j Hj. destruct (LE k Hk) as [_ S]. rewrite Hs, E in S. destruct (Nat.eqb_spec j k) as [->|Ne]; [exact E|].
    assert (Z : RS c (fun j => if Nat.eqb j k then 0 else h j) = 0) by lra. assert (NN : forall i, (i < c)%nat -> 0 <= (if Nat.eqb i k then 0 else h i)) by (intros i Hi; destruct (Nat.eqb i k); [lra|auto]). pose proof (RS_zero_all c (fun j => if Nat.eqb j k then 0 else h j) NN Z j Hj) as K. cbv beta in K. destruct (Nat.eqb_spec j k); [contradiction|exact K].
  - right. intros j Hj. destruct (LE j Hj) as [P S]. specialize (N j Hj). lra.
Qed.

(*! C83_simplex : Simplex with dims on integers, either axis: whatever the projection of the rows computes, the result is that matrix with the
   fractional parts dropped.  In particular for radius 1 (rows with non-negative entries of sum 1) every row is either returned exactly, and is then
   a vertex of the simplex, or is entirely zero, which is outside of the simplex *)
Lemma C83_simplex_l : forall r c tau, 0 < tau ->
  (forall (P : Vec c -> result (Vec c)) (x y : Vec (r * c)), simplex_prox_rows P x tau = Ok y -> exists q, isimplex_rows true P x tau = Ok q /\
    (forall p, (p < r * c)%nat -> toward_zero (get y p) (get q p)) /\
    forall i, (i < r)%nat -> (forall j, (j < c)%nat -> 0 <= get y (i * c + j)) -> RS c (fun j => get y (i * c + j)) = 1 ->
      (exists k, (k < c)%nat /\ forall j, (j < c)%nat -> get q (i * c + j) = get y (i * c + j) /\ get y (i * c + j) = if Nat.eqb j k then 1 else 0) \/
      (forall j, (j < c)%nat -> get q (i * c + j) = 0)) /\
  (forall (P : Vec r -> result (Vec r)) (x y : Vec (r * c)), simplex_prox_cols P x tau = Ok y -> exists q, isimplex_cols true P x tau = Ok q /\
    forall p, (p < r * c)%nat -> toward_zero (get y p) (get q p)).
Proof.
  intros r c tau Ht. assert (T : Rleb tau 0 = false) by (destruct (Rleb_spec tau 0) as [[? ?]|[? ?]]; [lra|auto]). split.
  - intros P x y H. unfold simplex_prox_rows, isimplex_rows in *. rewrite T in *. exists (vmap trunc y). split; [apply by_rows_trunc; auto|].
    split; [intros p Hp; rewrite get_vmap by auto; apply trunc_spec|]. intros i Hi Hpos Hsum.
    assert (L : forall j, (j < c)%nat -> (i * c + j < r * c)%nat) by (intros j Hj; apply flat_lt; auto).
    destruct (classic_le_1 c (fun j => get y (i * c + j)) Hpos Hsum) as [(k & Hk & K)|K].
    + left. exists k. split; [auto|]. intros j Hj. rewrite get_vmap by auto. rewrite (K j Hj). split; [|reflexivity]. destruct (Nat.eqb j k); [exact (trunc_int 1)|exact trunc_0].
    + right. intros j Hj. rewrite get_vmap by auto. apply (tz_intro 0); [|rewrite Rmult_0_r; lra]. rewrite Rabs_R0, Rabs_pos_eq by auto. specialize (Hpos j Hj). specialize (K j Hj). cbv beta in *. lra.
  - intros P x y H. unfold simplex_prox_cols, isimplex_cols in *. rewrite T in *. destruct (by_rows P (transp x)) as [y'|e] eqn:E; [|discriminate]. cbn [bind] in H. injection H as <-.
    rewrite (by_rows_trunc P (transp x) y' E). cbn [bind]. eexists. split; [reflexivity|]. intros p Hp. unfold transp. rewrite !get_vtab by auto.
    assert (0 < c)%nat by lia. assert (p / c < r)%nat by (apply Nat.div_lt_upper_bound; lia). assert (p mod c < c)%nat by (apply Nat.mod_upper_bound; lia). rewrite get_vmap by (apply flat_lt; auto). apply trunc_spec.
Qed.

(*! C83_vstack : VStack with restrictions on integers returns the result for floats with the fractional parts dropped, whatever the operators are
   (they may return floats); with nn it returns the result of the operators unchanged *)
Lemma C83_vstack_l : forall v x tau p, vstack_prox v x tau = Ok p ->
  ivstack_prox true v x tau = Ok (match vs_blocks v with Restr _ => map trunc p | Sizes _ => p end) /\
  forall j, toward_zero (nth j p 0) (nth j (map trunc p) 0).
Proof.
  intros v x tau p H. split.
  - unfold vstack_prox, ivstack_prox in *. unfold check_tau, size_check in *. destruct (Rleb tau 0); [discriminate|]. destruct (Nat.eqb (length x) (vs_nx v)); [|discriminate]. destruct (vs_blocks v) as [nn|r]; [exact H|].
    assert (RP : map trunc (repeat 0 (length x)) = repeat 0 (length x)) by (clear H; induction (length x) as [|m IHm]; [reflexivity|]; cbn [repeat map]; rewrite IHm, trunc_0; reflexivity). rewrite <- RP. clear RP.
    revert r H. generalize (repeat 0 (length x)). induction (vs_ops v) as [|op ops IH]; intros s [|iava r] H; cbn [loop_restr] in *; try discriminate; [injection H as <-; reflexivity|].
    destruct (gather iava x) as [xi|]; [|discriminate]. cbn [bind] in *. destruct (l_prox op xi tau) as [a|]; [|discriminate]. cbn [bind] in *. destruct (scatter s iava a) as [s'|] eqn:E; [|discriminate]. cbn [bind] in *.
    change (store true) with trunc. rewrite (scatter_map trunc _ _ _ _ E). cbn [bind]. apply IH. exact H.
  - intro j. rewrite <- trunc_0 at 2. rewrite map_nth. apply trunc_spec.
Qed.

Lemma isweep3 cast first (P : R -> R) (u a b c : R) :
  isweep (E:=R_IPS) cast first [(fun v : R_IPS => Ok (P v : R_IPS)); (fun v => Ok v); (fun v => Ok v)] 0 (CY (u : R_IPS) [(u : R_IPS); (u : R_IPS); (u : R_IPS)] [(a : R_IPS); (b : R_IPS); (c : R_IPS)]) =
  let st := fun v : R => if first then (cast v : R) else v in
  let u0 := P (u + a) in let u1 := st u0 + b in let u2 := st u1 + c in
  Ok (CY (u2 : R_IPS) [(st u0 : R_IPS); (st u1 : R_IPS); (st u2 : R_IPS)] [(a + u - u0 : R_IPS); (b + st u0 - u1 : R_IPS); (c + st u1 - u2 : R_IPS)]).
Proof.
  cbn [isweep last_of c_prev c_z nth lset firstn skipn app bind c_u Nat.sub length]. cbv zeta.
  assert (K : forall p q : R_IPS, p [-] q = ((p : R) - q : R_IPS)) by (intros; apply Rsub). rewrite !K. reflexivity.
Qed.

(*! C83_dykstra_refuted : GenericIntersectionProj (the Dykstra loop for three sets) from the integer 0 with the sets {x >= 1/2}, R, R: for every
   number of iterations >= 1 and every tol > 0 it stops after the first sweep and returns 0, which is outside of the intersection; from the float 0
   (tol <= 1/2) it returns 1/2, the projection *)
Lemma C83_dykstra_refuted_l : forall niter tol, (1 <= niter)%nat -> 0 < tol <= 1/2 ->
  let projs : list (R_IPS -> result R_IPS) := [(fun v : R_IPS => Ok (Rmax (1/2) v : R_IPS)); (fun v => Ok v); (fun v => Ok v)] in
  icyclic_dykstra (E:=R_IPS) Rabs trunc (0 : R_IPS) projs niter tol = Ok (0 : R_IPS) /\
  icyclic_dykstra (E:=R_IPS) Rabs (fun v => v) (0 : R_IPS) projs niter tol = Ok (1/2 : R_IPS) /\
  is_proj (E:=R_IPS) (fun v : R_IPS => 1/2 <= (v : R)) (0 : R_IPS) (1/2 : R_IPS) /\ ~ (1/2 <= 0).
Proof.
  intros niter tol Hn Ht projs. unfold projs. clear projs.
  assert (TH : trunc (1/2) = 0) by (apply (tz_intro 0); rewrite ?Rabs_R0, ?Rabs_right by lra; lra).
  assert (K : forall p q : R_IPS, p [-] q = ((p : R) - q : R_IPS)) by (intros; apply Rsub).
  destruct niter as [|niter]; [lia|]. split; [|split; [|split]]; [| | |lra].
  - unfold icyclic_dykstra. cbn [for_loop]. unfold icyc_body at 1. cbn [fst snd Nat.eqb length repeat]. change (@vzero R_IPS) with (0 : R).
    rewrite (isweep3 trunc true (Rmax (1/2)) 0 0 0 0). cbv zeta. cbn [bind c_u c_z c_prev fst snd map]. unfold amax_rows. cbn [fold_right]. rewrite !K.
    rewrite !Rplus_0_r, !(Rmax_left (1/2) 0) by lra. rewrite TH, Rplus_0_r, trunc_0, Rplus_0_r, trunc_0. rewrite !Rminus_0_r, Rabs_R0. rewrite !(Rmax_left 0 0) by lra. destruct (Rltb_spec 0 tol) as [[? ->]|[? ?]]; [|lra]. reflexivity.
  - unfold icyclic_dykstra. cbn [for_loop]. unfold icyc_body at 1. cbn [fst snd Nat.eqb length repeat]. change (@vzero R_IPS) with (0 : R).
    rewrite (isweep3 (fun v => v) true (Rmax (1/2)) 0 0 0 0). cbv zeta. cbn [bind c_u c_z c_prev fst snd map]. unfold amax_rows at 1. cbn [fold_right]. rewrite !K.
    rewrite !Rplus_0_r, !(Rmax_left (1/2) 0) by lra.
    destruct (Rltb_spec (Rmax (Rabs (0 - 1 / 2)) (Rmax (Rabs (1 / 2 - 1 / 2)) (Rmax (Rabs (1 / 2 - 1 / 2)) (Rmax (Rabs (1 / 2 - 1 / 2)) 0)))) tol) as [[L ->]|[L ->]].
    { exfalso. pose proof (Rmax_l (Rabs (0 - 1 / 2)) (Rmax (Rabs (1 / 2 - 1 / 2)) (Rmax (Rabs (1 / 2 - 1 / 2)) (Rmax (Rabs (1 / 2 - 1 / 2)) 0)))) as Q. rewrite (Rabs_left (0 - 1/2)) in Q at 1 by lra. lra. }
    destruct niter as [|niter]; [reflexivity|]. cbn [for_loop]. unfold icyc_body at 1. cbn [fst snd Nat.eqb length repeat].
    rewrite (isweep3 (fun v => v) false (Rmax (1/2)) (1/2) (0 - 1/2) (0 + 1/2 - 1/2) (0 + 1/2 - 1/2)). cbv zeta. cbn [bind c_u c_z c_prev fst snd map]. unfold amax_rows at 1. cbn [fold_right]. rewrite !K.
    replace (1/2 + (0 - 1/2)) with 0 by lra. rewrite (Rmax_left (1/2) 0) by lra. replace (0 + 1/2 - 1/2) with 0 by lra. rewrite !Rplus_0_r. replace (1/2 - 1/2) with 0 by lra. rewrite Rabs_R0, !(Rmax_left 0 0) by lra.
    destruct (Rltb_spec 0 tol) as [[? ->]|[? ?]]; [|lra]. reflexivity.
  - split; [lra|]. intros y Hy. rewrite !K. rewrite !Rn1. cbv beta in Hy. rewrite (Rabs_right (1/2 - 0)), (Rabs_right ((y : R) - 0)) by lra. lra.
Qed.
