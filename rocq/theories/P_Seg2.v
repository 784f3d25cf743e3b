(** * Theorems about image segmentation *)
From Coq Require Import Psatz.
From Verif Require Import Base Space Spec SpecOps ConvexFacts VSum MatFacts M_ProxOp P_ProxOp M_Bilin M_L1 M_VStack P_VStack M_Loop LoopFacts M_PG M_PD P_PD M_Proj P_Proj P_Proj2 P_Inter M_TV P_TV P_TV3 M_Seg P_Seg.
Open Scope result_scope.
Open Scope R_scope.

Lemma seg_ncl dims G y cl sigma alpha cs z n x0 P r : Segment dims G y cl sigma alpha cs z n x0 P = Ok r -> (1 <= length cl)%nat.
Proof.
  unfold Segment. destruct cl as [|a cl]; [|intros _; cbn; lia]. cbn [length repeat vstack_init]. destruct (seg_sigmas 0 cs); cbn [bind]; discriminate.
Qed.
Lemma seg_out dims G y (cl : list R) sigma alpha cs z n x0 P (Q : Vec (length cl) -> Prop) X lab tr : (forall v w, P v = Ok w -> Q w) ->
  Segment dims G y cl sigma alpha cs z (S n) x0 P = Ok (X, lab, tr) ->
  length lab = nprod dims /\ forall i, (i < nprod dims)%nat ->
    let p c := get (X : Vec (nprod dims * length cl)) (i * length cl + c) in let l := nth i lab 0%nat in
    Q (rowv X i) /\ (forall c, (c < length cl)%nat -> get (rowv X i) c = p c) /\ (l < length cl)%nat /\ (forall c, (c < length cl)%nat -> p c <= p l) /\ (forall c, (c < l)%nat -> p c < p l).
Proof.
  intros HQ E. destruct (seg_labels _ _ _ _ _ _ _ _ _ _ _ _ _ _ E) as [HL Hl]. pose proof (seg_ncl _ _ _ _ _ _ _ _ _ _ _ _ E) as Hc. split; auto.
  intros i Hi p l. pose proof (seg_rows dims G y cl sigma alpha cs z n x0 P X lab tr Q HQ E i Hi) as HR. split; [exact HR|].
  assert (Ep : forall c, (c < length cl)%nat -> get (rowv X i) c = p c) by (intros c Hc'; apply get_row; auto). split; [exact Ep|].
  destruct (argmax_spec (lst (rowv X i))) as [A1 [A2 A3]]; [intro En; pose proof (lst_length _ (rowv X i)) as Hn; rewrite En in Hn; cbn in Hn; lia|]. rewrite <- Hl in A1, A2, A3 by auto. fold l in A1, A2, A3. rewrite lst_length in A1, A2.
  split; [auto|]. split.
  - intros c Hc'. rewrite <- !Ep by auto. apply A2; auto.
  - intros c Hc'. rewrite <- !Ep by lia. apply A3; auto.
Qed.

(*! C64_output : Segment, any image of any dimension, any gradient operator, classes, options and start, n + 1 iterations, any simplex projection that only returns points of the simplex:
   whenever it returns, every pixel has a row of probabilities (entries >= 0, sum 1), and its label is a class whose probability is the largest of the row and strictly larger than
   those of the classes before it *)
Lemma C64_output_l : forall dims G y (cl : list R) sigma alpha cs z n x0 P X lab tr, (forall v w, P v = Ok w -> simplex_set 1 w) ->
  Segment dims G y cl sigma alpha cs z (S n) x0 P = Ok (X, lab, tr) ->
  length lab = nprod dims /\ forall i, (i < nprod dims)%nat ->
    let p c := get (X : Vec (nprod dims * length cl)) (i * length cl + c) in let l := nth i lab 0%nat in
    RS (length cl) p = 1 /\ (forall c, (c < length cl)%nat -> 0 <= p c) /\ (l < length cl)%nat /\ (forall c, (c < length cl)%nat -> p c <= p l) /\ (forall c, (c < l)%nat -> p c < p l).
Proof.
  intros dims G y cl sigma alpha cs z n x0 P X lab tr HP E. destruct (seg_out _ _ _ _ _ _ _ _ _ _ _ (simplex_set 1) _ _ _ HP E) as [HL H]. split; auto.
  intros i Hi p l. destruct (H i Hi) as [[H1 H2] [Ep [A1 [A2 A3]]]]. split; [|split; auto].
  - rewrite <- H1. apply RS_ext. intros c Hc. symmetry. apply Ep; auto.
  - intros c Hc. unfold p. rewrite <- Ep by auto. auto.
Qed.
(*! C64_output_bisect : the same with the library's own bisection in Simplex, any maxiter and tolerance: every row is a result of that projection, so its entries are >= 0 and its sum
   is 1 up to the accuracy of the bisection, ncl (xtol + rtol max(1, 2 sum_c |q_c - v_c|)) with q the exact projection of its argument v; the label is the first class of largest value *)
Lemma C64_output_bisect_l : forall dims G y (cl : list R) sigma alpha cs z n x0 maxiter xtol fuel X lab tr,
  Segment dims G y cl sigma alpha cs z (S n) x0 (simplex_proj 1 maxiter xtol fuel) = Ok (X, lab, tr) ->
  length lab = nprod dims /\ forall i, (i < nprod dims)%nat ->
    let p c := get (X : Vec (nprod dims * length cl)) (i * length cl + c) in let l := nth i lab 0%nat in
    (forall c, (c < length cl)%nat -> 0 <= p c) /\
    (exists v q, simplex_proj 1 maxiter xtol fuel v = Ok (rowv X i) /\ is_proj (simplex_set 1) v q /\
       Rabs (RS (length cl) p - 1) <= INR (length cl) * (xtol + bisect_rtol * Rmax 1 (2 * RS (length cl) (fun c => Rabs (get q c - get v c))))) /\
    (l < length cl)%nat /\ (forall c, (c < length cl)%nat -> p c <= p l) /\ (forall c, (c < l)%nat -> p c < p l).
Proof.
  intros dims G y cl sigma alpha cs z n x0 maxiter xtol fuel X lab tr E.
  destruct (seg_out _ _ _ _ _ _ _ _ _ _ _ (fun w => exists v, simplex_proj 1 maxiter xtol fuel v = Ok w) _ _ _ (fun v w Hv => ex_intro _ v Hv) E) as [HL H]. split; auto.
  intros i Hi p l. destruct (H i Hi) as [[v Hv] [Ep [A1 [A2 A3]]]]. destruct (C23_simplex_l _ _ _ _ _ _ _ Hv) as [q [HQ [[mu H1] [H2 _]]]].
  assert (Ep' : forall c, (c < length cl)%nat -> p c = Rmax (get v c - mu) 0) by (intros c Hc; unfold p; rewrite <- Ep by auto; auto).
  split; [intros c Hc; rewrite Ep' by auto; apply Rmax_r|]. split; [|auto]. exists v, q. split; auto. split; auto. replace (RS (length cl) p) with (RS (length cl) (get (rowv X i))) by (apply RS_ext; exact Ep). exact H2.
Qed.

Lemma prob_norm ncl N (x : Vec (ncl * N)) : feasible x -> norm2 x <= INR N.
Proof.
  intro H. unfold norm2. rewrite flat_inner_col. replace (INR N) with (INR N * 1) by ring. rewrite <- (RS_const N). apply RS_le. intros j Hj. destruct (H j Hj) as [H1 H2]. rewrite <- H1 at 1. rewrite vec_inner. rewrite H1 in *. rewrite <- H1. apply RS_le. intros i Hi.
  assert (get (colv x j) i <= 1). { rewrite <- H1. rewrite <- (RS_single ncl i (get (colv x j) i)) at 1 by auto. apply RS_le. intros k Hk. destruct (Nat.eqb_spec k i) as [->|]; [lra|auto]. }
  specialize (H2 i Hi). nra.
Qed.

(*! C64_optimal : Segment on a 1-D or 2-D image (axes of at least 2), forward-difference Gradient, alpha > 0, one standard deviation <> 0 per class or none, exact simplex projection, any start,
   any n: it never raises; the callback sees n iterates xs 1 .. xs n, each a probability at every pixel; the last one is returned; and for M <= n the mean of the first M is feasible and its
   objective sigma/2 x.f + x.z + alpha/2 ||grad x||_21 is within (|x0 - u|^2/2 + ncl N alpha^2)/M of that of EVERY feasible u (O(1/M) to the minimum); without a start the bound
   is N (1/2 + ncl alpha^2)/M *)
Lemma C64_optimal_l : forall dims G y (cl : list R) sigma alpha cs z x0 P n,
  forward_gradient dims G -> (forall k, In k dims -> (2 <= k)%nat) -> (1 <= length dims <= 2)%nat -> (1 <= length cl)%nat -> 0 < alpha -> sds_ok (length cl) cs -> exact_simplex P ->
  exists xs lab, Segment dims G y cl sigma alpha cs z n x0 P = Ok (transp (r:=length cl) (c:=nprod dims) (xs n), lab, map xs (seq 1 n)) /\
    xs 0%nat = match x0 with Some x => x | None => vzero end /\ (forall j, (1 <= j <= n)%nat -> probabilities (xs j)) /\
    forall M, (1 <= M <= n)%nat -> let mean := avg M (fun j => xs (S j)) in let J := seg_obj dims y cl sigma alpha cs z in
      probabilities mean /\ forall u, probabilities u ->
        J mean - J u <= (1 / 2 * norm2 (xs 0%nat [-] u) + INR (length cl) * INR (nprod dims) * (alpha * alpha)) / INR M /\
        (x0 = None -> J mean - J u <= INR (nprod dims) * (1 / 2 + INR (length cl) * (alpha * alpha)) / INR M).
Proof.
  intros dims G y cl sigma alpha cs z x0 P n HG Hd1 Hd2 Hc Ha Hs HP. destruct (seg_run dims G y cl sigma alpha cs z x0 P HG Hd1 Hd2 Hc Ha Hs HP n) as [xs [E [X0 [Hf HM]]]].
  exists xs. eexists. split; [exact E|]. split; [exact X0|]. split; [intros j Hj; apply prob_feasible; auto|].
  intros M Hm mean J. destruct (HM M Hm) as [HA HB]. split; [apply prob_feasible; exact HA|]. intros u Hu. apply prob_feasible in Hu. specialize (HB u Hu). rewrite X0. split; [exact HB|].
  intros ->. eapply Rle_trans; [exact HB|]. assert (HI : 0 < INR M) by (apply lt_0_INR; lia). apply Rmult_le_compat_r; [left; apply Rinv_0_lt_compat; auto|].
  rewrite norm2_sub_sym, vsub_0_r. pose proof (prob_norm _ _ u Hu). lra.
Qed.

(*! C64_zero_iter_refuted : with niter = 0 the rows are not probabilities: Segment returns the start unprojected, by default zeros (every row sums to 0 and every label is 0) *)
Lemma C64_zero_iter_refuted_l : forall dims G y (cl : list R) sigma alpha cs z P, (1 <= length cl)%nat -> sds_ok (length cl) cs ->
  exists X lab, Segment dims G y cl sigma alpha cs z 0 None P = Ok (X, lab, []) /\ forall i, (i < nprod dims)%nat -> nth i lab 1%nat = 0%nat /\ RS (length cl) (fun c => get (X : Vec (nprod dims * length cl)) (i * length cl + c)) = 0.
Proof.
  intros dims G y cl sigma alpha cs z P Hc Hs. unfold Segment. rewrite (proj1 (sigmas_ok _ _ Hs)). cbn [bind]. destruct (length cl) as [|k] eqn:Ek; [lia|]. cbn [repeat vstack_init bind]. unfold PrimalDual. cbn [for_loop bind fst snd map].
  eexists. eexists. split; [reflexivity|]. intros i Hi. cbn [pd_x]. set (X := transp (r:=S k) (c:=nprod dims) vzero).
  assert (HX : forall c, (c < S k)%nat -> get X (i * S k + c) = 0).
  { intros c Hc'. change (get X (i * S k + c)) with (get X (i * S k + c)). rewrite <- get_row by auto. unfold X. rewrite rowv_transp by auto. rewrite get_col by auto. apply get_zero. }
  split.
  - rewrite (map_nth_lt _ _ _ 0%nat) by (rewrite seq_length; auto). rewrite seq_nth by auto. cbn [Nat.add]. set (l := lst (rowv (r:=nprod dims) (c:=S k) X i)). destruct (argmax_spec l) as [A1 [A2 A3]]; [intro En; pose proof (lst_length _ (rowv (r:=nprod dims) (c:=S k) X i)) as Hn; fold l in Hn; rewrite En in Hn; cbn in Hn; lia|].
    destruct (argmax l) as [|j] eqn:Ej; [reflexivity|]. exfalso. specialize (A3 0%nat ltac:(lia)). unfold l in A1, A3. rewrite lst_length in A1. change (get (rowv X i) 0 < get (rowv X i) (S j)) in A3. rewrite !get_row in A3 by lia. rewrite !HX in A3 by lia. lra.
  - rewrite (RS_ext _ _ (fun _ => 0)); [apply RS_zero|auto].
Qed.

(*! C64_errors : no class raises; so do standard deviations whose number is neither 1 nor the number of classes *)
Lemma C64_errors_l : forall dims G y (cl : list R) sigma alpha z n x0 P,
  (forall cs, length cl = 0%nat -> exists e, Segment dims G y cl sigma alpha cs z n x0 P = Err e) /\
  (forall s, length s <> length cl -> length s <> 1%nat -> (forall a, In a s -> a <> 0) -> Segment dims G y cl sigma alpha (Some s) z n x0 P = Err ValueError).
Proof.
  intros dims G y cl sigma alpha z n x0 P. split.
  - intros cs E. destruct (Segment dims G y cl sigma alpha cs z n x0 P) as [r|e] eqn:Es; [|eauto]. apply seg_ncl in Es. lia.
  - intros s H1 H2 H3. unfold Segment, seg_sigmas. destruct (existsb (fun a => Reqb a 0) s) eqn:Ee.
    + exfalso. apply existsb_exists in Ee as [a [Ha Hb]]. apply Reqb_true in Hb. apply (H3 a); auto.
    + destruct (Nat.eqb_spec (length s) (length cl)); [lia|]. destruct (Nat.eqb_spec (length s) 1); [lia|]. reflexivity.
Qed.

Definition checker (i : nat) : Z := if Nat.even (i / 16 + i / 4 + i) then 1%Z else (-1)%Z.
Fixpoint ZS (n : nat) (f : nat -> Z) : Z := match n with O => 0%Z | S n => (ZS n f + f n)%Z end.
Lemma RS_IZR n f : RS n (fun i => IZR (f i)) = IZR (ZS n f).
Proof. induction n as [|n IH]; cbn; [reflexivity|]. rewrite IH, plus_IZR. reflexivity. Qed.
Definition zfd (a i : nat) : Z := let s := nprod (skipn (S a) [4; 4; 4]%nat) in if Nat.ltb (S ((i / s) mod 4)) 4 then (checker (i + s) - checker i)%Z else 0%Z.
(*! C64_step_3d_refuted : the fixed steps tau = 1, mu = 1/8 assume |grad|^2 <= 8, false for the 3-D images the documentation allows ("2 or more dimensions"): on a 4 x 4 x 4 checkerboard
   |grad x|^2 = 9 |x|^2, so tau mu |grad|^2 > 1 and the condition under which the primal-dual method is known to converge fails *)
Lemma C64_step_3d_refuted_l : forall G : linop (Vec (nprod [4; 4; 4]%nat)) (Vec (length [4; 4; 4]%nat * nprod [4; 4; 4]%nat)), forward_gradient [4; 4; 4]%nat G ->
  exists x, norm2 x = 64 /\ norm2 (G x) = 9 * norm2 x /\ ~ 1 * (1 / 8) * norm2 (G x) <= norm2 x.
Proof.
  intros G HG. set (dims := [4; 4; 4]%nat) in *. set (x := vtab (nprod dims) (fun i => IZR (checker i))). exists x.
  assert (E1 : norm2 x = 64).
  { unfold norm2. rewrite vec_inner. rewrite (RS_ext _ _ (fun i => IZR (checker i * checker i))) by (intros i Hi; unfold x; rewrite get_vtab, mult_IZR by auto; reflexivity). rewrite RS_IZR. vm_compute; reflexivity. }
  assert (E2 : norm2 (G x) = 576).
  { unfold norm2. rewrite vec_inner, RS_flat. rewrite (RS_ext _ _ (fun a => IZR (ZS (nprod dims) (fun i => zfd a i * zfd a i)%Z))).
    - rewrite RS_IZR. vm_compute; reflexivity.
    - intros a Ha. rewrite <- RS_IZR. apply RS_ext. intros i Hi. rewrite HG by auto. rewrite mult_IZR.
      assert (E : forward_diff dims (get x) a i = IZR (zfd a i)); [|rewrite E; reflexivity]. unfold forward_diff, zfd. replace (nth a dims 0%nat) with 4%nat by (destruct a as [|[|[|a]]]; [reflexivity..|cbn in Ha; lia]). fold dims.
      destruct (Nat.ltb_spec (S ((i / nprod (skipn (S a) dims)) mod 4)) 4) as [Hl|]; [|reflexivity]. rewrite minus_IZR. unfold x. rewrite !get_vtab; auto.
      apply (coord_range dims ltac:(intros k Hk; cbn in Hk; lia) a i); auto. unfold coord, astride, alen. replace (nth a dims 0%nat) with 4%nat by (destruct a as [|[|[|a]]]; [reflexivity..|cbn in Ha; lia]). auto. }
  rewrite E1, E2. split; [reflexivity|]. split; lra.
Qed.

(** the Euclidean projection on the probability simplex of R^2 *)
Definition simplex2 (v : Vec 2) : result (Vec 2) := let t := Rmin 1 (Rmax 0 ((get v 0 - get v 1 + 1) / 2)) in Ok (vtab 2 (fun i => match i with O => t | _ => 1 - t end)).
Lemma simplex2_ok : exact_simplex simplex2.
Proof.
  intro v. eexists. split; [reflexivity|]. set (a := get v 0). set (b := get v 1). set (t := Rmin 1 (Rmax 0 ((a - b + 1) / 2))).
  assert (Ht : 0 <= t <= 1) by (unfold t, Rmin, Rmax; repeat destruct (Rle_dec _ _); lra).
  set (p := vtab 2 _ : Vec 2). assert (P0 : get p 0 = t) by reflexivity. assert (P1 : get p 1 = 1 - t) by reflexivity.
  apply vi_proj.
  - split; [cbn [RS]; rewrite P0, P1; lra|]. intros [|[|i]] Hi; [rewrite P0|rewrite P1|]; lra || lia.
  - intros q [Q1 Q2]. cbn [RS] in Q1. pose proof (Q2 0%nat ltac:(lia)). pose proof (Q2 1%nat ltac:(lia)). rewrite vec_inner. cbn [RS]. rewrite !get_sub by lia. rewrite P0, P1. fold a b.
    set (q0 := get q 0) in *. replace (get q 1) with (1 - q0) by lra.
    assert (Hk : (t - (a - b + 1) / 2) * (q0 - t) >= 0). { unfold t, Rmin, Rmax. repeat destruct (Rle_dec _ _); nra. }
    nra.
Qed.
(*!ex C64_example : the hypotheses of C64_optimal and C64_output hold for a 2 x 3 image and two classes: the forward-difference gradient is a linear operator with an adjoint, the exact
   projection on the simplex of R^2 is computable, and Segment runs for every number of iterations; G is also available on the 4 x 4 x 4 grid of C64_step_3d_refuted *)
Lemma C64_example_l : exists G : linop (Vec (nprod [2; 3]%nat)) (Vec (length [2; 3]%nat * nprod [2; 3]%nat)), forward_gradient [2; 3]%nat G /\ exact_simplex simplex2 /\ sds_ok 2 (Some [1; 2]) /\
  (forall y n, exists X lab tr, Segment [2; 3]%nat G y [0; 5] 1 2 (Some [1; 2]) None n None simplex2 = Ok (X, lab, tr)) /\
  exists G3 : linop (Vec (nprod [4; 4; 4]%nat)) (Vec (length [4; 4; 4]%nat * nprod [4; 4; 4]%nat)), forward_gradient [4; 4; 4]%nat G3.
Proof.
  assert (HF : forall dims (H : dims_ok dims), forward_gradient dims (gradop dims H)).
  { intros dims H x a i Ha Hi. change (dent dims (gapp dims x) a i = forward_diff dims (get x) a i). unfold gapp. rewrite dent_dtab by auto. reflexivity. }
  assert (D : dims_ok [2; 3]%nat) by (intros k Hk; cbn in Hk; lia). assert (D4 : dims_ok [4; 4; 4]%nat) by (intros k Hk; cbn in Hk; lia).
  exists (gradop _ D). split; [apply HF|]. split; [apply simplex2_ok|]. assert (S2 : sds_ok 2 (Some [1; 2])) by (split; [reflexivity|]; intros a [<-|[<-|[]]]; lra). split; [exact S2|]. split; [|exists (gradop _ D4); apply HF].
  intros y n. destruct (C64_optimal_l _ (gradop _ D) y [0; 5] 1 2 (Some [1; 2]) None None simplex2 n (HF _ D) D ltac:(cbn; lia) ltac:(cbn; lia) ltac:(lra) S2 simplex2_ok) as [xs [lab [E _]]]. eauto.
Qed.
