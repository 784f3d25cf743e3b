(** * Option validation (C68) *)
From Coq Require Import Psatz String ZArith.
From Verif Require Import Base Space Spec SpecOps ConvexFacts M_ProxOp M_Norms P_Norms MatFacts VSum M_L1 M_Proj P_Proj P_Proj2 P_Proj3 P_Seg P_Seg2 M_Pen M_Loop M_PG M_Multi M_Opts.
Open Scope result_scope.

(*! C68_l2_solver : L2 accepts exactly the solver strings 'legacy', 'cg' and 'cgls' and raises ValueError for every other value, None
   included (whether or not an operator is given) *)
Lemma C68_l2_solver_l : forall solver : option string,
  (In solver [Some "legacy"; Some "cg"; Some "cgls"]%string -> exists normaleqs, l2_new solver = Ok normaleqs /\ (normaleqs = false <-> solver = Some "cgls"%string)) /\
  (~ In solver [Some "legacy"; Some "cg"; Some "cgls"]%string -> l2_new solver = Err ValueError).
Proof.
  intros [s|]; split; intro H.
  - cbn in H. destruct H as [H|[H|[H|[]]]]; injection H as <-; eexists; (split; [reflexivity|]); split; intro E; try discriminate; reflexivity.
  - unfold l2_new. destruct (String.eqb_spec s "legacy") as [->|?]; [exfalso; apply H; cbn; auto|].
    destruct (String.eqb_spec s "cg") as [->|?]; [exfalso; apply H; cbn; auto|].
    destruct (String.eqb_spec s "cgls") as [->|?]; [exfalso; apply H; cbn; auto|]. reflexivity.
  - cbn in H. destruct H as [H|[H|[H|[]]]]; discriminate.
  - reflexivity.
Qed.

(*! C68_simplex : Simplex raises KeyError exactly for engines other than 'numpy', 'numba' and 'cuda', ValueError exactly for an
   accepted engine with dims that are not a pair, IndexError exactly when the axis of a pair is not -2, -1, 0 or 1, and is
   built otherwise; without numba every accepted engine gives the numpy class *)
Lemma C68_simplex_l : forall jit engine n dims axis,
  (~ In engine ["numpy"; "numba"; "cuda"]%string <-> simplex_new jit engine n dims axis = Err KeyError) /\
  (In engine ["numpy"; "numba"; "cuda"]%string ->
     (simplex_new jit engine n dims axis = Err ValueError <-> exists d, dims = Some d /\ List.length d <> 2%nat) /\
     (simplex_new jit engine n dims axis = Err IndexError <-> exists d, dims = Some d /\ List.length d = 2%nat /\ ~ (-2 <= axis <= 1)%Z) /\
     (dims = None -> exists e, simplex_new jit engine n dims axis = Ok (e, n)) /\
     (forall r c, dims = Some [r; c] -> (-2 <= axis <= 1)%Z ->
        exists e, simplex_new jit engine n dims axis = Ok (e, if (Z.even axis) then r else c)) /\
     (forall e k, simplex_new jit engine n dims axis = Ok (e, k) ->
        (e = SxNumba <-> engine = "numba"%string /\ jit = true) /\ (e = SxCuda <-> engine = "cuda"%string /\ jit = true))).
Proof.
  intros jit engine n dims axis.
  assert (HI : forall d, dims = Some d -> List.length d = 2%nat -> exists r c, d = [r; c]).
  { intros [|r [|c [|? ?]]] _ Hd; try discriminate. eauto. }
  assert (HA : forall r c : nat, (-2 <= axis <= 1)%Z /\ pyindex [r; c] axis = Ok (if Z.even axis then r else c) \/ ~ (-2 <= axis <= 1)%Z /\ pyindex [r; c] axis = Err IndexError).
  { intros r c. destruct (Z.eq_dec axis (-2)) as [->|]; [left; split; [lia|reflexivity]|]. destruct (Z.eq_dec axis (-1)) as [->|]; [left; split; [lia|reflexivity]|].
    destruct (Z.eq_dec axis 0) as [->|]; [left; split; [lia|reflexivity]|]. destruct (Z.eq_dec axis 1) as [->|]; [left; split; [lia|reflexivity]|].
    right. split; [lia|]. unfold pyindex. cbn [List.length]. destruct (Z.ltb_spec axis 0).
    - destruct (Z.ltb_spec (axis + Z.of_nat 2) 0); [reflexivity|lia].
    - destruct (Z.ltb_spec axis 0); [lia|]. destruct (nth_error [r; c] (Z.to_nat axis)) eqn:E; auto. exfalso.
      assert (Hl : (Z.to_nat axis < 2)%nat) by (change 2%nat with (List.length [r; c]); apply nth_error_Some; congruence). lia. }
  assert (HK : (~ In engine ["numpy"; "numba"; "cuda"]%string <-> simplex_new jit engine n dims axis = Err KeyError) /\
    (In engine ["numpy"; "numba"; "cuda"]%string -> exists cls, ((cls = SxNumba <-> engine = "numba"%string /\ jit = true) /\ (cls = SxCuda <-> engine = "cuda"%string /\ jit = true)) /\
      simplex_new jit engine n dims axis = (k <- simplex_init n dims axis ;; Ok (cls, k)))).
  { assert (HN : simplex_init n dims axis <> Err KeyError).
    { unfold simplex_init. destruct dims as [d|]; [|discriminate]. destruct (Nat.eqb_spec (List.length d) 2) as [Hd|]; [|discriminate].
      destruct (HI d eq_refl Hd) as (r & c & ->). destruct (HA r c) as [[_ ->]|[_ ->]]; discriminate. }
    assert (HB : forall cls : sx_engine, (k <- simplex_init n dims axis ;; Ok (cls, k)) <> Err KeyError).
    { intros cls. destruct (simplex_init n dims axis); cbn [bind]; [discriminate|congruence]. }
    unfold simplex_new. destruct (String.eqb_spec engine "numpy") as [->|N1].
    { cbn [orb negb andb]. cbn [String.eqb Ascii.eqb Bool.eqb andb]. split; [split; [intro H; exfalso; apply H; cbn; auto|intro H; exfalso; exact (HB _ H)]|].
      intros _. exists SxNumpy. split; [|reflexivity]. split; split; [discriminate|intros [H _]; discriminate|discriminate|intros [H _]; discriminate]. }
    destruct (String.eqb_spec engine "numba") as [->|N2].
    { cbn [orb negb]. split; [split; [intro H; exfalso; apply H; cbn; auto|intro H; exfalso; exact (HB _ H)]|].
      intros _. destruct jit; cbn [andb]; [exists SxNumba|exists SxNumpy]; (split; [|reflexivity]); split; split; try discriminate; try (intros [? ?]; discriminate); auto. }
    destruct (String.eqb_spec engine "cuda") as [->|N3].
    { cbn [orb negb andb]. split; [split; [intro H; exfalso; apply H; cbn; auto|intro H; exfalso; exact (HB _ H)]|].
      intros _. destruct jit; cbn [andb]; [exists SxCuda|exists SxNumpy]; (split; [|reflexivity]); split; split; try discriminate; try (intros [? ?]; discriminate); auto. }
    cbn [orb negb]. split; [split; auto; intros _ [H|[H|[H|[]]]]; subst; contradiction|]. intros [H|[H|[H|[]]]]; subst; contradiction. }
  destruct HK as [HK1 HK2]. split; [exact HK1|]. intro Hin. destruct (HK2 Hin) as (cls & Hcls & ->). clear HK1 HK2.
  split; [|split; [|split; [|split]]].
  - unfold simplex_init. destruct dims as [d|]; cbn [bind]; [|split; [discriminate|intros (d & H & _); discriminate]].
    destruct (Nat.eqb_spec (List.length d) 2) as [Hd|Hd]; cbn [bind].
    + destruct (HI d eq_refl Hd) as (r & c & ->). split; [|intros (d & H & H'); injection H as <-; contradiction].
      destruct (HA r c) as [[_ ->]|[_ ->]]; discriminate.
    + split; auto. intros _. eauto.
  - unfold simplex_init. destruct dims as [d|]; cbn [bind]; [|split; [discriminate|intros (d & H & _); discriminate]].
    destruct (Nat.eqb_spec (List.length d) 2) as [Hd|Hd]; cbn [bind].
    + destruct (HI d eq_refl Hd) as (r & c & ->). destruct (HA r c) as [[H1 ->]|[H1 ->]]; cbn [bind].
      * split; [discriminate|]. intros (d & H & _ & H2). contradiction.
      * split; auto. intros _. exists [r; c]. auto.
    + split; [discriminate|]. intros (d' & H & H2 & _). injection H as <-. contradiction.
  - intros ->. eexists. reflexivity.
  - intros r c -> Hax. unfold simplex_init. cbn [List.length Nat.eqb]. destruct (HA r c) as [[_ ->]|[H _]]; [|contradiction]. eexists. reflexivity.
  - intros e k H. destruct (simplex_init n dims axis) as [k'|]; cbn [bind] in H; [|discriminate]. injection H as <- <-. exact Hcls.
Qed.

(*! C68_acceleration_gpg : GeneralizedProximalGradient with valid weights raises NotImplementedError for every acceleration string other
   than 'None', 'vandenberghe' and 'fista', before anything is computed *)
Lemma C68_acceleration_gpg_l : forall (E : IPS) (proxfs proxgs : list (Op E)) x0 tau epsg weights eta niter s,
  match weights with None => proxgs <> [] | Some w => List.length w = List.length proxgs /\ Rsum w = 1 end ->
  s <> "None"%string -> s <> "vandenberghe"%string -> s <> "fista"%string ->
  GeneralizedProximalGradient proxfs proxgs x0 tau epsg weights eta niter (Some s) = Err NotImplementedError.
Proof.
  intros E proxfs proxgs x0 tau epsg weights eta niter s Hw H1 H2 H3. unfold GeneralizedProximalGradient.
  assert (HE : (Nat.eqb (List.length (match weights with None => repeat (1 / INR (List.length proxgs)) (List.length proxgs) | Some w => w end)) (List.length proxgs) &&
     Reqb (Rsum (match weights with None => repeat (1 / INR (List.length proxgs)) (List.length proxgs) | Some w => w end)) 1)%bool = true).
  { destruct weights as [w|].
    - destruct Hw as [-> ->]. rewrite Nat.eqb_refl. destruct (Reqb_spec 1 1) as [[_ ->]|[? _]]; [reflexivity|congruence].
    - rewrite repeat_length, Nat.eqb_refl. cbn [andb].
      assert (HS : forall a k, Rsum (repeat a k) = INR k * a) by (intros a; induction k as [|k IH]; [cbn; ring|cbn [repeat Rsum]; rewrite IH, S_INR; ring]).
      rewrite HS. assert (INR (List.length proxgs) <> 0) by (apply not_0_INR; destruct proxgs; [contradiction|discriminate]).
      replace (INR (List.length proxgs) * (1 / INR (List.length proxgs))) with 1 by (field; auto). destruct (Reqb_spec 1 1) as [[_ ->]|[? _]]; [reflexivity|congruence]. }
  rewrite HE. cbn [negb]. cbn [accel_known]. destruct (String.eqb_spec s "None"); [contradiction|]. destruct (String.eqb_spec s "vandenberghe"); [contradiction|].
  destruct (String.eqb_spec s "fista"); [contradiction|]. reflexivity.
Qed.

(*! C68_penalties : SCAD raises ValueError exactly when sigma <= 0 or a <= 2, Log exactly when sigma < 0 or gamma < 0, Log1 exactly when
   delta < 0, Quadratic exactly when Op is not square *)
Lemma C68_penalties_l :
  (forall sigma a, (scad_init sigma a = Err ValueError <-> sigma <= 0 \/ a <= 2) /\ (scad_init sigma a = Ok tt <-> 0 < sigma /\ 2 < a)) /\
  (forall sigma gamma, (log_new sigma gamma = Err ValueError <-> sigma < 0 \/ gamma < 0) /\ (log_new sigma gamma = Ok tt <-> 0 <= sigma /\ 0 <= gamma)) /\
  (forall delta, (log1_new delta = Err ValueError <-> delta < 0) /\ (log1_new delta = Ok tt <-> 0 <= delta)) /\
  (forall m n, (quadratic_new (Some (m, n)) = Err ValueError <-> m <> n) /\ (quadratic_new (Some (m, n)) = Ok tt <-> m = n)) /\
  quadratic_new None = Ok tt.
Proof.
  split; [|split; [|split; [|split; [|reflexivity]]]].
  - intros s a. unfold scad_init. destruct (Rleb_spec s 0) as [[? ->]|[? ->]]; [split; split; try discriminate; auto; intros; lra|].
    destruct (Rleb_spec a 2) as [[? ->]|[? ->]]; split; split; try discriminate; auto; intros; lra.
  - intros s g. unfold log_new. destruct (Rltb_spec s 0) as [[? ->]|[? ->]]; [split; split; try discriminate; auto; intros; lra|].
    destruct (Rltb_spec g 0) as [[? ->]|[? ->]]; split; split; try discriminate; auto; intros; lra.
  - intros d. unfold log1_new. destruct (Rltb_spec d 0) as [[? ->]|[? ->]]; split; split; try discriminate; auto; intros; lra.
  - intros m n. unfold quadratic_new. destruct (Nat.eqb_spec m n); split; split; try discriminate; auto; intros; contradiction.
Qed.

(*! C68_log_zero_refuted : the check of Log lets gamma = 0 through although its message says gamma must be positive; the object is then
   useless: no value is a number.  For gamma > 0 every value is a number: sigma * log(gamma |a| + 1) / log(gamma + 1) *)
Lemma C68_log_zero_refuted_l : forall sigma a, 0 <= sigma ->
  (log_new sigma 0 = Ok tt /\ log_value sigma 0 a = Err ZeroDivisionError) /\
  (forall gamma, 0 < gamma -> log_value sigma gamma a = Ok (sigma * ln (gamma * Rabs a + 1) / ln (gamma + 1))).
Proof.
  intros s a Hs. split.
  - split; [apply C68_penalties_l; lra|]. unfold log_value. rewrite Rplus_0_l, ln_1, pydiv_0. reflexivity.
  - intros g Hg. assert (0 < ln (g + 1)) by (rewrite <- ln_1; apply ln_increasing; lra).
    unfold log_value. rewrite pydiv_ok by lra. cbn. f_equal. field. lra.
Qed.

(*! C23_axis : Simplex with dims = (r, c), tau > 0: axis = 0 projects the columns, axis = 1 and axis = -1 project the rows, and axes outside
   -2..1 raise IndexError *)
Lemma C23_axis_l : forall r c P (x y : Vec (r * c)) tau, 0 < tau ->
  (simplex_prox_axis P 0 x tau = Ok y <-> forall j, (j < c)%nat -> P r (colv x j) = Ok (colv y j)) /\
  (forall axis, axis = 1%Z \/ axis = (-1)%Z -> (simplex_prox_axis P axis x tau = Ok y <-> forall i, (i < r)%nat -> P c (rowv x i) = Ok (rowv y i))) /\
  (forall axis, ~ (-2 <= axis <= 1)%Z -> simplex_prox_axis P axis x tau = Err IndexError).
Proof.
  intros r c P x y tau Ht. destruct (C23_dims_l r c x y tau Ht) as [HR HC]. split; [|split].
  - exact (HC (P r)).
  - intros axis [->| ->]; unfold simplex_prox_axis; [change (simplex_init (r * c) (Some [r; c]) 1) with (Ok c)|change (simplex_init (r * c) (Some [r; c]) (-1)) with (Ok c)]; cbn -[Nat.eqb simplex_prox_rows]; rewrite Nat.eqb_refl; exact (HR (P c)).
  - intros axis Hax. unfold simplex_prox_axis.
    destruct (C68_simplex_l false "numpy" (r * c) (Some [r; c]) axis) as [_ H]. destruct (H (or_introl eq_refl)) as (_ & HI & _).
    assert (E : simplex_new false "numpy" (r * c) (Some [r; c]) axis = Err IndexError) by (apply HI; exists [r; c]; auto).
    unfold simplex_new in E. cbn [String.eqb Ascii.eqb Bool.eqb orb negb andb] in E.
    destruct (simplex_init (r * c) (Some [r; c]) axis) as [k|e]; cbn [bind] in *; congruence.
Qed.

(*! C23_axis_refuted : axis = -2, which python accepts as another name of axis 0, does not project the columns: on every square matrix it
   projects the rows like axis = 1, so that on the matrix with rows (1, 0), (1, 0) with radius 1 nothing changes although its columns
   are not on the simplex; on every matrix that is not square it raises ValueError *)
Lemma C23_axis_refuted_l :
  (forall n P (x : Vec (n * n)) tau, 0 < tau -> simplex_prox_axis P (-2) x tau = simplex_prox_axis P 1 x tau) /\
  (forall r c P (x : Vec (r * c)) tau, r <> c -> simplex_prox_axis P (-2) x tau = Err ValueError) /\
  (forall P, exact_simplex (P 2%nat) -> let x : Vec (2 * 2) := vtab 4 (fun p => match p with 0%nat | 2%nat => 1 | _ => 0 end) in
     simplex_prox_axis P (-2) x 1 = Ok x /\ ~ simplex_set 1 (colv x 0)).
Proof.
  split; [|split].
  - intros n P x tau Ht. reflexivity.
  - intros r c P x tau Hrc. unfold simplex_prox_axis. change (simplex_init (r * c) (Some [r; c]) (-2)) with (Ok r). cbn -[Nat.eqb simplex_prox_rows]. destruct (Nat.eqb_spec r c); [contradiction|reflexivity].
  - intros P HP x. assert (G : forall p, (p < 4)%nat -> get x p = match p with 0%nat | 2%nat => 1 | _ => 0 end) by (intros p Hp; unfold x; rewrite get_vtab by auto; reflexivity).
    split.
    + change (simplex_prox_axis P (-2) x 1) with (simplex_prox_axis P 1 x 1). apply (C23_axis_l 2 2 P x x 1 ltac:(lra)); [left; reflexivity|].
      intros i Hi. destruct (HP (rowv x i)) as (p & E & Hp). rewrite E. f_equal. apply (proj_of_mem (simplex_set 1)); auto.
      assert (R0 : get (rowv x i) 0 = 1) by (unfold rowv; rewrite get_vtab by lia; destruct i as [|[|i]]; [apply (G 0%nat); lia|apply (G 2%nat); lia|lia]).
      assert (R1 : get (rowv x i) 1 = 0) by (unfold rowv; rewrite get_vtab by lia; destruct i as [|[|i]]; [apply (G 1%nat); lia|apply (G 3%nat); lia|lia]).
      split; [cbn [RS]; rewrite R0, R1; lra|]. intros [|[|j]] Hj; [rewrite R0|rewrite R1|]; lra || lia.
    + intros [H _]. cbn [RS] in H. rewrite !get_col in H by lia. cbn [Nat.mul Nat.add] in H. rewrite !G in H by lia. lra.
Qed.

(*!ex C68_example : a solver string and a Simplex engine that are refused, and a pair of dims that is accepted; an exact projection on the
   simplex of two-entry vectors exists *)
Lemma C68_example_l : l2_new (Some "lsqr"%string) = Err ValueError /\ simplex_new true "jax" 4 None (-1) = Err KeyError /\
  simplex_new true "numba" 6 (Some [2; 3]%nat) (-1) = Ok (SxNumba, 3%nat) /\
  exists P : forall k, Vec k -> result (Vec k), exact_simplex (P 2%nat).
Proof.
  split; [reflexivity|]. split; [reflexivity|]. split; [reflexivity|].
  exists (fun k => match k as k return Vec k -> result (Vec k) with 2%nat => simplex2 | _ => fun v => Ok v end). exact simplex2_ok.
Qed.
