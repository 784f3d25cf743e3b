(** * Interrupted runs: resuming a solver from what it handed to the callback (M_PG.v, M_Split.v, M_PD.v, M_Multi.v, M_PALM.v) *)
From Coq Require Import String Psatz.
From Verif Require Import Base Space Spec ConvexFacts Smooth VSum M_ProxOp SpecOps P_ProxOp M_Norms P_Norms M_Loop LoopFacts SeqFacts M_PG M_Split M_PD M_Multi M_PALM P_PG P_PG2 P_PG3 P_Iter P_Split2 P_PD2 S_Lasso S_PD2 S_Split2.
From Verif Require Export S_Resume.
Open Scope result_scope.
Open Scope R_scope.

(** two outcomes that are both errors of the same kind, or both states related by Q with the same break flag *)
Definition agree {S T B} (Q : S -> T -> Prop) (r : result (S * B)) (r' : result (T * B)) : Prop :=
  match r, r' with Ok (s, c), Ok (t, c') => c = c' /\ Q s t | Err e, Err e' => e = e' | _, _ => False end.

Lemma loop_split {S} (body : nat -> S -> result (S * bool)) k m : forall i s, (forall j s p, body j s = Ok p -> snd p = false) ->
  for_loop body (k + m) i s = (r <- for_loop body k i s ;; for_loop body m (i + k) (fst r)).
Proof.
  induction k as [|k IH]; intros i s Hb; [cbn [for_loop plus bind fst]; rewrite Nat.add_0_r; reflexivity|].
  cbn [plus for_loop]. destruct (body i s) as [[s' c]|] eqn:Eb; cbn [bind fst snd]; [|reflexivity].
  pose proof (Hb _ _ _ Eb) as Hc. cbn [snd] in Hc. subst c. rewrite IH by exact Hb. replace (Datatypes.S i + k)%nat with (i + Datatypes.S k)%nat by lia. reflexivity.
Qed.
Lemma loop_sim {S T} (b1 : nat -> S -> result (S * bool)) (b2 : nat -> T -> result (T * bool)) (Q : S -> T -> Prop) d N :
  (forall j s t, (j < N)%nat -> Q s t -> agree Q (b1 (d + j)%nat s) (b2 j t)) ->
  forall m j s t, (j + m <= N)%nat -> Q s t -> match for_loop b1 m (d + j) s, for_loop b2 m j t with Ok (s, _), Ok (t, _) => Q s t | Err e, Err e' => e = e' | _, _ => False end.
Proof.
  intro Hb. induction m as [|m IH]; intros j s t Hj HQ; [exact HQ|]. cbn [for_loop].
  specialize (Hb j s t ltac:(lia) HQ). unfold agree in Hb. destruct (b1 (d + j)%nat s) as [[s' c]|], (b2 j t) as [[t' c']|]; cbn [bind fst snd]; try tauto.
  destruct Hb as [<- HQ']. destruct c; [exact HQ'|]. specialize (IH (Datatypes.S j) s' t' ltac:(lia) HQ'). rewrite Nat.add_succ_r in IH. exact IH.
Qed.
Lemma resume_loop {S T} (body : nat -> S -> result (S * bool)) (body' : nat -> T -> result (T * bool)) (Inv : S -> Prop) (Q : S -> T -> Prop) s0 k m s1 n1 t0 :
  Inv s0 -> (forall i s p, body i s = Ok p -> snd p = false) -> (forall i s p, Inv s -> body i s = Ok p -> Inv (fst p)) ->
  for_loop body k 0 s0 = Ok (s1, n1) -> (Inv s1 -> Q s1 t0) -> (forall j s t, (j < m)%nat -> Q s t -> agree Q (body (k + j)%nat s) (body' j t)) ->
  match for_loop body (k + m) 0 s0, for_loop body' m 0 t0 with Ok (s, _), Ok (t, _) => Q s t | Err e, Err e' => e = e' | _, _ => False end.
Proof.
  intros H0 Hn HI Hk HQ Hb. rewrite loop_split by exact Hn. rewrite Hk. cbn [bind fst]. rewrite Nat.add_0_l.
  assert (Inv s1). { destruct (for_loop_inv body (fun _ s => Inv s) k 0 s0 s1 n1) as [? _]; auto. intros i s s' b Hs Hi. exact (HI _ _ _ Hs Hi). }
  pose proof (loop_sim body body' Q k m Hb m 0%nat s1 t0 ltac:(lia) (HQ H)) as G. rewrite Nat.add_0_r in G. exact G.
Qed.

Lemma bind_assoc {A B C} (r : result A) (f : A -> result B) (g : B -> result C) : bind (bind r f) g = bind r (fun a => bind (f a) g).
Proof. destruct r; reflexivity. Qed.

Ltac nobreak H := repeat match type of H with
  | bind ?r _ = Ok _ => destruct r eqn:?; cbn [bind fst snd] in H; [|discriminate]
  | (if ?b then _ else _) = Ok _ => destruct b
  | (let (_, _) := ?r in _) = Ok _ => destruct r end.
Ltac stepb := match goal with
  | |- agree _ (bind (bind _ _) _) (bind (bind _ _) _) => rewrite !bind_assoc
  | |- agree _ (bind ?r _) (bind ?r _) => destruct r as [?|?]; cbn [bind fst snd]; [|reflexivity]
  end.
(*! C86_proximal_point : whatever the operator does (it may raise), a run of ProximalPoint of k + m iterations (tol not given) is the run of k iterations
   followed by a run of m iterations started at the vector it returned: same result, same callbacks, same exception *)
Lemma C86_proximal_point_l : forall (E : IPS) (o : Op E) x0 tau k m xk tr, ProximalPoint o x0 tau k None = Ok (xk, tr) ->
  ProximalPoint o x0 tau (k + m) None = (r <- ProximalPoint o xk tau m None ;; Ok (fst r, tr ++ snd r)).
Proof.
  intros E o x0 tau k m xk tr H. unfold ProximalPoint in *. destruct (for_loop (pp_body o tau None) k 0 _) as [[s1 n1]|] eqn:Ek; cbn [bind fst snd] in H; [|discriminate]. inversion H; subst xk tr; clear H.
  pose proof (resume_loop (pp_body o tau None) (pp_body o tau None) (fun _ => True) (fun s t => pp_x s = pp_x t /\ pp_tr s = pp_tr s1 ++ pp_tr t) (PP x0 None []) k m s1 n1 (PP (pp_x s1) None []) I) as G.
  assert (Hn : forall i s p, pp_body o tau None i s = Ok p -> snd p = false) by (intros i s p Hp; unfold pp_body in Hp; nobreak Hp; inversion Hp; reflexivity).
  specialize (G Hn ltac:(auto) Ek). cbn [pp_x pp_tr] in G. rewrite app_nil_r in G. specialize (G ltac:(auto)).
  assert (Hs : forall j s t, (j < m)%nat -> pp_x s = pp_x t /\ pp_tr s = pp_tr s1 ++ pp_tr t -> agree (fun s t => pp_x s = pp_x t /\ pp_tr s = pp_tr s1 ++ pp_tr t) (pp_body o tau None (k + j) s) (pp_body o tau None j t)).
  { intros j s t _ [A B]. unfold pp_body. rewrite A, B. stepb. split; [reflexivity|]. cbn [pp_x pp_tr]. rewrite app_assoc. auto. }
  specialize (G Hs). destruct (for_loop _ (k + m) 0 _) as [[s' ?]|], (for_loop _ m 0 _) as [[t' ?]|]; cbn [bind fst snd]; try tauto; [|congruence].
  destruct G as [-> ->]. reflexivity.
Qed.

Ltac nob := let i := fresh in let s := fresh in let p := fresh in let Hp := fresh in intros i s p Hp; nobreak Hp; inversion Hp; reflexivity.
Ltac ends G := match type of G with match ?a with _ => _ end => destruct a as [[? ?]|?] end; match type of G with match ?a with _ => _ end => destruct a as [[? ?]|?] end; cbn [bind fst snd]; try (exfalso; exact G); [|congruence].

Lemma nth_error_skip {A} k (l : list A) : forall j, nth_error (skipn k l) j = nth_error l (k + j).
Proof. revert l. induction k as [|k IH]; intros l j; [reflexivity|]. destruct l as [|a l]; [cbn; destruct j; reflexivity|]. cbn [skipn plus nth_error]. apply IH. Qed.

(*! C86_proximal_gradient : the same for ProximalGradient without acceleration (or with eta different from 1, where the code ignores it) and without
   backtracking, the second run being given the factors epsg of its iterations *)
Lemma C86_proximal_gradient_l : forall (E : IPS) (proxf proxg : Op E) x0 epsg tau beta eta niterback accel k m xk tr, (1 <= k)%nat -> (1 <= m)%nat -> per_iteration epsg (k + m) ->
  accel = None \/ accel = Some "None"%string \/ eta <> 1 ->
  ProximalGradient proxf proxg x0 epsg (Some tau) false beta eta k niterback accel None = Ok (xk, tr) ->
  ProximalGradient proxf proxg x0 epsg (Some tau) false beta eta (k + m) niterback accel None =
    (r <- ProximalGradient proxf proxg xk (list_left k epsg) (Some tau) false beta eta m niterback accel None ;; Ok (fst r, tr ++ snd r)).
Proof.
  intros E proxf proxg x0 epsg tau beta eta niterback accel k m xk tr Hk1 Hm1 Hep Ha H.
  assert (Gen : forall l l' : list R, (forall j, (j < m)%nat -> nth_error l (k + j) = nth_error l' j) -> accel_known accel = true ->
    (r <- for_loop (pg_body proxf proxg l false beta eta niterback accel None) k 0 (PG x0 x0 1 tau None []) ;; Ok (pg_x (fst r), pg_tr (fst r))) = Ok (xk, tr) ->
    (r <- for_loop (pg_body proxf proxg l false beta eta niterback accel None) (k + m) 0 (PG x0 x0 1 tau None []) ;; Ok (pg_x (fst r), pg_tr (fst r))) =
    (r <- (r <- for_loop (pg_body proxf proxg l' false beta eta niterback accel None) m 0 (PG xk xk 1 tau None []) ;; Ok (pg_x (fst r), pg_tr (fst r))) ;; Ok (fst r, tr ++ snd r))).
  { clear H. intros l l' Hll Hkn H. destruct (for_loop _ k 0 _) as [[s1 n1]|] eqn:Ek; cbn [bind fst snd] in H; [|discriminate]. inversion H; subst xk tr; clear H.
    assert (Hom : forall u v w : E, eta = 1 -> forall t i, u [+] (if accel_is accel "vandenberghe" then INR i / (INR i + 3) else if accel_is accel "fista" then t else 0) [*] (v [-] w) = u).
    { intros u v w H1 t i. destruct Ha as [->|[->|Ha]]; [cbn; vring|cbn; vring|contradiction]. }
    set (Q := fun s t : pg_state E => pg_x s = pg_x t /\ pg_tau s = pg_tau t /\ (eta = 1 -> pg_y s = pg_y t) /\ pg_tr s = pg_tr s1 ++ pg_tr t).
    pose proof (resume_loop (pg_body proxf proxg l false beta eta niterback accel None) (pg_body proxf proxg l' false beta eta niterback accel None)
      (fun s => pg_tau s = tau /\ (eta = 1 -> pg_y s = pg_x s)) Q (PG x0 x0 1 tau None []) k m s1 n1 (PG (pg_x s1) (pg_x s1) 1 tau None [])) as G.
    assert (G' := G ltac:(cbn; auto)). clear G. rename G' into G.
    assert (Hn : forall i s p, pg_body proxf proxg l false beta eta niterback accel None i s = Ok p -> snd p = false) by (unfold pg_body; nob).
    specialize (G Hn). clear Hn.
    assert (Hi : forall i s p, pg_tau s = tau /\ (eta = 1 -> pg_y s = pg_x s) -> pg_body proxf proxg l false beta eta niterback accel None i s = Ok p -> pg_tau (fst p) = tau /\ (eta = 1 -> pg_y (fst p) = pg_x (fst p))).
    { intros i s p [A B] Hp. unfold pg_body, pg_prox_step in Hp. nobreak Hp. inversion Hp; subst p; clear Hp. cbn [fst pg_tau pg_y pg_x]. split; [|intro; apply Hom; auto].
      destruct (Reqb eta 1); match goal with H : bind _ _ = Ok _ |- _ => nobreak H; inversion H; cbn; exact A end. }
    specialize (G Hi Ek). cbn beta in G. assert (HQ : pg_tau s1 = tau /\ (eta = 1 -> pg_y s1 = pg_x s1) -> Q s1 (PG (pg_x s1) (pg_x s1) 1 tau None [])).
    { intros [A B]. unfold Q. cbn [pg_x pg_y pg_tau pg_tr]. rewrite app_nil_r. auto. }
    specialize (G HQ). cbn beta in G.
    assert (Hs : forall j s t, (j < m)%nat -> Q s t -> agree Q (pg_body proxf proxg l false beta eta niterback accel None (k + j) s) (pg_body proxf proxg l' false beta eta niterback accel None j t)).
    { intros j s t Hj (A & B & C & D). unfold pg_body, getitem. rewrite (Hll j Hj). stepb. unfold pg_prox_step. rewrite A, B.
      destruct (Reqb_spec eta 1) as [[H1 ->]|[H1 ->]].
      - rewrite (C H1). repeat stepb. split; [reflexivity|]. unfold Q. cbn [pg_x pg_y pg_tau pg_tr]. rewrite D, app_assoc. split; [reflexivity|]. split; [reflexivity|]. split; [|reflexivity].
        intros _. rewrite !Hom by exact H1. reflexivity.
      - repeat stepb. split; [reflexivity|]. unfold Q. cbn [pg_x pg_y pg_tau pg_tr]. rewrite D, app_assoc. split; [reflexivity|]. split; [reflexivity|]. split; [|reflexivity]. intros H. contradiction. }
    specialize (G Hs). ends G. destruct G as (-> & _ & _ & ->). reflexivity. }
  assert (Hcase : (exists e, epsg = [e]) \/ List.length epsg = (k + m)%nat) by (destruct Hep as [Hep|Hep]; [left; destruct epsg as [|e [|? ?]]; cbn in Hep; try lia; eauto|auto]).
  destruct Hcase as [[e ->]|Hl].
  - cbn [list_left]. unfold ProximalGradient in *. destruct k as [|k]; [lia|]. destruct m as [|m]; [lia|]. cbn [plus] in *. cbn [pg_epsg bind] in *.
    destruct (accel_known accel) eqn:Hkn; [|discriminate]. apply (Gen (repeat e (S k + S m)) (repeat e (S m))); auto.
    { intros j Hj. rewrite !nth_error_repeat by lia. reflexivity. }
    rewrite <- H. f_equal. apply for_loop_ext. intros j s Hj. unfold pg_body, getitem. rewrite !nth_error_repeat by lia. reflexivity.
  - unfold ProximalGradient in *. replace (list_left k epsg) with (skipn k epsg) by (destruct epsg as [|? [|? ?]]; cbn in Hl; try lia; reflexivity).
    assert (Hp : forall n, pg_epsg epsg n = Ok epsg) by (intro n; destruct epsg as [|? [|? ?]]; cbn in Hl; try lia; reflexivity). rewrite !Hp in *. cbn [bind] in *.
    assert (Hp' : pg_epsg (skipn k epsg) m = Ok (skipn k epsg)).
    { assert (Hlen := skipn_length k epsg). destruct (skipn k epsg) as [|a [|b q]]; cbn in *; try reflexivity. replace m with 1%nat by lia. reflexivity. }
    rewrite Hp'. cbn [bind]. destruct (accel_known accel) eqn:Hkn; [|discriminate]. apply (Gen epsg (skipn k epsg)); auto.
    intros j Hj. rewrite nth_error_skip. reflexivity.
Qed.

(*! C86_hqs : a run of HQS of k + m iterations is the run of k iterations followed by a run of m iterations started at the x and z it returned, the second run being
   given the step sizes of its iterations *)
Lemma C86_hqs_l : forall (E : IPS) (proxf proxg : Op E) x0 z0 taus gfirst k m xk zk tr, (1 <= k)%nat -> (1 <= m)%nat -> per_iteration taus (k + m) ->
  HQS proxf proxg x0 taus k z0 gfirst = Ok (xk, zk, tr) ->
  HQS proxf proxg x0 taus (k + m) z0 gfirst = (r <- HQS proxf proxg (Some xk) (list_left k taus) m (Some zk) gfirst ;; Ok (fst (fst r), snd (fst r), tr ++ snd r)).
Proof.
  intros E proxf proxg x0 z0 taus gfirst k m xk zk tr Hk1 Hm1 Hep H. unfold HQS in *. destruct (x0z0_init x0 z0) as [[x z]|]; cbn [bind fst snd] in *; [|discriminate]. cbn [x0z0_init bind fst snd].
  assert (Hll : exists l l', hqs_taus taus (k + m) = l /\ hqs_taus (list_left k taus) m = l' /\ (forall j, (j < m)%nat -> nth_error l (k + j) = nth_error l' j) /\ (forall j, (j < k)%nat -> nth_error (hqs_taus taus k) j = nth_error l j)).
  { do 2 eexists. split; [reflexivity|]. split; [reflexivity|]. destruct Hep as [Hep|Hep].
    - destruct taus as [|t [|? ?]]; cbn in Hep; try lia. cbn [hqs_taus list_left]. split; intros j Hj; rewrite !nth_error_repeat by lia; reflexivity.
    - destruct taus as [|t [|t' l]]; cbn in Hep; try lia. remember (t :: t' :: l) as ts eqn:Ets. replace (list_left k ts) with (skipn k ts) by (rewrite Ets; reflexivity). replace (hqs_taus ts (k + m)) with ts by (rewrite Ets; reflexivity).
      replace (hqs_taus ts k) with ts by (rewrite Ets; reflexivity). split; [|reflexivity].
      assert (Hlen := skipn_length k ts). replace (List.length ts) with (k + m)%nat in Hlen by (rewrite Ets; cbn; lia). intros j Hj. rewrite <- nth_error_skip.
      destruct (skipn k ts) as [|a [|b q]]; cbn in Hlen |- *; try reflexivity. replace m with 1%nat by lia. reflexivity. }
  destruct Hll as (l & l' & -> & -> & Hll & Hkk).
  rewrite (for_loop_ext _ (hqs_body proxf proxg l gfirst)) in H by (intros j s Hj; unfold hqs_body, getitem; rewrite Hkk by lia; reflexivity).
  destruct (for_loop _ k 0 _) as [[s1 n1]|] eqn:Ek; cbn [bind fst snd] in H; [|discriminate]. inversion H; subst xk zk tr; clear H.
  set (Q := fun s t : hqs_state E => h_x s = h_x t /\ h_z s = h_z t /\ h_tr s = h_tr s1 ++ h_tr t).
  pose proof (resume_loop (hqs_body proxf proxg l gfirst) (hqs_body proxf proxg l' gfirst) (fun _ => True) Q (HQ x z []) k m s1 n1 (HQ (h_x s1) (h_z s1) []) I) as G.
  assert (Hn : forall i s p, hqs_body proxf proxg l gfirst i s = Ok p -> snd p = false) by (unfold hqs_body; nob).
  specialize (G Hn ltac:(auto) Ek). assert (HQ0 : Q s1 (HQ (h_x s1) (h_z s1) [])) by (unfold Q; cbn [h_x h_z h_tr]; rewrite app_nil_r; auto). specialize (G (fun _ => HQ0)).
  assert (Hs : forall j s t, (j < m)%nat -> Q s t -> agree Q (hqs_body proxf proxg l gfirst (k + j) s) (hqs_body proxf proxg l' gfirst j t)).
  { intros j s t Hj (A & B & C). unfold hqs_body, getitem. rewrite (Hll j Hj), A, B, C. stepb. destruct gfirst; repeat stepb; (split; [reflexivity|]); unfold Q; cbn [h_x h_z h_tr]; rewrite app_assoc; auto. }
  specialize (G Hs). ends G. destruct G as (-> & -> & ->). reflexivity.
Qed.

(*! C86_douglas_rachford : a run of DouglasRachfordSplitting of k + m iterations is the run of k iterations followed by a run of m iterations started at the
   auxiliary vector y it returned (not at x), for either order *)
Lemma C86_douglas_rachford_l : forall (E : IPS) (proxf proxg : Op E) x0 tau eta gfirst k m xk yk tr, (1 <= m)%nat ->
  DouglasRachford proxf proxg x0 tau eta k gfirst = Ok (xk, yk, tr) ->
  DouglasRachford proxf proxg x0 tau eta (k + m) gfirst = (r <- DouglasRachford proxf proxg yk tau eta m gfirst ;; Ok (fst (fst r), snd (fst r), tr ++ snd r)).
Proof.
  intros E proxf proxg x0 tau eta gfirst k m xk yk tr Hm1 H. unfold DouglasRachford in *.
  destruct (for_loop _ k 0 _) as [[s1 n1]|] eqn:Ek; cbn [bind fst snd] in H; [|discriminate]. destruct (d_x s1) as [x1|] eqn:Ex; [|discriminate]. inversion H; subst xk yk tr; clear H.
  set (Q := fun s t : dr_state E => d_y s = d_y t /\ (d_x t <> None -> d_x s = d_x t) /\ d_tr s = d_tr s1 ++ d_tr t).
  pose proof (resume_loop (dr_body proxf proxg tau eta gfirst) (dr_body proxf proxg tau eta gfirst) (fun _ => True) Q (DR None x0 []) k m s1 n1 (DR None (d_y s1) []) I) as G.
  assert (Hn : forall i s p, dr_body proxf proxg tau eta gfirst i s = Ok p -> snd p = false) by (unfold dr_body; nob).
  specialize (G Hn ltac:(auto) Ek). assert (HQ0 : Q s1 (DR None (d_y s1) [])) by (unfold Q; cbn [d_x d_y d_tr]; rewrite app_nil_r; tauto). specialize (G (fun _ => HQ0)).
  assert (Hs : forall j s t, (j < m)%nat -> Q s t -> agree Q (dr_body proxf proxg tau eta gfirst (k + j) s) (dr_body proxf proxg tau eta gfirst j t)).
  { intros j s t Hj (A & B & C). unfold dr_body. rewrite A, C. destruct gfirst; repeat stepb; (split; [reflexivity|]); unfold Q; cbn [d_x d_y d_tr]; rewrite app_assoc; auto. }
  specialize (G Hs). clear Hs.
  destruct (for_loop _ (k + m) 0 _) as [[s' ?]|] eqn:E1; destruct (for_loop _ m 0 _) as [[t' n']|] eqn:E2; cbn [bind fst snd]; try (exfalso; exact G); [|congruence].
  destruct (for_loop_inv (dr_body proxf proxg tau eta gfirst) (fun j t => (0 < j)%nat -> d_x t <> None) m 0 (DR None (d_y s1) []) t' n') as (P1 & _ & P2); auto.
  { intros j s s2 b _ Hb _. unfold dr_body in Hb. nobreak Hb. inversion Hb; subst. cbn. discriminate. }
  { lia. }
  destruct G as (Gy & Gx & Gt). rewrite (Gx (P1 (P2 ltac:(lia)))), Gy, Gt. destruct (d_x t'); reflexivity.
Qed.

(*! C86_primal_dual : a run of PrimalDual of k + m iterations is the run of k iterations followed by a run of m iterations started at the x and y it returned, given the
   steps of its iterations: with gfirst=False for every theta, with gfirst=True for theta = 0 *)
Lemma C86_primal_dual_l : forall (E F : IPS) (proxf : Op E) (proxg : Op F) A alias x0 tau mu y0 z theta gfirst k m xk yk tr, gfirst = false \/ theta = 0 ->
  PrimalDual proxf proxg A alias x0 tau mu y0 z theta k gfirst = Ok (xk, yk, tr) ->
  PrimalDual proxf proxg A alias x0 tau mu y0 z theta (k + m) gfirst =
    (r <- PrimalDual proxf proxg A alias xk (steps_left k tau) (steps_left k mu) (Some yk) z theta m gfirst ;; Ok (fst (fst r), snd (fst r), tr ++ snd r)).
Proof.
  intros E F proxf proxg A alias x0 tau mu y0 z theta gfirst k m xk yk tr Hg H. unfold PrimalDual in *. set (y := match y0 with Some y => y | None => vzero end) in *.
  assert (Hll : forall s : steps, (forall j, (j < m)%nat -> nth_error (steps_arr s (k + m)) (k + j) = nth_error (steps_arr (steps_left k s) m) j) /\ (forall j, (j < k)%nat -> nth_error (steps_arr s k) j = nth_error (steps_arr s (k + m)) j)).
  { intros [t|l]; cbn [steps_arr steps_left]; (split; intros j Hj; [|]); [rewrite !nth_error_repeat by lia; reflexivity|rewrite !nth_error_repeat by lia; reflexivity|rewrite nth_error_skip; reflexivity|reflexivity]. }
  destruct (Hll tau) as [T1 T2], (Hll mu) as [M1 M2].
  set (b1 := pd_body proxf proxg A alias z theta gfirst (steps_arr tau (k + m)) (steps_arr mu (k + m))) in *. set (b2 := pd_body proxf proxg A alias z theta gfirst (steps_arr (steps_left k tau) m) (steps_arr (steps_left k mu) m)).
  rewrite (for_loop_ext _ b1) in H by (intros j s Hj; unfold b1, pd_body, getitem; rewrite T2, M2 by lia; reflexivity).
  destruct (for_loop _ k 0 _) as [[s1 n1]|] eqn:Ek; cbn [bind fst snd] in H; [|discriminate]. inversion H; subst xk yk tr; clear H.
  set (Q := fun s t : pd_state => pd_x s = pd_x t /\ pd_y s = pd_y t /\ (gfirst = true -> pd_hat s = pd_hat t) /\ pd_tr s = pd_tr s1 ++ pd_tr t).
  pose proof (resume_loop b1 b2 (fun s => gfirst = true -> pd_hat s = pd_x s) Q (PD x0 y x0 []) k m s1 n1 (PD (pd_x s1) (pd_y s1) (pd_x s1) [])) as G.
  assert (Hth : forall u v : E, gfirst = true -> u [+] theta [*] v = u). { intros u v Hgt. destruct Hg as [Hg|Hg]; [congruence|]. rewrite Hg. vring. }
  specialize (G ltac:(intros _; reflexivity)). assert (Hn : forall i s p, b1 i s = Ok p -> snd p = false) by (unfold b1, pd_body, rmatvec_plus; intros i s p Hp; destruct gfirst, z; nobreak Hp; inversion Hp; reflexivity).
  specialize (G Hn). assert (Hi : forall i s p, (gfirst = true -> pd_hat s = pd_x s) -> b1 i s = Ok p -> gfirst = true -> pd_hat (fst p) = pd_x (fst p)).
  { intros i s p _ Hp Hgt. unfold b1, pd_body, rmatvec_plus in Hp. rewrite Hgt in Hp. destruct z; nobreak Hp; inversion Hp; cbn [fst pd_hat pd_x]; apply Hth; exact Hgt. }
  specialize (G Hi Ek). assert (HQ0 : (gfirst = true -> pd_hat s1 = pd_x s1) -> Q s1 (PD (pd_x s1) (pd_y s1) (pd_x s1) [])) by (intro; unfold Q; cbn [pd_x pd_y pd_hat pd_tr]; rewrite app_nil_r; auto).
  specialize (G HQ0).
  assert (Hs : forall j s t, (j < m)%nat -> Q s t -> agree Q (b1 (k + j)%nat s) (b2 j t)).
  { intros j s t Hj (B1 & B2 & B3 & B4). unfold b1, b2, pd_body, getitem. rewrite (T1 j Hj), (M1 j Hj), B1, B2, B4. destruct gfirst; [rewrite (B3 eq_refl)|]; unfold rmatvec_plus; destruct z; repeat stepb; (split; [reflexivity|]); unfold Q; cbn [pd_x pd_y pd_hat pd_tr]; rewrite app_assoc; auto. }
  specialize (G Hs). ends G. destruct G as (-> & -> & _ & ->). reflexivity.
Qed.

(*! C86_palm : with both factors gamma given (no backtracking), a run of PALM of k + m iterations is the run of k iterations followed by a run of m iterations started at the x and
   y it returned, with the same bilinear object, which then holds x and y *)
Lemma C86_palm_l : forall (E F : IPS) (H : Bilin E F) hx hy proxf proxg x0 y0 gf gg beta niterback k m xk yk tr,
  PALM H hx hy proxf proxg x0 y0 (Some gf) (Some gg) beta k niterback = Ok (xk, yk, tr) -> (1 <= k)%nat ->
  PALM H hx hy proxf proxg x0 y0 (Some gf) (Some gg) beta (k + m) niterback =
    (r <- PALM H xk yk proxf proxg xk yk (Some gf) (Some gg) beta m niterback ;; Ok (fst (fst r), snd (fst r), tr ++ snd r)).
Proof.
  intros E F H hx hy proxf proxg x0 y0 gf gg beta niterback k m xk yk tr Hr Hk1. unfold PALM in *. cbn [is_none] in *.
  set (b := palm_body H proxf proxg (Some gf) (Some gg) beta niterback) in *.
  destruct (for_loop b k 0 _) as [[s1 n1]|] eqn:Ek; cbn [bind fst snd] in Hr; [|discriminate]. inversion Hr; subst xk yk tr; clear Hr.
  set (Q := fun s t : palm_state E F => ps_x s = ps_x t /\ ps_y s = ps_y t /\ ps_hy s = ps_hy t /\ ps_tr s = ps_tr s1 ++ ps_tr t).
  assert (Hhy : ps_hy s1 = ps_y s1).
  { destruct (for_loop_inv b (fun j t => (0 < j)%nat -> ps_hy t = ps_y t) k 0 (PS x0 y0 hx hy None None x0 y0 []) s1 n1) as (P1 & _ & P2); [|lia|exact Ek|apply P1, P2; lia].
    intros j s s2 bb _ Hb _. unfold b, palm_body in Hb. nobreak Hb. inversion Hb; subst. reflexivity. }
  pose proof (resume_loop b b (fun _ => True) Q (PS x0 y0 hx hy None None x0 y0 []) k m s1 n1 (PS (ps_x s1) (ps_y s1) (ps_x s1) (ps_y s1) None None (ps_x s1) (ps_y s1) []) I) as G.
  assert (Hn : forall i s p, b i s = Ok p -> snd p = false) by (unfold b, palm_body; nob).
  specialize (G Hn ltac:(auto) Ek). assert (HQ0 : Q s1 (PS (ps_x s1) (ps_y s1) (ps_x s1) (ps_y s1) None None (ps_x s1) (ps_y s1) [])) by (unfold Q; cbn [ps_x ps_y ps_hy ps_tr]; rewrite app_nil_r; auto). specialize (G (fun _ => HQ0)).
  assert (Hs : forall j s t, (j < m)%nat -> Q s t -> agree Q (b (k + j)%nat s) (b j t)).
  { intros j s t Hj (B1 & B2 & B3 & B4). unfold b, palm_body. rewrite B1, B2, B3, B4. repeat stepb. split; [reflexivity|]. unfold Q. cbn [ps_x ps_y ps_hy ps_tr]. rewrite app_assoc. auto. }
  specialize (G Hs). ends G. destruct G as (-> & -> & _ & ->). reflexivity.
Qed.

(** a run that executed N iterations, cut after k < N *)
Lemma loop_cut {S} (body : nat -> S -> result (S * bool)) k : forall n i s s' N, for_loop body n i s = Ok (s', (i + N)%nat) -> (k < N)%nat ->
  exists sk, for_loop body k i s = Ok (sk, (i + k)%nat) /\ (k <= n)%nat /\ for_loop body (n - k) (i + k) sk = Ok (s', (i + N)%nat).
Proof.
  induction k as [|k IH]; intros n i s s' N H Hk.
  - exists s. cbn [for_loop]. rewrite Nat.add_0_r, Nat.sub_0_r. auto with arith.
  - destruct n as [|n]; [cbn in H; inversion H; lia|]. cbn [for_loop] in H |- *. destruct (body i s) as [[s1 c]|]; cbn [bind fst snd] in H |- *; [|discriminate].
    destruct c; [inversion H; lia|]. replace (i + N)%nat with (Datatypes.S i + (N - 1))%nat in H by lia. destruct (IH n (Datatypes.S i) s1 s' (N - 1)%nat H ltac:(lia)) as (sk & A & B & C).
    exists sk. cbn [Nat.sub]. replace (i + Datatypes.S k)%nat with (Datatypes.S i + k)%nat by lia. replace (i + N)%nat with (Datatypes.S i + (N - 1))%nat by lia. split; [exact A|]. split; [lia|exact C].
Qed.

(*! C86_tolerance : with a tolerance tol <= 1, a run of ProximalPoint that made N iterations (tr: the vectors handed to the callback) and was interrupted after iteration
   k + 1 < N - 1: the run started at the last vector the callback got, with the remaining iterations, returns the same x and hands the
   same remaining vectors to the callback *)
Lemma C86_tolerance_l : forall (E : IPS) (o : Op E) x0 tau n tol x tr k xk, tol <= 1 -> ProximalPoint o x0 tau n (Some tol) = Ok (x, tr) ->
  nth_error tr k = Some xk -> (k + 2 < List.length tr)%nat -> ProximalPoint o xk tau (n - S k) (Some tol) = Ok (x, skipn (S k) tr).
Proof.
  intros E o x0 tau n tol x tr k xk Ht H Hk Hlen. unfold ProximalPoint in *. set (b := pp_body o tau (Some tol)) in *.
  destruct (for_loop b n 0 _) as [[s' N]|] eqn:En; cbn [bind fst snd] in H; [|discriminate]. inversion H; subst x tr; clear H.
  assert (Hb : forall j s s1 c, b j s = Ok (s1, c) -> pp_tr s1 = pp_tr s ++ [pp_x s1]). { intros j s s1 c Hc. unfold b, pp_body in Hc. nobreak Hc. inversion Hc; subst. reflexivity. }
  assert (Htr : forall n i s s2 N, for_loop b n i s = Ok (s2, N) -> exists l, pp_tr s2 = pp_tr s ++ l /\ N = (i + List.length l)%nat /\ (l <> [] -> last l vzero = pp_x s2) /\ (l = [] -> s2 = s)).
  { clear. intros n. assert (Hb : forall j s s1 c, b j s = Ok (s1, c) -> pp_tr s1 = pp_tr s ++ [pp_x s1]) by (intros j s s1 c Hc; unfold b, pp_body in Hc; nobreak Hc; inversion Hc; subst; reflexivity).
    induction n as [|n IH]; intros i s s2 N H; cbn [for_loop] in H.
    - inversion H; subst. exists []. rewrite app_nil_r. split; [reflexivity|]. split; [cbn; lia|]. split; [tauto|reflexivity].
    - destruct (b i s) as [[s1 c]|] eqn:Eb; cbn [bind fst snd] in H; [|discriminate]. pose proof (Hb _ _ _ _ Eb) as Ht. destruct c.
      + inversion H; subst. exists [pp_x s2]. repeat split; auto; [cbn; lia|discriminate].
      + destruct (IH _ _ _ _ H) as (l & A & B & C & D). exists (pp_x s1 :: l). rewrite A, Ht, <- app_assoc. split; [reflexivity|]. split; [cbn; lia|]. split; [|discriminate].
        intros _. destruct l as [|a l]; [rewrite D by reflexivity; reflexivity|]. specialize (C ltac:(discriminate)). rewrite <- C. reflexivity. }
  destruct (Htr _ _ _ _ _ En) as (l & A & B & _). cbn [pp_tr app] in A. rewrite A in *. cbn [plus] in B. subst N.
  destruct (loop_cut b (S k) n 0 _ s' (List.length l) En ltac:(lia)) as (sk & K1 & K2 & K3). cbn [plus] in K1, K3.
  destruct (Htr _ _ _ _ _ K1) as (l1 & A1 & B1 & C1 & _). cbn [pp_tr app] in A1. destruct (Htr _ _ _ _ _ K3) as (l2 & A2 & B2 & _). rewrite A in A2.
  assert (Hl1 : List.length l1 = S k) by lia. assert (Hl : l = l1 ++ l2) by congruence. 
  assert (Hxk : pp_x sk = xk).
  { rewrite <- C1 by (intro Hz; rewrite Hz in Hl1; cbn in Hl1; lia). rewrite Hl, nth_error_app1 in Hk by lia. destruct (exists_last (l := l1)) as (q & a & Hq); [intro Hz; rewrite Hz in Hl1; cbn in Hl1; lia|].
    rewrite Hq, last_last. rewrite Hq, app_length in Hl1. cbn in Hl1. rewrite Hq, nth_error_app2 in Hk by lia. replace (k - List.length q)%nat with 0%nat in Hk by lia. cbn in Hk. congruence. }
  replace (skipn (S k) l) with l2 by (rewrite Hl, <- Hl1, skipn_app, skipn_all, Nat.sub_diag; reflexivity).
  destruct (n - S k)%nat as [|r] eqn:Er; [cbn [for_loop] in K3; inversion K3; lia|]. cbn [for_loop] in K3 |- *.
  unfold b at 1 in K3. unfold b at 1. unfold pp_body in K3 |- *. rewrite Hxk in K3. cbn [pp_x pp_pf pp_tr app] in K3 |- *. destruct (o_prox o xk tau) as [x1|]; cbn [bind] in K3 |- *; [|discriminate].
  destruct (get_val o x1) as [pf|]; cbn [bind] in K3 |- *; [|discriminate]. destruct (rel_stop true tol pf (pp_pf sk)) as [c|]; cbn [bind fst snd] in K3; [|discriminate].
  cbn [rel_stop bind]. destruct (Rltb_spec 1 tol) as [[? _]|[_ ->]]; [lra|]. cbn [bind fst snd]. destruct c; [inversion K3; lia|].
  pose proof (loop_sim b b (fun s t => pp_x s = pp_x t /\ pp_pf s = pp_pf t /\ pp_tr s = l1 ++ pp_tr t) (S k) (1 + r)) as G.
  assert (Hs : forall j s t, (j < 1 + r)%nat -> pp_x s = pp_x t /\ pp_pf s = pp_pf t /\ pp_tr s = l1 ++ pp_tr t -> agree (fun s t => pp_x s = pp_x t /\ pp_pf s = pp_pf t /\ pp_tr s = l1 ++ pp_tr t) (b (S k + j)%nat s) (b j t)).
  { intros j s t _ (P1 & P2 & P3). unfold b, pp_body. rewrite P1, P2, P3. repeat stepb. split; [reflexivity|]. cbn [pp_x pp_pf pp_tr]. rewrite app_assoc. auto. }
  specialize (G Hs r 1%nat (PP x1 (Some pf) (pp_tr sk ++ [x1])) (PP x1 (Some pf) [x1]) ltac:(lia)). cbn [pp_x pp_pf pp_tr] in G. rewrite A1 in G. specialize (G ltac:(auto)).
  replace (S k + 1)%nat with (S (S k)) in G by lia. fold b in K3. rewrite A1 in K3. rewrite K3 in G. fold b. destruct (for_loop b r 1 _) as [[t' ?]|]; [|contradiction]. cbn [bind fst snd].
  destruct G as (-> & _ & Gt). rewrite A in Gt. rewrite Hl in Gt. apply app_inv_head in Gt. rewrite Gt. reflexivity.
Qed.
Ltac fq := match goal with |- ?a = ?b => change (@eq R a b) end; first [lra | field; repeat split; lra].
Ltac evs := match goal with
  | |- context [Reqb ?a ?b] => destruct (Reqb_spec a b) as [[? ->]|[? ->]]; [try (exfalso; cbn in *; lra)|try (exfalso; cbn in *; lra)]
  | |- context [Rltb (Rabs ?a) 0] => let H := fresh in pose proof (Rabs_pos a) as H; destruct (Rltb_spec (Rabs a) 0) as [[? ->]|[? ->]]; [exfalso; cbn in *; lra|]; clear H
  | |- context [Rleb ?a ?b] => destruct (Rleb_spec a b) as [[? ->]|[? ->]]; [try (exfalso; cbn in *; lra)|try (exfalso; cbn in *; lra)]
  end.
Ltac ev := unfold pydiv; cbn; repeat (unfold pydiv; evs; cbn).
(*! C86_ppxa_refuted : PPXA cannot be resumed from what it returns (the per-operator vectors y are lost): on two operators, 2 iterations return 1/2, 1 iteration returns 1/4, and 1 iteration from 1/4 returns 7/16 *)
Lemma C86_ppxa_refuted_l : exists tr tr' tr'', PPXA [shifted1; zero1] (Common (0:R_IPS)) (1/2) 1 None 2 Rabs (Some 0) = Ok (1/2, tr) /\ PPXA [shifted1; zero1] (Common (0:R_IPS)) (1/2) 1 None 1 Rabs (Some 0) = Ok (1/4, tr') /\
  PPXA [shifted1; zero1] (Common (1/4:R_IPS)) (1/2) 1 None 1 Rabs (Some 0) = Ok (7/16, tr'').
Proof. do 3 eexists. unfold PPXA, ppxa_body, stack_all, wsum. split; [|split]; ev; do 2 f_equal; fq. Qed.
(*! C86_consensus_refuted : nor can ConsensusADMM (the multipliers y restart at zero): 2 iterations return 1/2, 1 iteration 1/4, and 1 iteration from there 7/16 *)
Lemma C86_consensus_refuted_l : exists tr tr' tr'', ConsensusADMM [shifted1; zero1] (0:R_IPS) 1 2 Rabs (Some 0) = Ok (1/2, tr) /\ ConsensusADMM [shifted1; zero1] (0:R_IPS) 1 1 Rabs (Some 0) = Ok (1/4, tr') /\
  ConsensusADMM [shifted1; zero1] (1/4:R_IPS) 1 1 Rabs (Some 0) = Ok (7/16, tr'').
Proof. do 3 eexists. unfold ConsensusADMM, cadmm_body, stack_all. split; [|split]; ev; do 2 f_equal; fq. Qed.
(*! C86_admm_refuted : nor can ADMM from the x and z it returns (the multiplier u restarts at zero): 2 iterations return (1/2, 3/8), 1 iteration (1/2, 1/4), and 1 iteration from there (5/8, 5/16) *)
Lemma C86_admm_refuted_l : exists tr tr' tr'', ADMM shifted1 half1 (Some (0:R_IPS)) 1 2 None false = Ok (1/2, 3/8, tr) /\ ADMM shifted1 half1 (Some (0:R_IPS)) 1 1 None false = Ok (1/2, 1/4, tr') /\
  ADMM shifted1 half1 (Some (1/2:R_IPS)) 1 1 (Some (1/4)) false = Ok (5/8, 5/16, tr'').
Proof. do 3 eexists. repeat split; cbn; do 3 f_equal; fq. Qed.
(*! C86_linearized_admm_refuted : nor can LinearizedADMM: 2 iterations return (1/2, 3/8), 1 iteration (1/2, 1/4), and 1 iteration from there (3/4, 3/8) *)
Lemma C86_linearized_admm_refuted_l : exists tr tr' tr'', LinearizedADMM shifted1 half1 (id_linop R_IPS) (Some (0:R_IPS)) 1 1 2 None = Ok (1/2, 3/8, tr) /\ LinearizedADMM shifted1 half1 (id_linop R_IPS) (Some (0:R_IPS)) 1 1 1 None = Ok (1/2, 1/4, tr') /\
  LinearizedADMM shifted1 half1 (id_linop R_IPS) (Some (1/2:R_IPS)) 1 1 1 (Some (1/4)) = Ok (3/4, 3/8, tr'').
Proof. do 3 eexists. unfold LinearizedADMM, la_body. split; [|split]; ev; do 3 f_equal; fq. Qed.
(*! C86_primal_dual_refuted : with gfirst=True and theta = 1 PrimalDual cannot be resumed from the x and y it returns (the extrapolated point restarts at x) *)
Lemma C86_primal_dual_refuted_l : exists tr tr' tr'', PrimalDual shifted1 half1 (id_linop R_IPS) None (0:R_IPS) (Scalar (1/2)) (Scalar (1/2)) None None 1 2 true = Ok (13/27, 2/9, tr) /\ 
  PrimalDual shifted1 half1 (id_linop R_IPS) None (0:R_IPS) (Scalar (1/2)) (Scalar (1/2)) None None 1 1 true = Ok (1/3, 0, tr') /\
  PrimalDual shifted1 half1 (id_linop R_IPS) None (1/3:R_IPS) (Scalar (1/2)) (Scalar (1/2)) (Some 0) None 1 1 true = Ok (14/27, 1/9, tr'').
Proof. do 3 eexists. repeat split; cbn; do 3 f_equal; fq. Qed.
(*! C86_twist_refuted : nor can TwIST (the last but one iterate is lost): 2 iterations return 2, 1 iteration 2, and 1 iteration from there 0 *)
Lemma C86_twist_refuted_l : exists tr tr' tr'', TwIST zero1 (id_linop R_IPS) (1:R_IPS) (0:R_IPS) (Some 2) (Some 1) None 1 1 2 = Ok (2, tr) /\ TwIST zero1 (id_linop R_IPS) (1:R_IPS) (0:R_IPS) (Some 2) (Some 1) None 1 1 1 = Ok (2, tr') /\
  TwIST zero1 (id_linop R_IPS) (1:R_IPS) (2:R_IPS) (Some 2) (Some 1) None 1 1 1 = Ok (0, tr'').
Proof. do 3 eexists. repeat split; cbn; do 2 f_equal; fq. Qed.
(*! C86_acceleration_refuted : nor can the accelerated ProximalGradient (momentum and iteration counter are lost): 3 iterations return 3/32, 1 iteration 1/2, and 2 iterations from there 1/8 *)
Lemma C86_acceleration_refuted_l : exists tr tr' tr'', ProximalGradient (quad1 1) zero1 (1:R_IPS) [1] (Some (1/2)) false 1 1 3 1 (Some "vandenberghe"%string) None = Ok (3/32, tr) /\ 
  ProximalGradient (quad1 1) zero1 (1:R_IPS) [1] (Some (1/2)) false 1 1 1 1 (Some "vandenberghe"%string) None = Ok (1/2, tr') /\
  ProximalGradient (quad1 1) zero1 (1/2:R_IPS) [1] (Some (1/2)) false 1 1 2 1 (Some "vandenberghe"%string) None = Ok (1/8, tr'').
Proof. do 3 eexists. unfold ProximalGradient, pg_body, pg_prox_step. split; [|split]; ev; do 2 f_equal; fq. Qed.
(*! C86_generalized_refuted : nor can GeneralizedProximalGradient with two operators (the auxiliary vectors z restart at x): 2 iterations return 2/3, 1 iteration 1/3, and 1 iteration from there 5/9 *)
Lemma C86_generalized_refuted_l : exists tr tr' tr'', GeneralizedProximalGradient [] [shifted1; zero1] (0:R_IPS) (Some 1) [1] None 1 2 None = Ok (2/3, tr) /\ GeneralizedProximalGradient [] [shifted1; zero1] (0:R_IPS) (Some 1) [1] None 1 1 None = Ok (1/3, tr') /\
   GeneralizedProximalGradient [] [shifted1; zero1] (1/3:R_IPS) (Some 1) [1] None 1 1 None = Ok (5/9, tr'').
Proof. do 3 eexists. unfold GeneralizedProximalGradient, gpg_body, Rsum. split; [|split]; ev; do 2 f_equal; fq. Qed.
Definition bent_f (x : R) : R := if Rleb x 1 then x * x / 2 else 2 * (x * x) - 3 * x + 3 / 2.
Definition bent_g (x : R) : R := if Rleb x 1 then x else 4 * x - 3.
Lemma bent_lo x : x <= 1 -> bent_f x = x * x / 2 /\ bent_g x = x.
Proof. intro H. unfold bent_f, bent_g. destruct (Rleb_spec x 1) as [[? ->]|[? _]]; [auto|lra]. Qed.
Lemma bent_bt (x tau : R) n z (gx fx z1 fz : R) (b : bool) : bent_g x = gx -> bent_f x = fx -> x - tau * gx = z1 -> bent_f z1 = fz -> 
  (if b then fz <= fx + gx * (z1 - x) + 1 / (2 * tau) * ((z1 - x) * (z1 - x)) else fx + gx * (z1 - x) + 1 / (2 * tau) * ((z1 - x) * (z1 - x)) < fz) ->
  bt_loop (E:=R_IPS) x bent1 zero1 1 (1/2) (S n) tau z = if b then Ok (z1, tau) else bt_loop (E:=R_IPS) x bent1 zero1 1 (1/2) n (tau * (1/2)) (Some z1).
Proof.
  intros Eg Ef Ez Efz Hb.
  assert (E1 : bt_loop (E:=R_IPS) x bent1 zero1 1 (1/2) (S n) tau z = if Rleb (bent_f z1) (bent_f x + bent_g x * (z1 - x) + 1 / (2 * tau) * ((z1 - x) * (z1 - x))) then Ok (z1, tau) else bt_loop (E:=R_IPS) x bent1 zero1 1 (1/2) n (tau * (1/2)) (Some z1)).
  { assert (Hg : o_grad bent1 x = Ok (Some (bent_g x))) by reflexivity. assert (Hc : forall y, o_call bent1 y = Ok (VNum (bent_f y))) by reflexivity. assert (Hz : forall y t, o_prox zero1 y t = Ok y) by reflexivity.
    cbn [bt_loop]. unfold get_grad, ftilde, get_val, get_grad. rewrite Hg. cbn [bind]. rewrite Hz. cbn [bind]. rewrite !Hc. cbn [bind as_num].
    replace (vsub (E:=R_IPS) x (@vscal R_IPS tau (bent_g x))) with (z1 : R_IPS) by (rewrite Eg, <- Ez; cbn; ring).
    replace (@inner R_IPS (bent_g x) (vsub (E:=R_IPS) z1 x)) with (bent_g x * (z1 - x)) by (cbn; ring). replace (norm2 (E:=R_IPS) (vsub (E:=R_IPS) z1 x)) with ((z1 - x) * (z1 - x)) by (unfold norm2; cbn; ring). reflexivity. }
  rewrite E1, Efz, Ef, Eg. destruct (Rleb_spec fz (fx + gx * (z1 - x) + 1 / (2 * tau) * ((z1 - x) * (z1 - x)))) as [[? ->]|[? ->]]; destruct b; auto; lra.
Qed.
Lemma bent_2 : backtracking (E:=R_IPS) 2 1 bent1 zero1 1 (1/2) 10 = Ok (3/4, 1 * (1/2) * (1/2)).
Proof.
  assert (F2 : bent_g 2 = 5 /\ bent_f 2 = 7/2) by (unfold bent_f, bent_g; destruct (Rleb_spec 2 1) as [[? ->]|[? ->]]; [lra|split; lra]). destruct F2 as [G2 F2]. unfold backtracking.
  assert (A1 : bent_f (-3) = 9/2) by (rewrite (proj1 (bent_lo (-3) ltac:(lra))); field). assert (A2 : bent_f (-(1/2)) = 1/8) by (rewrite (proj1 (bent_lo (-(1/2)) ltac:(lra))); field).
  assert (A3 : bent_f (3/4) = 9/32) by (rewrite (proj1 (bent_lo (3/4) ltac:(lra))); field).
  rewrite (bent_bt 2 1 9 None 5 (7/2) (-3) (9/2) false); auto; try lra. rewrite (bent_bt 2 (1 * (1/2)) 8 _ 5 (7/2) (-(1/2)) (1/8) false); auto; try lra.
  rewrite (bent_bt 2 (1 * (1/2) * (1/2)) 7 _ 5 (7/2) (3/4) (9/32) true); auto; lra.
Qed.
Lemma bent_34 : backtracking (E:=R_IPS) (3/4) 1 bent1 zero1 1 (1/2) 10 = Ok (0, 1) /\ backtracking (E:=R_IPS) (3/4) (1 * (1/2) * (1/2)) bent1 zero1 1 (1/2) 10 = Ok (9/16, 1 * (1/2) * (1/2)).
Proof.
  destruct (bent_lo (3/4) ltac:(lra)) as [F G]. assert (F' : bent_f (3/4) = 9/32) by (rewrite F; field). assert (F0 : bent_f 0 = 0) by (rewrite (proj1 (bent_lo 0 ltac:(lra))); field).
  assert (F9 : bent_f (9/16) = 81/512) by (rewrite (proj1 (bent_lo (9/16) ltac:(lra))); field). unfold backtracking. split.
  - rewrite (bent_bt (3/4) 1 9 None (3/4) (9/32) 0 0 true); auto; lra.
  - rewrite (bent_bt (3/4) (1 * (1/2) * (1/2)) 9 None (3/4) (9/32) (9/16) (81/512) true); auto; lra.
Qed.
(*! C86_backtracking_refuted : nor can ProximalGradient with backtracking from a step that is found (the reduced step is not returned): 2 iterations return 9/16, 1 iteration 3/4, and 1 iteration from there 0 *)
Lemma C86_backtracking_refuted_l : exists tr tr' tr'', ProximalGradient bent1 zero1 (2:R_IPS) [1] None true (1/2) 1 2 10 None None = Ok (9/16, tr) /\ 
  ProximalGradient bent1 zero1 (2:R_IPS) [1] None true (1/2) 1 1 10 None None = Ok (3/4, tr') /\
  ProximalGradient bent1 zero1 (3/4:R_IPS) [1] None true (1/2) 1 1 10 None None = Ok (0, tr'').
Proof.
  destruct bent_34 as [B1 B2]. do 3 eexists. unfold ProximalGradient, pg_body, pg_prox_step. cbn [pg_epsg bind accel_known repeat]. 
  split; [|split]; cbn [for_loop getitem nth_error bind fst snd pg_x pg_y pg_tau].
  - rewrite bent_2. cbn [bind fst snd]. destruct (Reqb_spec 1 1) as [[_ ->]|[H _]]; [|lra]. cbn [bind fst snd pg_x pg_y pg_tau accel_is].
    replace (@vadd R_IPS (3/4) (@vscal R_IPS 0 (vsub (E:=R_IPS) (3/4) 2))) with (3/4 : R_IPS) by (cbn; ring). rewrite B2. cbn [bind fst snd pg_x pg_tr]. reflexivity.
  - rewrite bent_2. cbn [bind fst snd]. destruct (Reqb_spec 1 1) as [[_ ->]|[H _]]; [|lra]. reflexivity.
  - rewrite B1. cbn [bind fst snd]. destruct (Reqb_spec 1 1) as [[_ ->]|[H _]]; [|lra]. reflexivity.
Qed.

(*!ex C86_example : DouglasRachfordSplitting on (x - 1)^2/2 and x^2/2 from 1 resumed after one iteration from the y = 1/2 it returned, not from its x = 1; and ProximalPoint with a
   tolerance interrupted after two of four iterations *)
Lemma C86_example_l : (exists tr tr' tr'', DouglasRachford shifted1 half1 (1:R_IPS) 1 1 1 false = Ok (1, 1/2, tr) /\ DouglasRachford shifted1 half1 (1/2:R_IPS) 1 1 1 false = Ok (3/4, 1/4, tr') /\
    DouglasRachford shifted1 half1 (1:R_IPS) 1 1 2 false = Ok (3/4, 1/4, tr'')) /\
  ProximalPoint half1 (1:R_IPS) 1 4 (Some 0) = Ok (1/16, [1/2; 1/4; 1/8; 1/16]) /\ ProximalPoint half1 (1/4:R_IPS) 1 2 (Some 0) = Ok (1/16, [1/8; 1/16]).
Proof.
  split; [|split].
  - do 3 eexists. repeat split; cbn; do 3 f_equal; fq.
  - unfold ProximalPoint, pp_body, rel_stop. ev. destruct (Rltb_spec 1 0) as [[H' _]|[_ ->]]; [exfalso; lra|]. cbn [bind fst snd pp_x pp_tr]. apply f_equal. apply f_equal2; [fq|]. repeat (apply f_equal2; [fq|]). reflexivity.
  - unfold ProximalPoint, pp_body, rel_stop. ev. destruct (Rltb_spec 1 0) as [[H' _]|[_ ->]]; [exfalso; lra|]. cbn [bind fst snd pp_x pp_tr]. apply f_equal. apply f_equal2; [fq|]. repeat (apply f_equal2; [fq|]). reflexivity.
Qed.
