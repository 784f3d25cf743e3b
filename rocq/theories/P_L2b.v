(** * L2 with an iterative solver: what the solver is given, call after call (M_L2.v) *)
From Verif Require Import Base Space Spec SpecOps ConvexFacts M_ProxOp M_L2 P_L2.
From Verif Require Export S_L2b.


Lemma start_gen {E F : IPS} (ext : L2Ext E F) cfg A b sigma x0 : l2_d cfg = WithOp A false b ->
  let solve (k : nat) (s : option E) (x : E) (tau : R) :=
    match l2_solv cfg with
    | Cgls => x_reginv ext (comp_linop (scal_linop F (sqrt (tau * sigma))) A) (sqrt (tau * sigma) [*] b) (sub_q cfg tau x) (l2_niter cfg k) s
    | _ => x_iter ext (fun v => v [+] (tau * sigma) [*] ladj A (A v)) (sub_q cfg tau (x [+] tau [*] (sigma [*] ladj A b))) (l2_niter cfg k) s
    end in
  forall calls (st : L2St ext) (past : list (result E)), st_sigma st = sigma -> st_OpTb st = sigma [*] ladj A b -> st_count st = length past ->
  st_x0 st = (if l2_warm cfg then last_ok x0 past else x0) ->
  let rs := l2_session ext cfg st (calls_of calls) in
  length rs = length calls /\
  forall j x tau, nth_error calls j = Some (x, tau) ->
    nth_error rs j = Some (if Rleb tau 0 then Err ValueError
      else Ok (solve (length past + S j)%nat (if l2_warm cfg then last_ok x0 (past ++ firstn j rs) else x0) x tau)).
Proof.
  intros Hd solve. induction calls as [|[x tau] calls IH]; intros st past Hs Hb Hc Hx; [split; [reflexivity|]; intros [|j] x tau Hj; discriminate|].
  cbn [calls_of map l2_session fst snd].
  set (res := l2_prox ext cfg st x tau). destruct res as [[st' x'] r] eqn:Er. unfold res in Er. clear res.
  assert (G : st_sigma st' = sigma /\ st_OpTb st' = sigma [*] ladj A b /\ st_count st' = length (past ++ [r]) /\
    st_x0 st' = (if l2_warm cfg then last_ok x0 (past ++ [r]) else x0) /\
    r = if Rleb tau 0 then Err ValueError else Ok (solve (length past + 1)%nat (if l2_warm cfg then last_ok x0 past else x0) x tau)).
  { unfold last_ok. rewrite fold_left_app. fold (last_ok x0 past). rewrite app_length, Nat.add_1_r. unfold l2_prox in Er. rewrite Hd in Er. unfold solve.
    destruct (Rleb tau 0).
    - injection Er as <- <- <-. cbn [st_sigma st_OpTb st_count st_x0 fold_left length]. rewrite ?Hc, ?Nat.add_1_r. destruct (l2_warm cfg); auto.
    - cbn [st_sigma st_OpTb st_count st_x0] in Er. rewrite Hs, Hb, Hc, Hx in Er. destruct (l2_solv cfg); injection Er as <- <- <-; cbn [st_sigma st_OpTb st_count st_x0 fold_left length]; rewrite ?Hs, ?Hb, ?Hc, ?Hx, ?Nat.add_1_r; destruct (l2_warm cfg); auto. }
  destruct G as [G1 [G2 [G3 [G4 G5]]]]. destruct (IH st' (past ++ [r]) G1 G2 G3 G4) as [I1 I2]. fold (calls_of calls). cbn zeta in *. set (rs := l2_session ext cfg st' (calls_of calls)) in *.
  split; [cbn [length]; rewrite I1; reflexivity|]. intros [|j] y t Hj; cbn [nth_error firstn] in *.
  - injection Hj as <- <-. rewrite app_nil_r, <- G5. reflexivity.
  - rewrite (I2 j y t Hj). rewrite app_length, <- app_assoc. cbn [length app]. replace (length past + 1 + S j)%nat with (length past + S (S j))%nat by lia. reflexivity.
Qed.

(*! C13_l2_start : L2 with an operator solved iteratively, every sequence of prox calls, rejected ones included: call number j (from 1) raises ValueError when its step is not positive and otherwise returns what the
   solver returns for the documented system, iteration budget niter(j) and, as starting point, the last accepted result when warm=True (x0 before there is one) and always x0 when warm=False *)
Lemma C13_l2_start_l : forall (E F : IPS) (ext : L2Ext E F) cfg A b sigma x0 (calls : list (E * R)), l2_d cfg = WithOp A false b ->
  let solve (k : nat) (s : option E) (x : E) (tau : R) :=
    match l2_solv cfg with
    | Cgls => x_reginv ext (comp_linop (scal_linop F (sqrt (tau * sigma))) A) (sqrt (tau * sigma) [*] b) (sub_q cfg tau x) (l2_niter cfg k) s
    | _ => x_iter ext (fun v => v [+] (tau * sigma) [*] ladj A (A v)) (sub_q cfg tau (x [+] tau [*] (sigma [*] ladj A b))) (l2_niter cfg k) s
    end in
  let rs := l2_session ext cfg (l2_init ext cfg sigma x0) (calls_of calls) in
  length rs = length calls /\
  forall j x tau, nth_error calls j = Some (x, tau) ->
    nth_error rs j = Some (if Rleb tau 0 then Err ValueError else Ok (solve (S j) (if l2_warm cfg then last_ok x0 (firstn j rs) else x0) x tau)).
Proof.
  intros E F ext cfg A b sigma x0 calls Hd solve rs. pose proof (start_gen ext cfg A b sigma x0 Hd calls (l2_init ext cfg sigma x0) []) as H. cbn zeta in H. cbn [length app Nat.add] in H.
  apply H; cbn; auto; [rewrite Hd; reflexivity|]. destruct (l2_warm cfg); reflexivity.
Qed.
(*!ex C13_l2_start_example : an object with an operator on the real line solved iteratively, with the solver that returns its starting point (so that the theorem shows the start): with warm=True and x0 absent, three calls with steps 1, -1, 1
   return zero, ValueError and zero plus one *)
Lemma C13_l2_start_example_l :
  let ext := mkL2Ext (E:=R_IPS) (F:=R_IPS) (fun _ y => y) R (fun _ => 0) (fun _ y => y) (fun _ _ _ (s : option R) => match s with Some p => p + 1 | None => 0 end) (fun _ _ y _ _ => y) in
  let cfg := mkL2 (E:=R_IPS) (F:=R_IPS) (WithOp (scal_linop R_IPS 2) false (1 : R_IPS)) None 1 true (fun _ => 10%nat) true Legacy DenseDefault in
  l2_d cfg = WithOp (scal_linop R_IPS 2) false (1 : R_IPS) /\ l2_session ext cfg (l2_init ext cfg 1 None) (calls_of (E:=R_IPS) [(3, 1); (3, -1); (4, 1)]) = [Ok 0; Err ValueError; Ok (0 + 1)].
Proof.
  intros ext cfg. split; [reflexivity|]. cbn [calls_of map fst snd l2_session]. unfold l2_prox. destruct (Rleb_spec 1 0) as [[? _]|[_ ->]]; [lra|]. destruct (Rleb_spec (-1) 0) as [[_ ->]|[? _]]; [|lra]. reflexivity.
Qed.
