(** * Anderson acceleration: the safeguard, with and without the log *)
From Coq Require Import Psatz String.
From Verif Require Import Base Space Spec ConvexFacts Smooth VSum MatFacts M_ProxOp SpecOps M_Loop LoopFacts LoopFacts2 Trace SeqFacts M_PG P_PG P_PG2 P_PG3 M_Anderson P_Anderson P_Anderson2 P_Anderson3 M_AndShow.
Open Scope result_scope.
Open Scope R_scope.

Lemma logged_small niter i : (niter < 20)%nat -> logged niter i = true.
Proof.
  intro H. unfold logged. destruct (Nat.ltb_spec i 10); [reflexivity|]. replace (Nat.ltb (niter - i) 10) with true by (symmetry; apply Nat.ltb_lt; lia). reflexivity.
Qed.

(** One iteration in detail: what the new iterate is and what is remembered as the value of f. *)
Lemma an_body_inv {E : IPS} pinv (proxf proxg : Op E) f df g l tau epsr nh sg tol i s s' b :
  impl_call proxf (etot f) -> (forall x, o_grad proxf x = Ok (Some (df x))) -> impl_prox proxg g -> 0 < tau -> (forall e, In e l -> 0 < e) ->
  an_body pinv proxf proxg l tau epsr nh sg tol i s = Ok (s', b) ->
  exists e, nth_error l i = Some e /\ an_tr s' = an_tr s ++ [an_x s'] /\ (tol <> None -> an_pf s' = f (an_x s')) /\
    (sg = true -> (f (an_x s') <= an_pf s - tau * norm2 (df (an_x s)) / 2) \/ is_prox g (e * tau) (an_x s [-] tau [*] df (an_x s)) (an_x s')).
Proof.
  intros Hc Hg Hp Ht Hl Hb. assert (Hv : forall x, get_val proxf x = Ok (f x)) by (intro x; unfold get_val; rewrite (Hc x I); reflexivity).
  unfold an_body in Hb. unfold get_grad at 1 in Hb. rewrite Hg in Hb. cbn [bind] in Hb.
  destruct (an_alpha _ _ _ _) as [al|]; [|discriminate]. cbn [bind] in Hb. destruct (comb _ _) as [yt|]; [|discriminate]. cbn [bind] in Hb.
  unfold getitem in Hb. destruct (nth_error l i) as [e|] eqn:Ee; [|discriminate]. cbn [bind] in Hb.
  assert (He : 0 < e * tau). { apply Rmult_lt_0_compat; auto. apply Hl. apply (nth_error_In _ _ Ee). }
  destruct (o_prox proxg yt (e * tau)) as [xt|]; [|discriminate]. cbn [bind] in Hb. exists e. split; auto.
  assert (Hr : exists x' y' pf', (if sg then
       pf <- get_val proxf xt ;;
       if Rleb pf (an_pf s - tau * norm2 (df (an_x s)) / 2) then Ok (xt, yt, pf)
       else x <- o_prox proxg (an_x s [-] tau [*] df (an_x s)) (e * tau) ;; Ok (x, an_x s [-] tau [*] df (an_x s), pf)
     else Ok (xt, yt, an_pf s)) = Ok (x', y', pf') /\
     (sg = true -> (f x' <= an_pf s - tau * norm2 (df (an_x s)) / 2) \/ is_prox g (e * tau) (an_x s [-] tau [*] df (an_x s)) x')).
  { destruct sg; [|do 3 eexists; split; [reflexivity|discriminate]]. rewrite Hv. cbn [bind]. destruct (Rleb_spec (f xt) (an_pf s - tau * norm2 (df (an_x s)) / 2)) as [[H ->]|[H ->]].
    - do 3 eexists. split; [reflexivity|]. intros _. left. exact H.
    - destruct (Hp (an_x s [-] tau [*] df (an_x s)) (e * tau) He) as [p [-> Hq]]. cbn [bind]. do 3 eexists. split; [reflexivity|]. intros _. right. exact Hq. }
  destruct Hr as (x' & y' & pf' & Er & HR). rewrite Er in Hb. cbn [bind] in Hb. destruct tol as [t|].
  - rewrite Hv in Hb. cbn [bind] in Hb. destruct (get_val proxg x') as [pg|]; [|discriminate]. cbn [bind] in Hb.
    destruct (rel_stop _ _ _ _) as [stop|]; [|discriminate]. cbn [bind] in Hb. injection Hb as <- <-. cbn [an_x an_tr an_pf]. auto.
  - injection Hb as <- <-. cbn [an_x an_tr an_pf]. split; auto. split; [congruence|auto].
Qed.

(*! C56_safeguard : with safeguard=True and a tolerance (any number, also 0), or with show=True and fewer than 20 iterations, the safeguard is what [1]
   describes: in every iteration the new iterate either decreases f by at least tau/2 |grad f|^2 or is the plain proximal gradient step from the
   previous iterate; f, g, history length and pseudo-inverse are arbitrary *)
Lemma C56_safeguard_l : forall (E : IPS) show pinv (proxf proxg : Op E) f df g x0 epsg tau niter nhistory epsr tol x tr,
  impl_call proxf (etot f) -> (forall x, o_grad proxf x = Ok (Some (df x))) -> impl_prox proxg g -> 0 < tau -> (forall e, In e epsg -> 0 < e) ->
  (tol <> None \/ (show = true /\ (niter < 20)%nat)) ->
  AndersonShow show pinv proxf proxg x0 epsg tau niter nhistory epsr true tol = Ok (x, tr) ->
  exists xs k, x = xs k /\ tr = map xs (seq 1 k) /\ (k <= niter)%nat /\
    (exists e, (epsg = [e] \/ nth_error epsg 0 = Some e) /\ is_prox g (e * tau) (x0 [-] tau [*] df x0) (xs 0%nat)) /\
    forall j, (j < k)%nat -> exists e, (epsg = [e] \/ nth_error epsg j = Some e) /\
      (f (xs (S j)) <= f (xs j) - tau * norm2 (df (xs j)) / 2 \/ is_prox g (e * tau) (xs j [-] tau [*] df (xs j)) (xs (S j))).
Proof.
  intros E show pinv proxf proxg f df g x0 epsg tau niter nh epsr tol x tr Hc Hg Hp Ht He Hm H.
  assert (Hv : forall x, get_val proxf x = Ok (f x)) by (intro y; unfold get_val; rewrite (Hc y I); reflexivity).
  unfold AndersonShow in H. destruct (pg_epsg epsg niter) as [l|] eqn:El; [|discriminate]. cbn [bind] in H.
  assert (Hl : forall i e, nth_error l i = Some e -> epsg = [e] \/ nth_error epsg i = Some e).
  { intros i e Hi. unfold pg_epsg in El. destruct epsg as [|a [|b r]]; [injection El as <-; auto| |injection El as <-; auto].
    destruct niter; [discriminate|]. injection El as <-. left. apply nth_error_In in Hi. change (In e (repeat a (S niter))) in Hi. apply repeat_spec in Hi. congruence. }
  assert (Hpos : forall e, In e l -> 0 < e).
  { intros e Hi. apply In_nth_error in Hi as [i Hi]. destruct (Hl i e Hi) as [-> |Hn]; [apply He; left; auto|apply He; eapply nth_error_In; eauto]. }
  destruct (an_init proxf proxg l tau x0) as [s0|] eqn:E0; [|discriminate]. cbn [bind] in H.
  destruct (for_loop _ _ _ _) as [[s k]|] eqn:Ef; [|discriminate]. cbn [bind fst] in H. injection H as <- <-.
  unfold an_init in E0. unfold get_grad in E0. rewrite Hg in E0. cbn [bind] in E0. unfold getitem in E0. destruct (nth_error l 0) as [e0|] eqn:Ee; [|discriminate]. cbn [bind] in E0.
  assert (He0 : 0 < e0 * tau) by (apply Rmult_lt_0_compat; auto; apply Hpos; eapply nth_error_In; eauto).
  destruct (Hp (x0 [-] tau [*] df x0) (e0 * tau) He0) as [p [Ep Hq]]. rewrite Ep in E0. cbn [bind] in E0. rewrite Hv in E0. cbn [bind] in E0. injection E0 as <-.
  set (P := fun k (s : an_state E) => exists xs : nat -> E, xs 0%nat = p /\ an_x s = xs k /\ an_tr s = map xs (seq 1 k) /\ an_pf s = f (xs k) /\
    forall j, (j < k)%nat -> exists e, (epsg = [e] \/ nth_error epsg j = Some e) /\
      (f (xs (S j)) <= f (xs j) - tau * norm2 (df (xs j)) / 2 \/ is_prox g (e * tau) (xs j [-] tau [*] df (xs j)) (xs (S j)))).
  destruct (fun A B => for_loop_inv (ans_body show niter pinv proxf proxg l tau epsr nh true tol) P niter 0%nat _ s k A B Ef) as [[xs [X0 [X1 [X2 [X3 X4]]]]] [Hk _]].
  - intros j st st' b [xs [X0 [X1 [X2 [X3 X4]]]]] Hb. unfold ans_body in Hb.
    destruct (an_body pinv proxf proxg l tau epsr nh true tol j st) as [[s1 b1]|] eqn:E1; [|discriminate]. cbn [bind fst snd] in Hb.
    destruct (an_body_inv pinv proxf proxg f df g l tau epsr nh true tol j st s1 b1 Hc Hg Hp Ht Hpos E1) as [e [Hn [Htr [Hpf Hst]]]].
    assert (Hs' : an_x st' = an_x s1 /\ an_tr st' = an_tr s1 /\ an_pf st' = f (an_x s1)).
    { destruct tol as [t|].
      - assert (st' = s1) by (destruct show, (logged niter j); injection Hb as <- _; reflexivity). subst st'. split; auto. split; auto. apply Hpf. discriminate.
      - destruct Hm as [Hm|[-> Hm]]; [congruence|]. rewrite logged_small in Hb by auto. rewrite Hv in Hb. cbn [bind] in Hb.
        destruct (get_val proxg (an_x s1)) as [pg|]; [|discriminate]. cbn [bind] in Hb. destruct (getitem l j) as [e'|]; [|discriminate]. cbn [bind] in Hb. injection Hb as <- _. cbn. auto. }
    destruct Hs' as [S1 [S2 S3]]. exists (upd xs (S j) (an_x s1)). rewrite !upd_lt by lia. rewrite upd_eq. split; auto. split; auto.
    split. { rewrite map_upd_snoc, S2, Htr, X2. reflexivity. } split; auto.
    intros i Hi. destruct (Nat.eq_dec i j) as [->|Hne].
    + exists e. split; [apply Hl; auto|]. rewrite upd_eq. rewrite upd_lt by lia. rewrite <- X3, <- X1. apply Hst. reflexivity.
    + rewrite !upd_lt by lia. apply X4. lia.
  - exists (fun _ => p). cbn. repeat split; auto. intros; lia.
  - exists xs, k. split; auto. split; auto. split; [lia|]. split; [|auto]. exists e0. split; [apply Hl; auto|]. rewrite X0. exact Hq.
Qed.

(** Same iterates and histories. *)
Definition same {E : IPS} (s t : an_state E) : Prop := an_x s = an_x t /\ an_y s = an_y t /\ an_R s = an_R t /\ an_G s = an_G t /\ an_tr s = an_tr t.

Section Same.
Context {E : IPS} (show : bool) (niter : nat) (pinv : list (list R) -> list (list R)) (proxf proxg : Op E) (l : list R) (tau epsr : R) (nh : nat).
Hypotheses (Hf : forall x, exists v, get_val proxf x = Ok v) (Hg : forall x, exists v, get_val proxg x = Ok v).
Lemma same_body i s t : same s t ->
  match ans_body show niter pinv proxf proxg l tau epsr nh false None i s with
  | Ok r => exists r', an_body pinv proxf proxg l tau epsr nh false None i t = Ok r' /\ same (fst r) (fst r') /\ snd r = snd r'
  | Err e => an_body pinv proxf proxg l tau epsr nh false None i t = Err e
  end.
Proof.
  intros (E1 & E2 & E3 & E4 & E5). unfold ans_body, an_body. rewrite <- E1, <- E2, <- E3, <- E4.
  destruct (get_grad proxf (an_x s)) as [d|]; [|reflexivity]. cbn [bind]. destruct (an_alpha _ _ _ _) as [al|]; [|reflexivity]. cbn [bind].
  destruct (comb _ _) as [yt|]; [|reflexivity]. cbn [bind]. destruct (getitem l i) as [e|] eqn:Ee; [|reflexivity]. cbn [bind].
  destruct (o_prox proxg yt (e * tau)) as [xt|]; [|reflexivity]. cbn [bind fst snd an_x].
  destruct (Hf xt) as [fv Hfv], (Hg xt) as [gv Hgv].
  destruct show, (logged niter i); try rewrite Hfv; cbn [bind]; try rewrite Hgv; cbn [bind]; (eexists; split; [reflexivity|]); cbn [fst snd]; (split; [|reflexivity]); unfold same; cbn; rewrite E5; auto.
Qed.
Lemma same_loop n : forall i s t, same s t ->
  match for_loop (ans_body show niter pinv proxf proxg l tau epsr nh false None) n i s with
  | Ok r => exists r', for_loop (an_body pinv proxf proxg l tau epsr nh false None) n i t = Ok r' /\ same (fst r) (fst r')
  | Err e => for_loop (an_body pinv proxf proxg l tau epsr nh false None) n i t = Err e
  end.
Proof.
  induction n as [|n IH]; intros i s t H; cbn [for_loop]; [eexists; split; [reflexivity|exact H]|].
  pose proof (same_body i s t H) as HB. destruct (ans_body _ _ _ _ _ _ _ _ _ _ _ i s) as [[s' b]|e]; cbn [bind fst snd] in *.
  - destruct HB as [[t' b'] [-> [H1 H2]]]. cbn [bind fst snd] in *. subst b'. destruct b; [eexists; split; [reflexivity|exact H1]|]. apply IH; auto.
  - rewrite HB. reflexivity.
Qed.
End Same.

(*! C56_show : show=True does not change the result, the callbacks or an exception when a tolerance is given, or when safeguard=False and f and g can be
   evaluated; arbitrary operators and arguments *)
Lemma C56_show_l : forall (E : IPS) show pinv (proxf proxg : Op E) x0 epsg tau niter nhistory epsr safeguard tol,
  (tol <> None \/ (safeguard = false /\ (forall x, exists v, get_val proxf x = Ok v) /\ (forall x, exists v, get_val proxg x = Ok v))) ->
  AndersonShow show pinv proxf proxg x0 epsg tau niter nhistory epsr safeguard tol = AndersonProximalGradient pinv proxf proxg x0 epsg tau niter nhistory epsr safeguard tol.
Proof.
  intros E show pinv proxf proxg x0 epsg tau niter nh epsr sg tol H. unfold AndersonShow, AndersonProximalGradient.
  destruct (pg_epsg epsg niter) as [l|]; [|reflexivity]. cbn [bind]. destruct (an_init proxf proxg l tau x0) as [s0|]; [|reflexivity]. cbn [bind].
  destruct tol as [t|].
  - assert (Hb : forall i s, ans_body show niter pinv proxf proxg l tau epsr nh sg (Some t) i s = an_body pinv proxf proxg l tau epsr nh sg (Some t) i s).
    { intros i s. unfold ans_body. destruct (an_body _ _ _ _ _ _ _ _ _ _ _) as [r|]; [|reflexivity]. cbn [bind]. destruct show, (logged niter i); reflexivity. }
    assert (HL : forall n i s, for_loop (ans_body show niter pinv proxf proxg l tau epsr nh sg (Some t)) n i s = for_loop (an_body pinv proxf proxg l tau epsr nh sg (Some t)) n i s).
    { induction n as [|n IH]; intros i s; [reflexivity|]. cbn [for_loop]. rewrite Hb. destruct (an_body _ _ _ _ _ _ _ _ _ _ _) as [[s' b]|]; [|reflexivity]. cbn [bind fst snd]. destruct b; [reflexivity|apply IH]. }
    rewrite HL. reflexivity.
  - destruct H as [H|[-> [Hf Hg]]]; [congruence|].
    pose proof (same_loop show niter pinv proxf proxg l tau epsr nh Hf Hg niter 0%nat s0 s0 ltac:(unfold same; auto)) as HS.
    destruct (for_loop (ans_body _ _ _ _ _ _ _ _ _ _ _) _ _ _) as [[s k]|]; cbn [bind fst].
    + destruct HS as [[s' k'] [-> [E1 [_ [_ [_ E5]]]]]]. cbn [bind fst]. cbn [fst] in E1, E5. rewrite E1, E5. reflexivity.
    + rewrite HS. reflexivity.
Qed.

(** One safeguarded iteration on the real line with two stored residuals. *)
Lemma an_alpha2 pinv epsr (u v : R) : pinv_ok 2 pinv -> 0 < epsr -> u <> v -> u <> 0 -> an_alpha (E:=R_IPS) pinv epsr 2 [u; v] = Ok [v / (v - u); - u / (v - u)].
Proof.
  intros HP Hr Hn H0. destruct (alpha_best (E:=R_IPS) pinv 2 epsr [u; v] HP ltac:(cbn; lia) Hr) as [al [E1 B1]]; [exists u; split; [left; auto|exact H0]|].
  change (length [u; v]) with 2%nat in E1. rewrite E1. f_equal. apply best2; auto.
Qed.
Lemma comb2 (a b u v : R) : comb (E:=R_IPS) [u; v] [a; b] = Ok (a * u + b * v).
Proof. unfold comb. cbn. f_equal. ring. Qed.

(*! C56_show_refuted : with safeguard=True and no tolerance, asking for the log changes the result: on the problem of C56_safeguard_refuted (two iterations)
   the call returns -199/10 with show=False and -2.7525 with show=True *)
Lemma C56_show_refuted_l : forall pinv epsr, pinv_ok 2 pinv -> 0 < epsr ->
  (exists x1, AndersonShow false pinv (op1 sg_f sg_df) zero1 (1 / 10 : R_IPS) [1] (1 / 2) 2 2 epsr true None = Ok (- 199 / 10, [x1; - 199 / 10])) /\
  AndersonShow true pinv (op1 sg_f sg_df) zero1 (1 / 10 : R_IPS) [1] (1 / 2) 2 2 epsr true None = Ok (- 27525 / 10000, [- 185 / 100; - 27525 / 10000]).
Proof.
  intros pinv epsr HP Hr. split.
  - destruct C56_safeguard_refuted_l as (_ & _ & _ & H). destruct (H pinv epsr HP Hr) as [x1 Hx]. exists x1. rewrite <- Hx.
    unfold AndersonShow, AndersonProximalGradient. destruct (pg_epsg [1] 2) as [l|]; [|reflexivity]. cbn [bind]. destruct (an_init _ _ _ _ _) as [s0|]; [|reflexivity]. cbn [bind].
    assert (Hb : forall i s, ans_body false 2 pinv (op1 sg_f sg_df) zero1 l (1 / 2) epsr 2 true None i s = an_body pinv (op1 sg_f sg_df) zero1 l (1 / 2) epsr 2 true None i s).
    { intros i s. unfold ans_body. destruct (an_body _ _ _ _ _ _ _ _ _ _ _) as [r|]; reflexivity. }
    cbn [for_loop]. rewrite !Hb. destruct (an_body _ _ _ _ _ _ _ _ _ 0 _) as [[s b]|]; [|reflexivity]. cbn [bind fst snd]. destruct b; [reflexivity|].
    rewrite !Hb. reflexivity.
  - destruct (sg_hi 11 (1 / 10)) as [F0 D0]; [unfold sg_u; lra|lra|]. destruct (sg_hi 10 (- 9 / 10)) as [F1 D1]; [unfold sg_u; lra|lra|]. destruct (sg_hi (905 / 100) (- 185 / 100)) as [F2 D2]; [unfold sg_u; lra|lra|].
    destruct (sg_hi (252 / 10) (143 / 10)) as [F3 _]; [unfold sg_u; lra|lra|]. destruct (sg_lo (- 9) (- 199 / 10)) as [F4 _]; [unfold sg_u; lra|lra|].
    assert (P0 : (1 / 10 : R_IPS) [-] (1 / 2) [*] (1 + (11 - 1) / 10 : R_IPS) = - 9 / 10) by (cbn; lra).
    assert (P3 : (- 9 / 10 : R_IPS) [-] (1 / 10) = - 1) by (cbn; lra).
    assert (P1 : (- 9 / 10 : R_IPS) [-] (1 / 2) [*] (1 + (10 - 1) / 10 : R_IPS) = - 185 / 100) by (cbn; lra).
    assert (P2 : (- 185 / 100 : R_IPS) [-] (- 9 / 10) = - 95 / 100) by (cbn; lra).
    assert (P1' : (- 185 / 100 : R_IPS) [-] (1 / 2) [*] (1 + (905 / 100 - 1) / 10 : R_IPS) = - 27525 / 10000) by (cbn; lra).
    assert (P2' : (- 27525 / 10000 : R_IPS) [-] (- 185 / 100) = - 9025 / 10000) by (cbn; lra).
    assert (N1 : norm2 (1 + (10 - 1) / 10 : R_IPS) = 361 / 100) by (unfold norm2; cbn; field).
    assert (N2 : norm2 (1 + (905 / 100 - 1) / 10 : R_IPS) = 3258025 / 1000000) by (unfold norm2; cbn; field).
    assert (S0 : an_init (op1 sg_f sg_df) zero1 (repeat 1 2) (1 / 2) (1 / 10 : R_IPS) = Ok (AN (- 9 / 10 : R_IPS) (- 9 / 10) [- 9 / 10] [- 1] (1 / 2 + (10 - 1) + (10 - 1) * (10 - 1) / 20) None [])).
    { unfold an_init, get_grad, get_val. cbn [op1 o_grad o_call zero1 o_prox bind repeat getitem nth_error as_num]. rewrite D0, P0, F1, P3. reflexivity. }
    assert (S1 : ans_body true 2 pinv (op1 sg_f sg_df) zero1 (repeat 1 2) (1 / 2) epsr 2 true None 0 (AN (- 9 / 10 : R_IPS) (- 9 / 10) [- 9 / 10] [- 1] (1 / 2 + (10 - 1) + (10 - 1) * (10 - 1) / 20) None []) =
      Ok (AN (- 185 / 100 : R_IPS) (- 185 / 100) [- 95 / 100; - 9 / 10] [- 185 / 100; - 1] (1 / 2 + (905 / 100 - 1) + (905 / 100 - 1) * (905 / 100 - 1) / 20) (Some (1 / 2 + (905 / 100 - 1) + (905 / 100 - 1) * (905 / 100 - 1) / 20 + 1 * 0)) [- 185 / 100], false)).
    { unfold ans_body, an_body, get_grad, get_val. cbn [op1 o_grad o_call zero1 o_prox bind repeat getitem nth_error as_num an_x an_y an_R an_G an_pf an_pfg an_tr Nat.leb Nat.add Nat.min].
      rewrite D1, P1, P2. rewrite an_alpha2 by (auto; lra). cbn [bind]. rewrite comb2. cbn [bind].
      match goal with |- context [Rleb (sg_f ?w) _] => assert (Hw : w = 143 / 10) by field; rewrite Hw end. rewrite F3, N1.
      match goal with |- context [Rleb ?a ?b] => destruct (Rleb_spec a b) as [[Hle _]|[_ ->]]; [exfalso; lra|] end. cbn [bind fst snd logged Nat.ltb Nat.leb orb an_x an_y an_R an_G an_tr app]. rewrite F2. reflexivity. }
    assert (S2 : exists pf pfg Rs Gs, ans_body true 2 pinv (op1 sg_f sg_df) zero1 (repeat 1 2) (1 / 2) epsr 2 true None 1
       (AN (- 185 / 100 : R_IPS) (- 185 / 100) [- 95 / 100; - 9 / 10] [- 185 / 100; - 1] (1 / 2 + (905 / 100 - 1) + (905 / 100 - 1) * (905 / 100 - 1) / 20) (Some (1 / 2 + (905 / 100 - 1) + (905 / 100 - 1) * (905 / 100 - 1) / 20 + 1 * 0)) [- 185 / 100]) =
      Ok (AN (- 27525 / 10000 : R_IPS) (- 27525 / 10000) Rs Gs pf pfg [- 185 / 100; - 27525 / 10000], false)).
    { unfold ans_body, an_body, get_grad, get_val. cbn [op1 o_grad o_call zero1 o_prox bind repeat getitem nth_error as_num an_x an_y an_R an_G an_pf an_pfg an_tr Nat.leb Nat.add Nat.min removelast].
      rewrite D2, P1', P2'. rewrite an_alpha2 by (auto; lra). cbn [bind]. rewrite comb2. cbn [bind].
      match goal with |- context [Rleb (sg_f ?w) _] => assert (Hw : w = - 199 / 10) by field; rewrite Hw end. rewrite F4, N2.
      match goal with |- context [Rleb ?a ?b] => destruct (Rleb_spec a b) as [[Hle _]|[_ ->]]; [exfalso; lra|] end. cbn [bind fst snd logged Nat.ltb Nat.leb orb an_x an_y an_R an_G an_tr app].
      do 4 eexists. reflexivity. }
    unfold AndersonShow. change (pg_epsg [1] 2) with (Ok (repeat 1 2) : result (list R)). cbn [bind]. rewrite S0. cbn [bind for_loop]. rewrite S1. cbn [bind fst snd].
    destruct S2 as (pf & pfg & Rs & Gs & ->). reflexivity.
Qed.
