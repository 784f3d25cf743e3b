(** * Changing the units: c f(a x + b) in place of f, and the order of the functions (M_PG.v, M_Split.v, M_Multi.v, M_PD.v) *)
From Coq Require Import String Psatz Permutation.
From Verif Require Import Base Space Spec ConvexFacts Smooth VSum M_ProxOp SpecOps P_ProxOp M_Norms P_Norms M_Loop LoopFacts SeqFacts M_PG M_Split M_PD M_Multi P_PG P_PG2 P_PG3 P_Iter P_Split2 P_PD2 S_Lasso S_PD2 S_Split2 P_L0 P_Resume P_Equiv.
From Verif Require Export S_Units.
Open Scope result_scope.
Open Scope R_scope.

(*! C88_algebra : c * f.precomposition(a, b) behaves as c f(a x + b), whatever operator f is; so does f.precomposition(a, b) with c = 1, and c * f with a = 1, b = 0 *)
Lemma C88_algebra_l : forall (E : IPS) (f : Op E) c a b k k', 0 < c -> a <> 0 ->
  units c a b f (obj (S k) (post_body (obj (S k') (pre_body f a b)) c)) /\ units 1 a b f (obj (S k) (pre_body f a b)) /\ units c 1 vzero f (obj (S k) (post_body f c)).
Proof.
  intros E f c a b k k' Hc Ha. assert (Ha2 : 0 < a ^ 2) by (cbn; rewrite Rmult_1_r; apply Rsqr_pos_lt; exact Ha). repeat split; intros x.
  - intros t Ht. cbn [obj o_prox d_prox b_prox post_body pre_body]. unfold check_tau. destruct (Rleb_spec t 0) as [[? _]|[_ ->]]; [lra|].
    destruct (Rleb_spec (c * t) 0) as [[Z _]|[_ ->]]; [assert (0 < c * t) by (apply Rmult_lt_0_compat; lra); lra|]. replace (a ^ 2 * (c * t)) with (c * a ^ 2 * t) by ring. reflexivity.
  - unfold get_grad. cbn [obj o_grad d_grad b_grad post_body pre_body]. destruct (o_grad f _) as [[g|]|]; cbn [bind]; try reflexivity. f_equal. vring.
  - unfold get_val. cbn [obj o_call d_call b_call post_body pre_body]. destruct (o_call f _); reflexivity.
  - intros t Ht. cbn [obj o_prox d_prox b_prox post_body pre_body]. unfold check_tau. destruct (Rleb_spec t 0) as [[? _]|[_ ->]]; [lra|]. replace (1 * a ^ 2 * t) with (a ^ 2 * t) by ring. reflexivity.
  - unfold get_grad. cbn [obj o_grad d_grad b_grad post_body pre_body]. destruct (o_grad f _) as [[g|]|]; cbn [bind]; try reflexivity. f_equal. vring.
  - unfold get_val. cbn [obj o_call d_call b_call post_body pre_body]. destruct (o_call f _); cbn [bind]; [|reflexivity]. f_equal. ring.
  - intros t Ht. cbn [obj o_prox d_prox b_prox post_body pre_body]. unfold check_tau. destruct (Rleb_spec t 0) as [[? _]|[_ ->]]; [lra|]. replace (c * 1 ^ 2 * t) with (c * t) by ring. replace (1 [*] x [+] vzero) with x by vring.
    destruct (o_prox f x (c * t)); cbn [bind]; [|reflexivity]. f_equal. vext w. field.
  - unfold get_grad. cbn [obj o_grad d_grad b_grad post_body pre_body]. replace (1 [*] x [+] vzero) with x by vring. destruct (o_grad f _) as [[g|]|]; cbn [bind]; try reflexivity. f_equal. vring.
  - unfold get_val. cbn [obj o_call d_call b_call post_body pre_body]. replace (1 [*] x [+] vzero) with x by vring. destruct (o_call f _); reflexivity.
Qed.

(** the same outcome, seen in the units of x *)
Lemma rel_stop_scale z tol c pf old : c <> 0 -> rel_stop z tol (c * pf) (option_map (Rmult c) old) = rel_stop z tol pf old.
Proof.
  intro Hc. unfold rel_stop. destruct old as [o|]; cbn [option_map]; [|reflexivity]. destruct (Reqb_spec o 0) as [[-> ->]|[Ho ->]].
  - replace (c * 0) with 0 by ring. destruct (Reqb_spec 0 0) as [[_ ->]|[? _]]; [reflexivity|lra].
  - destruct (Reqb_spec (c * o) 0) as [[Z _]|[_ ->]]; [apply Rmult_integral in Z; lra|]. replace (c * pf / (c * o)) with (pf / o) by (field; auto). reflexivity.
Qed.
Lemma fwd_back {E : IPS} a (b x : E) : a <> 0 -> fwd a b (back a b x) = x.
Proof. intro Ha. unfold fwd, back. vext w. field. exact Ha. Qed.
Lemma back_fwd {E : IPS} a (b x : E) : a <> 0 -> back a b (fwd a b x) = x.
Proof. intro Ha. unfold fwd, back. vext w. field. exact Ha. Qed.

Lemma map_repeat' {A D} (f : A -> D) x n : map f (repeat x n) = repeat (f x) n.
Proof. induction n as [|n IH]; [reflexivity|]. cbn [repeat map]. rewrite IH. reflexivity. Qed.

Section U.
Context {E : IPS} (c a : R) (b : E) (Hc : 0 < c) (Ha : a <> 0).
Let T := fwd a b.
Let B := back a b.
Let Ha2 : 0 < a ^ 2.
Proof. cbn. rewrite Rmult_1_r. apply Rsqr_pos_lt. exact Ha. Qed.
Let Hca : 0 < c * a ^ 2.
Proof. apply Rmult_lt_0_compat; assumption. Qed.

Lemma u_pp (f f' : Op E) x0 tau n tol : units c a b f f' -> 0 < tau -> ProximalPoint f' x0 tau n tol = (r <- ProximalPoint f (T x0) (c * a ^ 2 * tau) n tol ;; Ok (B (fst r), map B (snd r))).
Proof.
  intros (Hp & _ & Hv) Ht. unfold ProximalPoint.
  set (Q := fun s t : pp_state E => T (pp_x s) = pp_x t /\ pp_tr s = map B (pp_tr t) /\ pp_pf s = option_map (Rmult c) (pp_pf t)).
  pose proof (sim (pp_body f' tau tol) (pp_body f (c * a ^ 2 * tau) tol) Q n (PP x0 None []) (PP (T x0) None [])) as G.
  match type of G with ?A -> _ => assert (Hb : A) end.
  { intros j s t _ (Q1 & Q2 & Q3). unfold pp_body. rewrite Hp by exact Ht. fold (fwd a b (pp_x s)). change (fwd a b (pp_x s)) with (T (pp_x s)). rewrite Q1. stp p. fold (back a b p). change (back a b p) with (B p). destruct tol as [tol|].
    - rewrite Hv. fold (fwd a b (B p)). unfold B. rewrite fwd_back by exact Ha. fold B. stp v. rewrite Q3, rel_stop_scale by lra. stp st. split; [reflexivity|]. unfold Q. cbn [pp_x pp_tr pp_pf option_map]. unfold T, B. rewrite fwd_back by exact Ha. rewrite Q2, map_app. repeat split.
    - apply agree_ok. unfold Q. cbn [pp_x pp_tr pp_pf option_map]. unfold T, B. rewrite fwd_back by exact Ha. rewrite Q2, map_app. repeat split. exact Q3. }
  specialize (G Hb ltac:(unfold Q; cbn; auto)). fin G. destruct G as (Q1 & Q2 & _). rewrite Q2, <- Q1. unfold T, B. rewrite back_fwd by exact Ha. reflexivity.
Qed.

Lemma u_dr (f f' g g' : Op E) x0 tau eta n gfirst : units c a b f f' -> units c a b g g' -> 0 < tau ->
  DouglasRachford f' g' x0 tau eta n gfirst = (r <- DouglasRachford f g (T x0) (c * a ^ 2 * tau) eta n gfirst ;; Ok (B (fst (fst r)), B (snd (fst r)), map (fun p => (B (fst p), B (snd p))) (snd r))).
Proof.
  assert (G : forall f f' g g', units c a b f f' -> units c a b g g' -> 0 < tau -> DouglasRachford f' g' x0 tau eta n false = (r <- DouglasRachford f g (T x0) (c * a ^ 2 * tau) eta n false ;; Ok (B (fst (fst r)), B (snd (fst r)), map (fun p => (B (fst p), B (snd p))) (snd r)))).
  { clear - Hc Ha. intros f f' g g' (Hf & _) (Hg & _) Ht. unfold DouglasRachford.
    set (Q := fun s t : dr_state E => T (d_y s) = d_y t /\ d_tr s = map (fun p => (B (fst p), B (snd p))) (d_tr t) /\ d_x s = option_map B (d_x t)).
    pose proof (sim (dr_body f' g' tau eta false) (dr_body f g (c * a ^ 2 * tau) eta false) Q n (DR None x0 []) (DR None (T x0) [])) as G.
    match type of G with ?A -> _ => assert (Hb : A) end.
    { intros j s t _ (Q1 & Q2 & Q3). unfold dr_body. rewrite Hf by exact Ht. change (a [*] d_y s [+] b) with (T (d_y s)). rewrite Q1. stp x. rewrite Hg by exact Ht.
      replace (a [*] (2 [*] (/ a [*] (x [-] b)) [-] d_y s) [+] b) with (2 [*] x [-] d_y t) by (rewrite <- Q1; unfold T, fwd; vext w; field; exact Ha). stp p. apply agree_ok. unfold Q. cbn [d_x d_y d_tr option_map].
      assert (Hy : T (d_y s [+] eta [*] (/ a [*] (p [-] b) [-] / a [*] (x [-] b))) = d_y t [+] eta [*] (p [-] x)) by (rewrite <- Q1; unfold T, fwd; vext w; field; exact Ha).
      rewrite Hy, Q2, map_app. cbn [map fst snd]. repeat split. do 4 f_equal. rewrite <- Hy. unfold B, T. rewrite back_fwd by exact Ha. reflexivity. }
    specialize (G Hb ltac:(unfold Q; cbn; auto)). fin G. destruct G as (Q1 & Q2 & Q3). rewrite Q3, Q2, <- Q1. match type of Q3 with _ = option_map B ?r => destruct r end; cbn [option_map bind fst snd]; [|reflexivity]. unfold B, T. rewrite back_fwd by exact Ha. reflexivity. }
  intros Hf Hg Ht. destruct gfirst; [|apply G; assumption]. exact (G g g' f f' Hg Hf Ht).
Qed.

Lemma u_admm (f f' g g' : Op E) x0 z0 tau n gfirst : units c a b f f' -> units c a b g g' -> 0 < tau ->
  ADMM f' g' x0 tau n z0 gfirst = (r <- ADMM f g (option_map T x0) (c * a ^ 2 * tau) n (option_map T z0) gfirst ;; Ok (B (fst (fst r)), B (snd (fst r)), map (fun p => (B (fst p), B (snd p))) (snd r))).
Proof.
  assert (G : forall f f' g g' x0 z0, units c a b f f' -> units c a b g g' -> 0 < tau ->
    ADMM f' g' x0 tau n z0 false = (r <- ADMM f g (option_map T x0) (c * a ^ 2 * tau) n (option_map T z0) false ;; Ok (B (fst (fst r)), B (snd (fst r)), map (fun p => (B (fst p), B (snd p))) (snd r)))).
  { clear - Hc Ha. intros f f' g g' x0 z0 (Hf & _) (Hg & _) Ht. unfold ADMM.
    assert (Hi : x0z0_init (option_map T x0) (option_map T z0) = (p <- x0z0_init x0 z0 ;; Ok (T (fst p), T (snd p)))) by (destruct x0, z0; reflexivity). rewrite Hi. clear Hi. destruct (x0z0_init x0 z0) as [[x z]|]; cbn [bind fst snd]; [|reflexivity].
    set (Q := fun s t : admm_state E => T (a_x s) = a_x t /\ T (a_z s) = a_z t /\ a [*] a_u s = a_u t /\ a_tr s = map (fun p => (B (fst p), B (snd p))) (a_tr t)).
    pose proof (sim (admm_body f' g' tau false) (admm_body f g (c * a ^ 2 * tau) false) Q n (AD x z vzero []) (AD (T x) (T z) vzero [])) as G.
    match type of G with ?A -> _ => assert (Hb : A) end.
    { intros j s t _ (Q1 & Q2 & Q3 & Q4). unfold admm_body. rewrite Hf by exact Ht. replace (a [*] (a_z s [-] a_u s) [+] b) with (a_z t [-] a_u t) by (rewrite <- Q2, <- Q3; unfold T, fwd; vring). stp x'. rewrite Hg by exact Ht.
      replace (a [*] (/ a [*] (x' [-] b) [+] a_u s) [+] b) with (x' [+] a_u t) by (rewrite <- Q3; vext w; field; exact Ha). stp z'. apply agree_ok. unfold Q. cbn [a_x a_z a_u a_tr]. change (/ a [*] (x' [-] b)) with (B x'). change (/ a [*] (z' [-] b)) with (B z').
      rewrite Q4, map_app. unfold T, B. rewrite !fwd_back by exact Ha. repeat split. rewrite <- Q3. unfold back. vext w. field. exact Ha. }
    specialize (G Hb ltac:(unfold Q; cbn [a_x a_z a_u a_tr]; repeat split; vring)). fin G. destruct G as (Q1 & Q2 & _ & Q4). rewrite Q4, <- Q1, <- Q2. unfold T, B. rewrite !back_fwd by exact Ha. reflexivity. }
  intros Hf Hg Ht. destruct gfirst; [|apply G; assumption].
  rewrite (proj2 (proj2 (C87_order_l E f' g' n))), (proj2 (proj2 (C87_order_l E f g n))). rewrite (G g g' f f' z0 x0 Hg Hf Ht).
  destruct (ADMM g f _ _ n _ false); cbn [bind fst snd]; [|reflexivity]. rewrite !map_map. reflexivity.
Qed.

Lemma u_hqs (f f' g g' : Op E) x0 z0 taus n gfirst : units c a b f f' -> units c a b g g' -> Forall (fun t => 0 < t) taus ->
  HQS f' g' x0 taus n z0 gfirst = (r <- HQS f g (option_map T x0) (map (Rmult (c * a ^ 2)) taus) n (option_map T z0) gfirst ;; Ok (B (fst (fst r)), B (snd (fst r)), map (fun p => (B (fst p), B (snd p))) (snd r))).
Proof.
  assert (G : forall f f' g g' x0 z0, units c a b f f' -> units c a b g g' -> Forall (fun t => 0 < t) taus ->
    HQS f' g' x0 taus n z0 false = (r <- HQS f g (option_map T x0) (map (Rmult (c * a ^ 2)) taus) n (option_map T z0) false ;; Ok (B (fst (fst r)), B (snd (fst r)), map (fun p => (B (fst p), B (snd p))) (snd r)))).
  { clear - Hc Ha. intros f f' g g' x0 z0 (Hf & _) (Hg & _) Ht. unfold HQS.
    assert (Hi : x0z0_init (option_map T x0) (option_map T z0) = (p <- x0z0_init x0 z0 ;; Ok (T (fst p), T (snd p)))) by (destruct x0, z0; reflexivity). rewrite Hi. clear Hi. destruct (x0z0_init x0 z0) as [[x z]|]; cbn [bind fst snd]; [|reflexivity].
    assert (Hl : hqs_taus (map (Rmult (c * a ^ 2)) taus) n = map (Rmult (c * a ^ 2)) (hqs_taus taus n) /\ Forall (fun t => 0 < t) (hqs_taus taus n)).
    { unfold hqs_taus. destruct taus as [|t [|t' l]]; [split; auto| |split; auto]. cbn [map]. split; [rewrite map_repeat'|]; [reflexivity|]. inversion Ht; subst. apply Forall_forall. intros y Hy. apply repeat_spec in Hy. subst. assumption. }
    destruct Hl as [Hl Hpos]. rewrite Hl. set (l := hqs_taus taus n) in *.
    set (Q := fun s t : hqs_state E => T (h_x s) = h_x t /\ T (h_z s) = h_z t /\ h_tr s = map (fun p => (B (fst p), B (snd p))) (h_tr t)).
    pose proof (sim (hqs_body f' g' l false) (hqs_body f g (map (Rmult (c * a ^ 2)) l) false) Q n (HQ x z []) (HQ (T x) (T z) [])) as G.
    match type of G with ?A -> _ => assert (Hb : A) end.
    { intros j s t _ (Q1 & Q2 & Q4). unfold hqs_body, getitem. rewrite nth_error_map. destruct (nth_error l j) as [tau|] eqn:En; cbn [option_map bind]; [|reflexivity]. apply nth_error_In in En. rewrite Forall_forall in Hpos. specialize (Hpos _ En).
      rewrite Hf by exact Hpos. change (a [*] h_z s [+] b) with (T (h_z s)). rewrite Q2. stp x'. rewrite Hg by exact Hpos. change (/ a [*] (x' [-] b)) with (B x'). change (a [*] B x' [+] b) with (T (B x')). unfold T at 1, B at 1. rewrite fwd_back by exact Ha. stp z'.
      apply agree_ok. unfold Q. cbn [h_x h_z h_tr]. change (/ a [*] (z' [-] b)) with (B z'). rewrite Q4, map_app. unfold T, B. rewrite !fwd_back by exact Ha. repeat split. }
    specialize (G Hb ltac:(unfold Q; cbn [h_x h_z h_tr]; repeat split)). fin G. destruct G as (Q1 & Q2 & Q4). rewrite Q4, <- Q1, <- Q2. unfold T, B. rewrite !back_fwd by exact Ha. reflexivity. }
  intros Hf Hg Ht. destruct gfirst; [|apply G; assumption].
  rewrite (proj1 (proj2 (C87_order_l E f' g' n))), (proj1 (proj2 (C87_order_l E f g n))). rewrite (G g g' f f' z0 x0 Hg Hf Ht).
  destruct (HQS g f _ _ n _ false); cbn [bind fst snd]; [|reflexivity]. rewrite !map_map. reflexivity.
Qed.

Lemma T_sub (x y : E) : T x [-] T y = a [*] (x [-] y).
Proof. unfold T, fwd. vring. Qed.
Lemma T_step (x g : E) t : T (x [-] t [*] ((c * a) [*] g)) = T x [-] (c * a ^ 2 * t) [*] g.
Proof. unfold T, fwd. vext w. ring. Qed.
Lemma u_bt (f f' g g' : Op E) x eps beta : units c a b f f' -> units c a b g g' -> 0 < eps -> 0 < beta -> forall n tau z, 0 < tau ->
  bt_loop x f' g' eps beta n tau z = (r <- bt_loop (T x) f g eps beta n (c * a ^ 2 * tau) (option_map T z) ;; Ok (B (fst r), / (c * a ^ 2) * snd r)).
Proof.
  intros (Hf & Hfg & Hfv) (Hg & _) He Hbe. induction n as [|n IH]; intros tau z Ht; cbn [bt_loop].
  - destruct z as [z|]; cbn [option_map bind fst snd]; [|reflexivity]. unfold B, T. rewrite back_fwd by exact Ha. do 2 f_equal. field. split; [exact Ha|lra].
  - rewrite Hfg. change (a [*] x [+] b) with (T x). destruct (get_grad f (T x)) as [gr|] eqn:Eg; cbn [bind]; [|reflexivity]. rewrite Hg by (apply Rmult_lt_0_compat; assumption). change (a [*] (x [-] tau [*] ((c * a) [*] gr)) [+] b) with (T (x [-] tau [*] ((c * a) [*] gr))). rewrite T_step.
    replace (eps * (c * a ^ 2 * tau)) with (c * a ^ 2 * (eps * tau)) by ring. destruct (o_prox g _ _) as [p|]; cbn [bind]; [|reflexivity]. change (/ a [*] (p [-] b)) with (B p).
    unfold ftilde. rewrite !Hfv, Hfg. change (a [*] x [+] b) with (T x). change (a [*] B p [+] b) with (T (B p)). assert (HT : T (B p) = p) by (apply fwd_back; exact Ha). rewrite HT, Eg. destruct (get_val f (T x)) as [fx|]; cbn [bind]; [|reflexivity].
    destruct (get_val f p) as [fp|]; cbn [bind]; [|reflexivity].
    assert (Hft : c * fx + << (c * a) [*] gr, B p [-] x >> + 1 / (2 * tau) * norm2 (B p [-] x) = c * (fx + << gr, p [-] T x >> + 1 / (2 * (c * a ^ 2 * tau)) * norm2 (p [-] T x))).
    { assert (Hd : p [-] T x = a [*] (B p [-] x)) by (rewrite <- T_sub, HT; reflexivity). rewrite Hd. generalize (B p [-] x). intro d. unfold norm2. iexp. field. repeat split; lra. }
    rewrite Hft. destruct (Rleb_spec fp (fx + << gr, p [-] T x >> + 1 / (2 * (c * a ^ 2 * tau)) * norm2 (p [-] T x))) as [[L ->]|[L ->]].
    + destruct (Rleb_spec (c * fp) (c * (fx + << gr, p [-] T x >> + 1 / (2 * (c * a ^ 2 * tau)) * norm2 (p [-] T x)))) as [[_ ->]|[L' _]]; [|exfalso; apply Rmult_le_compat_l with (r := c) in L; lra].
      cbn [bind fst snd]. do 2 f_equal. field. split; [exact Ha|lra].
    + destruct (Rleb_spec (c * fp) (c * (fx + << gr, p [-] T x >> + 1 / (2 * (c * a ^ 2 * tau)) * norm2 (p [-] T x)))) as [[L' _]|[_ ->]]; [exfalso; apply Rmult_lt_compat_l with (r := c) in L; lra|].
      rewrite IH by (apply Rmult_lt_0_compat; assumption). cbn [option_map]. rewrite HT. replace (c * a ^ 2 * (tau * beta)) with (c * a ^ 2 * tau * beta) by ring. reflexivity.
Qed.
Lemma bt_pos (f g : Op E) x eps beta : 0 < beta -> forall n tau z r, 0 < tau -> bt_loop x f g eps beta n tau z = Ok r -> 0 < snd r.
Proof.
  intro Hbe. induction n as [|n IH]; intros tau z r Ht H; cbn [bt_loop] in H; [destruct z; [injection H as <-; exact Ht|discriminate]|]. nobreak H; [injection H as <-; exact Ht|]. eapply IH; [|exact H]. apply Rmult_lt_0_compat; assumption.
Qed.
Lemma u_pg (f f' g g' : Op E) x0 epsg tau bt beta eta n nb accel tol : units c a b f f' -> units c a b g g' -> Forall (fun e => 0 < e) epsg -> 0 < tau -> 0 < beta ->
  ProximalGradient f' g' x0 epsg (Some tau) bt beta eta n nb accel tol = (r <- ProximalGradient f g (T x0) epsg (Some (c * a ^ 2 * tau)) bt beta eta n nb accel tol ;; Ok (B (fst r), map B (snd r))).
Proof.
  intros Uf Ug He Ht Hbe. pose proof Uf as (Hf & Hfg & Hfv). pose proof Ug as (Hg & Hgg & Hgv). unfold ProximalGradient.
  destruct (pg_epsg epsg n) as [eps|] eqn:Ee; cbn [bind]; [|reflexivity].
  assert (Hpos : forall e, In e eps -> 0 < e). { intros e Hi. rewrite Forall_forall in He. unfold pg_epsg in Ee. destruct epsg as [|e0 [|e1 l]]; try (injection Ee as <-; auto). destruct n as [|n]; [discriminate|]. injection Ee as <-. destruct Hi as [<-|Hi]; [apply He; left; reflexivity|]. apply repeat_spec in Hi. subst. apply He. left; reflexivity. }
  destruct (accel_known accel); [|reflexivity]. set (k := c * a ^ 2) in *. 
  set (Q := fun s t : pg_state E => T (pg_x s) = pg_x t /\ T (pg_y s) = pg_y t /\ pg_t s = pg_t t /\ k * pg_tau s = pg_tau t /\ 0 < pg_tau s /\ pg_pfg s = option_map (Rmult c) (pg_pfg t) /\ pg_tr s = map B (pg_tr t)).
  pose proof (sim (pg_body f' g' eps bt beta eta nb accel tol) (pg_body f g eps bt beta eta nb accel tol) Q n (PG x0 x0 1 tau None []) (PG (T x0) (T x0) 1 (k * tau) None [])) as G.
  match type of G with ?A -> _ => assert (Hb : A) end.
  { intros j s t _ (Q1 & Q2 & Q3 & Q4 & Q5 & Q6 & Q7). unfold pg_body. unfold getitem. destruct (nth_error eps j) as [e|] eqn:En; cbn [bind]; [|reflexivity]. apply nth_error_In in En. specialize (Hpos _ En).
    assert (Hr : forall (A : Type) x tau0 (K : E -> result A), 0 < tau0 -> (g0 <- get_grad f' x ;; p <- o_prox g' (x [-] tau0 [*] g0) (e * tau0) ;; K p) = (g0 <- get_grad f (T x) ;; p <- o_prox g (T x [-] (k * tau0) [*] g0) (e * (k * tau0)) ;; K (B p))).
    { intros A x tau0 K Ht0. rewrite Hfg. change (a [*] x [+] b) with (T x). destruct (get_grad f (T x)) as [gr|]; cbn [bind]; [|reflexivity]. rewrite Hg by (apply Rmult_lt_0_compat; assumption).
      change (a [*] (x [-] tau0 [*] ((c * a) [*] gr)) [+] b) with (T (x [-] tau0 [*] ((c * a) [*] gr))). rewrite T_step. fold k. replace (k * (e * tau0)) with (e * (k * tau0)) by ring. destruct (o_prox g _ _); reflexivity. }
    assert (Hs : pg_prox_step f' g' bt beta eta nb e (pg_x s) (pg_y s) (pg_tau s) = (r <- pg_prox_step f g bt beta eta nb e (pg_x t) (pg_y t) (pg_tau t) ;; Ok (B (fst r), / k * snd r))).
    { rewrite <- Q1, <- Q2, <- Q4. unfold pg_prox_step. 
      assert (Hrel : forall x tau0, 0 < tau0 -> (g0 <- get_grad f' x ;; p <- o_prox g' (x [-] tau0 [*] g0) (e * tau0) ;; Ok (x [+] eta [*] (p [-] x))) = (x' <- (g0 <- get_grad f (T x) ;; p <- o_prox g (T x [-] (k * tau0) [*] g0) (e * (k * tau0)) ;; Ok (T x [+] eta [*] (p [-] T x))) ;; Ok (B x'))).
      { intros x tau0 Ht0. rewrite Hr by exact Ht0. destruct (get_grad f (T x)); cbn [bind]; [|reflexivity]. destruct (o_prox g _ _) as [p|]; cbn [bind]; [|reflexivity]. f_equal. unfold B, back, T, fwd. vext w. field. exact Ha. }
      destruct bt.
      - unfold backtracking. rewrite (u_bt f f' g g' (pg_y s) e beta Uf Ug Hpos Hbe nb (pg_tau s) None Q5). fold k. cbn [option_map]. rewrite !bind_assoc.
        destruct (bt_loop (T (pg_y s)) f g e beta nb (k * pg_tau s) None) as [[z t1]|] eqn:Ebt; cbn [bind fst snd]; [|reflexivity]. assert (Ht1 : 0 < t1) by (apply (bt_pos f g _ _ _ Hbe _ _ _ _ (Rmult_lt_0_compat _ _ Hca Q5) Ebt)).
        destruct (Reqb eta 1); [reflexivity|]. assert (Hkt : k * (/ k * t1) = t1) by (field; apply Rgt_not_eq; exact Hca). rewrite (Hrel (B z) (/ k * t1)) by (apply Rmult_lt_0_compat; [apply Rinv_0_lt_compat; exact Hca|exact Ht1]). rewrite Hkt. assert (HTz : T (B z) = z) by (apply fwd_back; exact Ha). rewrite HTz.
        destruct (get_grad f z); cbn [bind fst snd]; [|reflexivity]. destruct (o_prox g _ _); reflexivity.
      - assert (Hkt : / k * (k * pg_tau s) = pg_tau s) by (field; apply Rgt_not_eq; exact Hca). destruct (Reqb eta 1).
        + rewrite Hr by exact Q5. destruct (get_grad f (T (pg_y s))); cbn [bind]; [|reflexivity]. destruct (o_prox g _ _) as [p|]; cbn [bind fst snd]; [|reflexivity]. rewrite Hkt. reflexivity.
        + rewrite (Hrel (pg_x s) (pg_tau s) Q5). destruct (get_grad f (T (pg_x s))); cbn [bind fst snd]; [|reflexivity]. destruct (o_prox g _ _); cbn [bind fst snd]; [|reflexivity]. rewrite Hkt. reflexivity. }
    rewrite Hs. rewrite !bind_assoc. destruct (pg_prox_step f g bt beta eta nb e (pg_x t) (pg_y t) (pg_tau t)) as [[xn tn]|] eqn:Est; cbn [bind fst snd]; [|reflexivity].
    assert (Htn : 0 < tn).
    { assert (0 < pg_tau t) by (rewrite <- Q4; apply Rmult_lt_0_compat; assumption). unfold pg_prox_step in Est. destruct bt.
      - unfold backtracking in Est. destruct (bt_loop _ f g e beta nb (pg_tau t) None) as [[z t1]|] eqn:Ebt; cbn [bind fst snd] in Est; [|discriminate]. apply bt_pos in Ebt; auto. cbn [snd] in Ebt. destruct (Reqb eta 1); [injection Est as _ <-; exact Ebt|]. nobreak Est. injection Est as _ <-. exact Ebt.
      - destruct (Reqb eta 1); nobreak Est; injection Est as _ <-; assumption. }
    assert (HTx : T (B xn) = xn) by (apply fwd_back; exact Ha).
    assert (Hy : forall om, T (B xn [+] om [*] (B xn [-] pg_x s)) = xn [+] om [*] (xn [-] pg_x t)) by (intro om; transitivity (T (B xn) [+] om [*] (T (B xn) [-] T (pg_x s))); [unfold T, fwd; vring|rewrite HTx, Q1; reflexivity]).
    assert (Hkn : k * (/ k * tn) = tn) by (field; apply Rgt_not_eq; exact Hca). assert (Hpn : 0 < / k * tn) by (apply Rmult_lt_0_compat; [apply Rinv_0_lt_compat; exact Hca|exact Htn]).
    rewrite Q3. destruct tol as [tol|].
    - rewrite Hfv, Hgv. change (a [*] B xn [+] b) with (T (B xn)). rewrite HTx. stp v1. stp v2. rewrite Q6. replace (c * v1 + e * (c * v2)) with (c * (v1 + e * v2)) by ring. rewrite rel_stop_scale by lra. stp st. split; [reflexivity|].
      unfold Q. cbn [pg_x pg_y pg_t pg_tau pg_pfg pg_tr option_map]. rewrite Hy, Q7, map_app. repeat split; auto.
    - apply agree_ok. unfold Q. cbn [pg_x pg_y pg_t pg_tau pg_pfg pg_tr option_map]. rewrite Hy, Q7, map_app. repeat split; auto. }
  specialize (G Hb ltac:(unfold Q; cbn [pg_x pg_y pg_t pg_tau pg_pfg pg_tr option_map]; repeat split; auto)). fin G. destruct G as (Q1 & _ & _ & _ & _ & _ & Q7). rewrite Q7, <- Q1. unfold T, B. rewrite back_fwd by exact Ha. reflexivity.
Qed.

Lemma u_prox_all (fs fs' : list (Op E)) : Forall2 (units c a b) fs fs' -> forall ys ts, Forall (fun t => 0 < t) ts -> prox_all fs' ys ts = (r <- prox_all fs (map T ys) (map (Rmult (c * a ^ 2)) ts) ;; Ok (map B r)).
Proof.
  induction 1 as [|f f' fs fs' (Hf & _) _ IH]; intros ys ts Ht; [reflexivity|]. destruct ys as [|y ys]; [reflexivity|]. destruct ts as [|t ts]; [reflexivity|]. cbn [prox_all map]. inversion_clear Ht. rewrite Hf by assumption. change (a [*] y [+] b) with (T y).
  destruct (o_prox f (T y) (c * a ^ 2 * t)); cbn [bind]; [|reflexivity]. rewrite IH by assumption. destruct (prox_all fs _ _); reflexivity.
Qed.
Lemma u_stack_all (fs fs' : list (Op E)) ys ts : Forall2 (units c a b) fs fs' -> Forall (fun t => 0 < t) ts -> stack_all fs' ys ts = (r <- stack_all fs (map T ys) (map (Rmult (c * a ^ 2)) ts) ;; Ok (map B r)).
Proof. intros H Ht. unfold stack_all. rewrite (u_prox_all fs fs' H ys ts Ht). destruct (prox_all fs _ _) as [[|p l]|]; reflexivity. Qed.
Lemma u_len (fs fs' : list (Op E)) : Forall2 (units c a b) fs fs' -> List.length fs' = List.length fs.
Proof. induction 1; cbn; congruence. Qed.
Lemma T_wsum w : forall l : list E, List.length l = List.length w -> wsum w (map T l) = a [*] wsum w l [+] Rsum w [*] b.
Proof.
  unfold wsum. induction w as [|w0 w IH]; intros [|x l] Hl; try discriminate; cbn [map2 map vsum fold_right Rsum]; [vring|]. fold (vsum (map2 vscal w (map T l))). fold (vsum (map2 vscal w l)). unfold vsum in IH |- *. rewrite IH by (cbn in Hl; lia). unfold T at 1, fwd. vring.
Qed.
Lemma T_vmean (l : list E) : l <> [] -> vmean (map T l) = T (vmean l).
Proof.
  intro Hl. unfold vmean. rewrite map_length. assert (Hs : forall l : list E, vsum (map T l) = a [*] vsum l [+] INR (List.length l) [*] b).
  { clear. induction l as [|x l IH]; [cbn; vring|]. cbn [map List.length]. rewrite S_INR. change (vsum (T x :: map T l)) with (T x [+] vsum (map T l)). change (vsum (x :: l)) with (x [+] vsum l). rewrite IH. unfold T at 1, fwd. vring. }
  rewrite Hs. assert (INR (List.length l) <> 0). { destruct l as [|x l]; [congruence|]. apply not_0_INR. discriminate. } unfold T, fwd. vext w. field. assumption.
Qed.
Lemma map_TB (l : list E) : map T (map B l) = l.
Proof. rewrite map_map. rewrite (map_ext _ (fun x => x)) by (intro x; apply fwd_back; exact Ha). apply map_id. Qed.
Lemma Rltb_scale k x y : 0 < k -> Rltb (k * x) (k * y) = Rltb x y.
Proof.
  intro Hk. destruct (Rltb_spec x y) as [[L ->]|[L ->]]; destruct (Rltb_spec (k * x) (k * y)) as [[L' ->]|[L' ->]]; try reflexivity; exfalso.
  - apply Rmult_lt_compat_l with (r := k) in L; lra.
  - apply Rmult_le_compat_l with (r := k) in L; lra.
Qed.
Lemma pydiv_pos tau w : 0 < tau -> Forall (fun w => 0 < w) w -> exists ts, mapM (pydiv tau) w = Ok ts /\ Forall (fun t => 0 < t) ts /\ mapM (pydiv (c * a ^ 2 * tau)) w = Ok (map (Rmult (c * a ^ 2)) ts) /\ List.length ts = List.length w.
Proof.
  intro Ht. induction 1 as [|w0 w Hw _ (ts & I1 & I2 & I3 & I4)]; [exists []; repeat split; constructor|]. exists (tau / w0 :: ts). cbn [mapM]. unfold pydiv at 1 3. destruct (Reqb_spec w0 0) as [[Z _]|[_ ->]]; [lra|]. cbn [bind]. rewrite I1, I3. cbn [bind map List.length]. repeat split; [|do 2 f_equal; field; lra|congruence].
  constructor; [|exact I2]. apply Rdiv_lt_0_compat; assumption.
Qed.
Lemma u_ppxa_w (fs fs' : list (Op E)) l tau eta w n amax tol : Forall2 (units c a b) fs fs' -> 0 < tau -> Forall (fun w => 0 < w) w -> Rsum w = 1 -> (forall k x, amax (k [*] x) = Rabs k * amax x) ->
  PPXA fs' (PerFun l) tau eta (Some w) n amax tol = (r <- PPXA fs (PerFun (map T l)) (c * a ^ 2 * tau) eta (Some w) n amax (option_map (Rmult (Rabs a)) tol) ;; Ok (B (fst r), map B (snd r))).
Proof.
  intros H Ht Hw Hs Hm. unfold PPXA. cbn [bind]. rewrite map_length, (u_len _ _ H). destruct (Nat.eqb_spec (List.length w) (List.length fs)) as [Ew|]; [|reflexivity]. destruct (Nat.eqb_spec (List.length l) (List.length fs)) as [El|]; [|reflexivity]. cbn [andb negb].
  destruct (pydiv_pos tau w Ht Hw) as (ts & I1 & I2 & I3 & I4).
  assert (Hl : l <> []). { intro Z. subst l. cbn in El. destruct w; [cbn in Hs; lra|]. cbn in Ew. lia. } rewrite T_vmean by exact Hl.
  set (Q := fun s t : ppxa_state E => List.length (px_y s) = List.length fs /\ map T (px_y s) = px_y t /\ T (px_x s) = px_x t /\ T (px_old s) = px_old t /\ px_tr s = map B (px_tr t)).
  pose proof (sim (ppxa_body fs' w tau eta amax tol) (ppxa_body fs w (c * a ^ 2 * tau) eta amax (option_map (Rmult (Rabs a)) tol)) Q n (PX l (vmean l) (vmean l) []) (PX (map T l) (T (vmean l)) (T (vmean l)) [])) as G.
  match type of G with ?A -> _ => assert (Hb : A) end.
  { intros j s t _ (Q0 & Q1 & Q2 & Q3 & Q4). unfold ppxa_body. rewrite I1, I3. cbn [bind]. rewrite (u_stack_all fs fs' _ ts H I2), Q1, bind_assoc. destruct (stack_all fs (px_y t) (map (Rmult (c * a ^ 2)) ts)) as [p|] eqn:Hq; cbn [bind]; [|reflexivity].
    assert (Hp : List.length p = List.length w). { unfold stack_all in Hq; destruct (prox_all _ _ _) as [[|p0 pl]|] eqn:Ep in Hq; [discriminate| |discriminate]. injection Hq as <-. apply prox_all_len in Ep. lia. }
    assert (Hw' : T (wsum w (map B p)) = wsum w p). { unfold T at 1, fwd. rewrite <- (map_TB p) at 2. rewrite T_wsum by (rewrite map_length; exact Hp). rewrite Hs. vring. }
    set (pn := wsum w (map B p)) in *. rewrite <- Q2, <- Q3, <- Hw'.
    replace (T (px_x s) [+] eta [*] (T pn [-] T (px_x s))) with (T (px_x s [+] eta [*] (pn [-] px_x s))) by (unfold T, fwd; vring). rewrite T_sub.
    unfold abs_stop. destruct tol as [tol|]; cbn [option_map bind]; [|reflexivity]. rewrite Hm, Rltb_scale by (apply Rabs_pos_lt; exact Ha). split; [reflexivity|].
    unfold Q. cbn [px_y px_x px_old px_tr]. repeat split.
    - rewrite map2_length; rewrite ?map_length; lia.
    - rewrite <- Q1. rewrite <- (map_TB p) at 2. rewrite map_map2. clear - Ha. generalize (map B p). induction (px_y s) as [|y ys IH]; intros [|q ps]; try reflexivity. cbn [map map2]. rewrite IH. f_equal. unfold T, fwd. vring.
    - rewrite Q4, map_app. cbn [map]. unfold T, B. rewrite back_fwd by exact Ha. reflexivity. }
  specialize (G Hb ltac:(unfold Q; cbn [px_y px_x px_old px_tr]; repeat split; exact El)). fin G. destruct G as (_ & _ & Q2 & _ & Q4). rewrite Q4, <- Q2. unfold T, B. rewrite back_fwd by exact Ha. reflexivity.
Qed.
Lemma u_ppxa (fs fs' : list (Op E)) x0 tau eta w n amax tol : Forall2 (units c a b) fs fs' -> 0 < tau -> weights_ok w -> homogeneous amax ->
  PPXA fs' x0 tau eta w n amax tol = (r <- PPXA fs (fwd_init a b x0) (c * a ^ 2 * tau) eta w n amax (option_map (Rmult (Rabs a)) tol) ;; Ok (B (fst r), map B (snd r))).
Proof.
  intros H Ht Hw Hm.
  assert (Hx : forall (os : list (Op E)) x0 w tau tol, PPXA os x0 tau eta w n amax tol = PPXA os (PerFun (match x0 with PerFun l => l | Common x => repeat x (List.length os) end)) tau eta w n amax tol) by (intros os [x|l] w' tau' tol'; reflexivity).
  rewrite (Hx fs'), (Hx fs). set (l := match x0 with PerFun l => l | Common x => repeat x (List.length fs') end).
  assert (El : match fwd_init a b x0 with PerFun l => l | Common x => repeat x (List.length fs) end = map T l) by (unfold l; destruct x0 as [x|l']; cbn [fwd_init]; [rewrite map_repeat', (u_len _ _ H)|]; reflexivity). rewrite El.
  destruct w as [w|]; [destruct Hw as [W1 W2]; apply u_ppxa_w; assumption|]. destruct (Nat.eq_dec (List.length fs) 0) as [Z|Z].
  - unfold PPXA. rewrite (u_len _ _ H), Z. cbn [INR]. unfold pydiv. destruct (Reqb_spec 0 0) as [[_ ->]|[? _]]; [reflexivity|lra].
  - assert (Hm0 : 0 < INR (List.length fs)) by (apply lt_0_INR; lia).
    assert (Hn : forall (os : list (Op E)) l tau tol, List.length os = List.length fs -> PPXA os (PerFun l) tau eta None n amax tol = PPXA os (PerFun l) tau eta (Some (repeat (1 / INR (List.length fs)) (List.length fs))) n amax tol).
    { intros os l' tau' tol' Ho. unfold PPXA. rewrite Ho. unfold pydiv. destruct (Reqb_spec (INR (List.length fs)) 0) as [[? _]|[_ ->]]; [lra|]. reflexivity. }
    rewrite (Hn fs') by (apply u_len, H). rewrite (Hn fs) by reflexivity. apply u_ppxa_w; auto.
    + apply Forall_forall. intros y Hy. apply repeat_spec in Hy. subst y. apply Rdiv_lt_0_compat; lra.
    + assert (Hsr : forall r m, Rsum (repeat r m) = INR m * r). { clear. intros r m. induction m as [|m IH]; [cbn [repeat Rsum INR]; ring|]. rewrite S_INR. cbn [repeat Rsum]. rewrite IH. ring. } rewrite Hsr. field. lra.
Qed.
Lemma u_cadmm (fs fs' : list (Op E)) x0 tau n amax tol : Forall2 (units c a b) fs fs' -> 0 < tau -> homogeneous amax ->
  ConsensusADMM fs' x0 tau n amax tol = (r <- ConsensusADMM fs (T x0) (c * a ^ 2 * tau) n amax (option_map (Rmult (Rabs a)) tol) ;; Ok (B (fst r), map B (snd r))).
Proof.
  intros H Ht Hm. unfold ConsensusADMM. rewrite (u_len _ _ H).
  set (Q := fun s t : cadmm_state E => map (vscal a) (ca_y s) = ca_y t /\ T (ca_xbar s) = ca_xbar t /\ T (ca_old s) = ca_old t /\ ca_tr s = map B (ca_tr t)).
  match goal with |- (_ <- for_loop _ _ _ ?s ;; _) = (_ <- (_ <- for_loop _ _ _ ?t ;; _) ;; _) => pose proof (sim (cadmm_body fs' tau amax tol) (cadmm_body fs (c * a ^ 2 * tau) amax (option_map (Rmult (Rabs a)) tol)) Q n s t) as G end.
  match type of G with ?A -> _ => assert (Hb : A) end.
  { intros j s t _ (Q1 & Q2 & Q3 & Q4). unfold cadmm_body. rewrite (u_stack_all fs fs' _ _ H) by (apply Forall_forall; intros y Hy; apply repeat_spec in Hy; subst y; exact Ht). rewrite map_repeat', (u_len _ _ H), map_map.
    rewrite <- Q1, map_map, <- Q2, bind_assoc. rewrite (map_ext (fun x => T (ca_xbar s [-] x)) (fun x => T (ca_xbar s) [-] a [*] x)) by (intro x; unfold T, fwd; vring).
    destruct (stack_all fs _ _) as [p|] eqn:Hq; cbn [bind]; [|reflexivity].
    assert (Hp : p <> []). { intros ->. unfold stack_all in Hq. destruct (prox_all _ _ _) as [[|p0 pl]|] in Hq; cbn [bind] in Hq; discriminate. }
    assert (Hv : T (vmean (map B p)) = vmean p) by (rewrite <- T_vmean by (destruct p; [congruence|discriminate]); rewrite map_TB; reflexivity).
    rewrite <- Q3, <- Hv, T_sub. unfold abs_stop. destruct tol as [tol|]; cbn [option_map bind]; [|reflexivity]. rewrite Hm, Rltb_scale by (apply Rabs_pos_lt; exact Ha). split; [reflexivity|].
    unfold Q. cbn [ca_y ca_xbar ca_old ca_tr]. repeat split.
    - generalize (vmean (map B p)). intro m. rewrite <- (map_TB p) at 2. generalize (map B p). clear - Ha. induction (ca_y s) as [|y ys IH]; intros [|q ps]; try reflexivity. cbn [map map2]. rewrite IH. f_equal. unfold T, fwd. vring.
    - rewrite Q4, map_app. cbn [map]. unfold T, B. rewrite back_fwd by exact Ha. reflexivity. }
  specialize (G Hb). match type of G with ?A -> _ => assert (Hi : A) end.
  { unfold Q. cbn [ca_y ca_xbar ca_old ca_tr]. repeat split. rewrite map_repeat'. f_equal. vring. }
  specialize (G Hi). fin G. destruct G as (_ & Q2 & _ & Q4). rewrite Q4, <- Q2. unfold T, B. rewrite back_fwd by exact Ha. reflexivity.
Qed.
Lemma u_grad_all (fs fs' : list (Op E)) x : Forall2 (units c a b) fs fs' -> grad_all fs' x = (g <- grad_all fs (T x) ;; Ok ((c * a) [*] g)).
Proof.
  induction 1 as [|f f' fs fs' (_ & Hf & _) _ IH]; cbn [grad_all]; [cbn [bind]; f_equal; vring|]. rewrite Hf. change (a [*] x [+] b) with (T x). destruct (get_grad f (T x)); cbn [bind]; [|reflexivity]. rewrite IH. destruct (grad_all fs (T x)); cbn [bind]; [|reflexivity]. f_equal. vring.
Qed.
Lemma u_gpg_zs (gs gs' : list (Op E)) y gr tau eta : Forall2 (units c a b) gs gs' -> 0 < tau -> forall zs eps w, Forall (fun e => 0 < e) eps -> Forall (fun w => 0 < w) w -> List.length w = List.length gs ->
  match gpg_zs gs' y ((c * a) [*] gr) tau eta zs eps w, gpg_zs gs (T y) gr (c * a ^ 2 * tau) eta (map T zs) eps w with
  | Ok r, Ok r' => map T (fst r) = fst r' /\ a [*] snd r [+] Rsum w [*] b = snd r'
  | Err e, Err e' => e = e'
  | _, _ => False
  end.
Proof.
  intros H Ht. induction H as [|g g' gs gs' (Hg & _) _ IH]; intros zs eps w He Hw Hl; cbn [gpg_zs].
  - destruct w; [|discriminate]. cbn [fst snd Rsum map]. split; [reflexivity|vring].
  - destruct zs as [|z zs]; [reflexivity|]. destruct eps as [|e eps]; [reflexivity|]. destruct w as [|w0 w]; [reflexivity|]. cbn [map]. inversion_clear He as [|? ? He0 He1]. inversion_clear Hw as [|? ? Hw0 Hw1].
    unfold pydiv. destruct (Reqb_spec w0 0) as [[? _]|[_ ->]]; [lra|]. cbn [bind]. rewrite Hg by (apply Rdiv_lt_0_compat; [apply Rmult_lt_0_compat|]; assumption).
    replace (a [*] (2 [*] y [-] z [-] tau [*] ((c * a) [*] gr)) [+] b) with (2 [*] T y [-] T z [-] (c * a ^ 2 * tau) [*] gr) by (unfold T, fwd; vext v; ring). replace (c * a ^ 2 * (tau * e / w0)) with (c * a ^ 2 * tau * e / w0) by (field; lra).
    destruct (o_prox g _ _) as [p|]; cbn [bind]; [|reflexivity]. change (/ a [*] (p [-] b)) with (B p). specialize (IH zs eps w He1 Hw1 ltac:(cbn in Hl; lia)).
    destruct (gpg_zs gs' _ _ _ _ _ _ _) as [r|], (gpg_zs gs _ _ _ _ _ _ _) as [r'|]; cbn [bind fst snd]; try contradiction; [|exact IH]. destruct IH as [I1 I2].
    assert (Hz : T (z [+] eta [*] (B p [-] y)) = T z [+] eta [*] (p [-] T y)). { transitivity (T z [+] eta [*] (T (B p) [-] T y)); [unfold T, fwd; vring|]. unfold T at 2, B. rewrite fwd_back by exact Ha. reflexivity. }
    cbn [map Rsum]. split; [congruence|]. rewrite <- I2, <- Hz. unfold T at 1, fwd. vring.
Qed.
Lemma u_gpg (fs fs' gs gs' : list (Op E)) x0 tau eps w eta n accel : Forall2 (units c a b) fs fs' -> Forall2 (units c a b) gs gs' -> 0 < tau -> Forall (fun e => 0 < e) eps -> weights_ok w ->
  GeneralizedProximalGradient fs' gs' x0 (Some tau) eps w eta n accel = (r <- GeneralizedProximalGradient fs gs (T x0) (Some (c * a ^ 2 * tau)) eps w eta n accel ;; Ok (B (fst r), map B (snd r))).
Proof.
  intros Hf Hg Ht He Hw. unfold GeneralizedProximalGradient. rewrite (u_len _ _ Hg). set (m := List.length gs). set (wl := match w with None => repeat (1 / INR m) m | Some w => w end).
  destruct (Nat.eqb_spec (List.length wl) m) as [Lw|]; [|reflexivity]. destruct (Reqb_spec (Rsum wl) 1) as [[Sw ->]|[_ ->]]; [|reflexivity]. cbn [andb negb].
  set (el := match eps with [e] => repeat e m | _ => eps end). destruct (accel_known accel); [|reflexivity].
  assert (Hel : Forall (fun e => 0 < e) el). { unfold el. destruct eps as [|e [|e' l]]; auto. apply Forall_forall. intros y Hy. apply repeat_spec in Hy. subst y. inversion He; assumption. }
  assert (Hwl : Forall (fun w => 0 < w) wl). { unfold wl. destruct w as [w'|]; [exact (proj1 Hw)|]. apply Forall_forall. intros y Hy. assert (Hm : m <> 0%nat) by (intro Z; rewrite Z in Hy; destruct Hy). apply repeat_spec in Hy. subst y. apply Rdiv_lt_0_compat; [lra|]. apply lt_0_INR. lia. }
  set (Q := fun s t : gpg_state E => map T (gp_zs s) = gp_zs t /\ T (gp_x s) = gp_x t /\ T (gp_y s) = gp_y t /\ gp_t s = gp_t t /\ gp_tr s = map B (gp_tr t)).
  pose proof (sim (gpg_body fs' gs' tau el wl eta accel) (gpg_body fs gs (c * a ^ 2 * tau) el wl eta accel) Q n (GP x0 x0 (repeat x0 m) 1 []) (GP (T x0) (T x0) (repeat (T x0) m) 1 [])) as G.
  match type of G with ?A -> _ => assert (Hb : A) end.
  { intros j s t _ (Q1 & Q2 & Q3 & Q4 & Q5). unfold gpg_body. rewrite (u_grad_all fs fs' _ Hf), Q2, bind_assoc. stp gr.
    pose proof (u_gpg_zs gs gs' (gp_y s) gr tau eta Hg Ht (gp_zs s) el wl Hel Hwl Lw) as Hz. rewrite Q3, Q1 in Hz. destruct (gpg_zs gs' _ _ _ _ _ _ _) as [r|], (gpg_zs gs _ _ _ _ _ _ _) as [r'|]; cbn [bind]; try contradiction; [|exact Hz]. destruct Hz as [Z1 Z2]. rewrite Sw in Z2.
    assert (Z3 : T (snd r) = snd r') by (rewrite <- Z2; unfold T, fwd; vring). apply agree_ok. unfold Q. cbn [gp_x gp_y gp_zs gp_t gp_tr]. rewrite <- Q2, <- Q4, <- Z3. repeat split; [exact Z1|unfold T, fwd; vring|].
    rewrite Q5, map_app. cbn [map]. unfold T, B. rewrite back_fwd by exact Ha. reflexivity. }
  specialize (G Hb). match type of G with ?A -> _ => assert (Hi : A) end.
  { unfold Q. cbn [gp_x gp_y gp_zs gp_t gp_tr]. repeat split. apply map_repeat'. }
  specialize (G Hi). fin G. destruct G as (_ & Q2 & _ & _ & Q5). rewrite Q5, <- Q2. unfold T, B. rewrite back_fwd by exact Ha. reflexivity.
Qed.
End U.

(** ** with an operator *)
Section UA.
Context {E F : IPS} (A : linop E F) (c a : R) (b : E) (Hc : 0 < c) (Ha : a <> 0).
Let T := fwd a b.
Let B := back a b.
Let TF := fwd a (lapp A b).
Let BF := back a (lapp A b).
Let Ha2 : 0 < a ^ 2.
Proof. cbn. rewrite Rmult_1_r. apply Rsqr_pos_lt. exact Ha. Qed.
Let Hca : 0 < c * a ^ 2.
Proof. apply Rmult_lt_0_compat; assumption. Qed.
Lemma A_fwd x : lapp A (T x) = TF (lapp A x).
Proof. unfold T, TF, fwd. rewrite lapp_add, lapp_scal. reflexivity. Qed.

Lemma u_ladmm (f f' : Op E) (g g' : Op F) x0 z0 tau mu n : units c a b f f' -> units c a (lapp A b) g g' -> 0 < tau -> 0 < mu ->
  LinearizedADMM f' g' A x0 tau mu n z0 = (r <- LinearizedADMM f g A (option_map T x0) (c * a ^ 2 * tau) (c * a ^ 2 * mu) n (option_map TF z0) ;; Ok (B (fst (fst r)), BF (snd (fst r)), map B (snd r))).
Proof.
  intros (Hf & _) (Hg & _) Ht Hmu. unfold LinearizedADMM.
  assert (Hi : x0z0_initA (lapp A) (option_map T x0) (option_map TF z0) = (p <- x0z0_initA (lapp A) x0 z0 ;; Ok (T (fst p), TF (snd p)))). { destruct x0, z0; cbn [option_map x0z0_initA bind fst snd]; try reflexivity. rewrite A_fwd. reflexivity. }
  rewrite Hi. clear Hi. destruct (x0z0_initA (lapp A) x0 z0) as [[x z]|]; cbn [bind fst snd]; [|reflexivity].
  assert (Hz : match option_map TF z0 with None => lapp A (T x) | Some _ => TF z end = TF match z0 with None => lapp A x | Some _ => z end) by (destruct z0; cbn [option_map]; [reflexivity|apply A_fwd]). rewrite Hz. clear Hz.
  set (Q := fun s t : @la_state E F => T (la_x s) = la_x t /\ TF (la_Ax s) = la_Ax t /\ TF (la_z s) = la_z t /\ a [*] la_u s = la_u t /\ la_tr s = map B (la_tr t)).
  match goal with |- (_ <- for_loop _ _ _ ?s ;; _) = (_ <- (_ <- for_loop _ _ _ ?t ;; _) ;; _) => pose proof (sim (la_body f' g' A tau mu) (la_body f g A (c * a ^ 2 * tau) (c * a ^ 2 * mu)) Q n s t) as G end.
  match type of G with ?A -> _ => assert (Hb : A) end.
  { intros j s t _ (Q1 & Q2 & Q3 & Q4 & Q5). unfold la_body, pydiv. destruct (Reqb_spec tau 0) as [[? _]|[_ ->]]; [lra|]. destruct (Reqb_spec (c * a ^ 2 * tau) 0) as [[Z _]|[_ ->]]; [assert (0 < c * a ^ 2 * tau) by (apply Rmult_lt_0_compat; assumption); lra|]. cbn [bind].
    rewrite Hf by exact Hmu. rewrite <- Q1, <- Q2, <- Q3, <- Q4.
    replace (a [*] (la_x s [-] (mu / tau) [*] ladj A (la_Ax s [-] la_z s [+] la_u s)) [+] b) with (T (la_x s) [-] (c * a ^ 2 * mu / (c * a ^ 2 * tau)) [*] ladj A (TF (la_Ax s) [-] TF (la_z s) [+] a [*] la_u s)).
    2:{ replace (TF (la_Ax s) [-] TF (la_z s) [+] a [*] la_u s) with (a [*] (la_Ax s [-] la_z s [+] la_u s)) by (unfold TF, fwd; vring). rewrite ladj_scal. unfold T, fwd. vext w. field. repeat split; lra. }
    destruct (o_prox f _ _) as [x'|]; cbn [bind]; [|reflexivity]. change (/ a [*] (x' [-] b)) with (B x').
    assert (HT : T (B x') = x') by (apply fwd_back; exact Ha). assert (HA : lapp A x' = TF (lapp A (B x'))) by (rewrite <- A_fwd, HT; reflexivity).
    rewrite Hg by exact Ht. rewrite HA. replace (TF (lapp A (B x')) [+] a [*] la_u s) with (a [*] (lapp A (B x') [+] la_u s) [+] lapp A b) by (unfold TF, fwd; vring). destruct (o_prox g _ _) as [z'|]; cbn [bind]; [|reflexivity]. change (/ a [*] (z' [-] lapp A b)) with (BF z').
    assert (HTF : TF (BF z') = z') by (apply fwd_back; exact Ha). apply agree_ok. unfold Q. cbn [la_x la_Ax la_z la_u la_tr]. repeat split; [exact HT|exact HTF| |rewrite Q5, map_app; reflexivity]. rewrite <- HTF at 2. unfold TF, fwd. vring. }
  specialize (G Hb). match type of G with ?A -> _ => assert (Hi : A) end.
  { unfold Q. cbn [la_x la_Ax la_z la_u la_tr]. repeat split. vring. }
  specialize (G Hi). fin G. destruct G as (Q1 & _ & Q3 & _ & Q5). rewrite Q5, <- Q1, <- Q3. unfold T, B, TF, BF. rewrite !back_fwd by exact Ha. reflexivity.
Qed.

Lemma getitem_steps k s n j : getitem (steps_arr (fwd_steps k s) n) j = (t <- getitem (steps_arr s n) j ;; Ok (k * t)).
Proof.
  unfold getitem. destruct s as [t|l]; cbn [fwd_steps steps_arr]; [rewrite <- map_repeat'|]; rewrite nth_error_map; match goal with |- context [nth_error ?l j] => destruct (nth_error l j) end; reflexivity.
Qed.
Lemma getitem_pos s n j t : steps_pos s -> getitem (steps_arr s n) j = Ok t -> 0 < t.
Proof.
  unfold getitem. intros H Hg. destruct (nth_error (steps_arr s n) j) eqn:En; [|discriminate]. injection Hg as <-. apply nth_error_In in En. destruct s as [t|l]; cbn in H, En; [apply repeat_spec in En; subst; exact H|]. rewrite Forall_forall in H. apply H, En.
Qed.
Lemma u_pd (f f' : Op E) (g g' : Op F) alias x0 tau mu y0 z theta n gfirst : units c a b f f' -> units_dual c a (lapp A b) g g' -> steps_pos tau -> steps_pos mu -> (forall h, alias = Some h -> forall k x, h (k [*] x) = k [*] h x) ->
  PrimalDual f' g' A alias x0 tau mu y0 z theta n gfirst =
  (r <- PrimalDual f g A alias (T x0) (fwd_steps (c * a ^ 2) tau) (fwd_steps (/ (c * a ^ 2)) mu) (option_map (vscal (/ (c * a))) y0) (option_map (vscal (/ (c * a))) z) theta n gfirst ;;
   Ok (B (fst (fst r)), (c * a) [*] snd (fst r), map (fun p => (B (fst p), (c * a) [*] snd p)) (snd r))).
Proof.
  intros (Hf & _) Hg Ht Hmu Hal. unfold PrimalDual. set (k := / (c * a)). assert (Hk : c * a * k = 1) by (unfold k; field; split; [exact Ha|lra]).
  assert (Hka : k * (c * a) = 1) by lra.
  assert (Hsc : forall v : F, k [*] ((c * a) [*] v) = v) by (intro v; vext w; transitivity ((k * (c * a)) * << v, w >>); [ring|rewrite Hka; ring]).
  assert (Hcs : forall v : F, (c * a) [*] (k [*] v) = v) by (intro v; vext w; transitivity ((k * (c * a)) * << v, w >>); [ring|rewrite Hka; ring]).
  assert (Hr : forall y, rmatvec_plus A alias (option_map (vscal k) z) (k [*] y) = (k [*] fst (rmatvec_plus A alias z y), k [*] snd (rmatvec_plus A alias z y))).
  { intro y. unfold rmatvec_plus. destruct z as [z|]; cbn [option_map fst snd]; [|rewrite ladj_scal; reflexivity]. rewrite ladj_scal. replace (k [*] ladj A y [+] k [*] z) with (k [*] (ladj A y [+] z)) by vring. destruct alias as [h|]; [rewrite (Hal h eq_refl)|]; reflexivity. }
  set (Q := fun s t : @pd_state E F => T (pd_x s) = pd_x t /\ T (pd_hat s) = pd_hat t /\ k [*] pd_y s = pd_y t /\ pd_tr s = map (fun p => (B (fst p), (c * a) [*] snd p)) (pd_tr t)).
  assert (Hp : forall x y t, 0 < t -> o_prox f' (x [-] t [*] y) t = (p <- o_prox f (T x [-] (c * a ^ 2 * t) [*] (k [*] y)) (c * a ^ 2 * t) ;; Ok (B p))).
  { intros x y t Ht0. rewrite Hf by exact Ht0. replace (a [*] (x [-] t [*] y) [+] b) with (T x [-] (c * a ^ 2 * t) [*] (k [*] y)); [reflexivity|]. unfold T, fwd. vext w. transitivity (a * << x, w >> + << b, w >> - a * t * (c * a * k) * << y, w >>); [ring|rewrite Hk; ring]. }
  assert (Hd : forall x y t, 0 < t -> o_proxdual g' (y [+] t [*] lapp A x) t = (p <- o_proxdual g (k [*] y [+] (/ (c * a ^ 2) * t) [*] lapp A (T x)) (/ (c * a ^ 2) * t) ;; Ok ((c * a) [*] p))).
  { intros x y t Ht0. rewrite Hg by exact Ht0. fold k. replace (t / (c * a ^ 2)) with (/ (c * a ^ 2) * t) by (unfold Rdiv; ring). replace (k [*] (y [+] t [*] lapp A x) [+] (/ (c * a ^ 2) * t) [*] lapp A b) with (k [*] y [+] (/ (c * a ^ 2) * t) [*] lapp A (T x)); [reflexivity|]. rewrite A_fwd. unfold TF, fwd, k. vext w. field. split; [exact Ha|lra]. }
  match goal with |- (_ <- for_loop ?b1 _ _ ?s ;; _) = (_ <- (_ <- for_loop ?b2 _ _ ?t ;; _) ;; _) => pose proof (sim b1 b2 Q n s t) as G end.
  match type of G with ?A -> _ => assert (Hb : A) end.
  { intros j s t _ (Q1 & Q2 & Q3 & Q4). unfold pd_body. rewrite !getitem_steps. destruct gfirst.
    - destruct (getitem (steps_arr mu n) j) as [m|] eqn:Em; cbn [bind]; [|reflexivity]. assert (Pm := getitem_pos _ _ _ _ Hmu Em). rewrite Hd by exact Pm. rewrite Q2, Q3. destruct (o_proxdual g _ _) as [y'|]; cbn [bind]; [|reflexivity].
      pose proof (Hr ((c * a) [*] y')) as Hr'. rewrite Hsc in Hr'. rewrite Hr'. destruct (rmatvec_plus A alias z ((c * a) [*] y')) as [aty y2]. cbn [fst snd].
      destruct (getitem (steps_arr tau n) j) as [m'|] eqn:Em'; cbn [bind]; [|reflexivity]. assert (Pm' := getitem_pos _ _ _ _ Ht Em'). rewrite Hp by exact Pm'. rewrite Q1. destruct (o_prox f _ _) as [x'|]; cbn [bind]; [|reflexivity].
      assert (HT : T (B x') = x') by (apply fwd_back; exact Ha). apply agree_ok. unfold Q. cbn [pd_x pd_y pd_hat pd_tr]. repeat split; [exact HT| |].
      + rewrite <- Q1. rewrite <- HT at 3 4. unfold T, fwd. vring.
      + rewrite Q4, map_app. cbn [map fst snd]. rewrite Hcs. reflexivity.
    - rewrite <- Q3, Hr. destruct (rmatvec_plus A alias z (pd_y s)) as [aty y2]. cbn [fst snd].
      destruct (getitem (steps_arr tau n) j) as [m'|] eqn:Em'; cbn [bind]; [|reflexivity]. assert (Pm' := getitem_pos _ _ _ _ Ht Em'). rewrite Hp by exact Pm'. rewrite Q1. destruct (o_prox f _ _) as [x'|]; cbn [bind]; [|reflexivity].
      assert (HT : T (B x') = x') by (apply fwd_back; exact Ha). assert (HX : T (B x' [+] theta [*] (B x' [-] pd_x s)) = x' [+] theta [*] (x' [-] pd_x t)). { transitivity (T (B x') [+] theta [*] (T (B x') [-] T (pd_x s))); [unfold T, fwd; vring|]. rewrite HT, Q1. reflexivity. }
      destruct (getitem (steps_arr mu n) j) as [m|] eqn:Em; cbn [bind]; [|reflexivity]. assert (Pm := getitem_pos _ _ _ _ Hmu Em). rewrite Hd by exact Pm. rewrite HX. destruct (o_proxdual g _ _) as [y'|]; cbn [bind]; [|reflexivity].
      apply agree_ok. unfold Q. cbn [pd_x pd_y pd_hat pd_tr]. repeat split; [exact HT|exact HX|apply Hsc|]. rewrite Q4, map_app. reflexivity. }
  specialize (G Hb). match type of G with ?A -> _ => assert (Hi : A) end.
  { unfold Q. cbn [pd_x pd_y pd_hat pd_tr]. repeat split. destruct y0; cbn [option_map]; [reflexivity|vring]. }
  specialize (G Hi). fin G. destruct G as (Q1 & _ & Q3 & Q4). rewrite Q4, <- Q1, <- Q3, Hcs. unfold T, B. rewrite back_fwd by exact Ha. reflexivity.
Qed.
End UA.

(** ** the order of the functions *)
Lemma loop_fwd {S : Type} (b1 b2 : nat -> S -> result (S * bool)) (Q : S -> S -> Prop) :
  (forall j s t s' st, Q s t -> b1 j s = Ok (s', st) -> exists t', b2 j t = Ok (t', st) /\ Q s' t') ->
  forall n i s t s' k, Q s t -> for_loop b1 n i s = Ok (s', k) -> exists t', for_loop b2 n i t = Ok (t', k) /\ Q s' t'.
Proof.
  intro Hb. induction n as [|n IH]; intros i s t s' k HQ H; cbn [for_loop] in *; [injection H as <- <-; eauto|].
  destruct (b1 i s) as [[s1 st]|] eqn:E1; cbn [bind] in H; [|discriminate]. destruct (Hb i s t s1 st HQ E1) as (t1 & -> & HQ1). cbn [bind fst snd] in *. destruct st; [injection H as <- <-; eauto|]. eapply IH; eauto.
Qed.
Lemma vsum_perm {E : IPS} (l l' : list E) : Permutation l l' -> vsum l = vsum l'.
Proof.
  induction 1 as [|x l l' _ IH|x y l|l1 l2 l3 _ IH1 _ IH2]; [reflexivity| | |congruence].
  - change (x [+] vsum l = x [+] vsum l'). rewrite IH. reflexivity.
  - change (y [+] (x [+] vsum l) = x [+] (y [+] vsum l)). vring.
Qed.
Lemma mapM_cons {A B} (f : A -> result B) x l r : mapM f (x :: l) = Ok r -> exists y r', f x = Ok y /\ mapM f l = Ok r' /\ r = y :: r'.
Proof. cbn [mapM]. destruct (f x) as [y|]; cbn [bind]; [|discriminate]. destruct (mapM f l) as [r'|]; cbn [bind]; [|discriminate]. intro H. injection H as <-. eauto. Qed.
Lemma mapM_perm {A B} (f : A -> result B) l l' : Permutation l l' -> forall r, mapM f l = Ok r -> exists r', mapM f l' = Ok r' /\ Permutation (combine l r) (combine l' r').
Proof.
  induction 1 as [|x l l' _ IH|x y l|l1 l2 l3 _ IH1 _ IH2]; intros r Hr.
  - exists r. split; [exact Hr|reflexivity].
  - apply mapM_cons in Hr. destruct Hr as (y & r1 & H1 & H2 & ->). destruct (IH r1 H2) as (r2 & I1 & I2). exists (y :: r2). cbn [mapM combine]. rewrite H1, I1. split; [reflexivity|constructor; exact I2].
  - apply mapM_cons in Hr. destruct Hr as (v & r1 & H1 & H2 & ->). apply mapM_cons in H2. destruct H2 as (v' & r2 & H2 & H3 & ->). exists (v' :: v :: r2). cbn [mapM combine]. rewrite H1, H2, H3. split; [reflexivity|constructor].
  - destruct (IH1 r Hr) as (r2 & I1 & I2). destruct (IH2 r2 I1) as (r3 & I3 & I4). exists r3. split; [exact I3|eapply perm_trans; eassumption].
Qed.
Lemma mapM_length {A B} (f : A -> result B) l : forall r, mapM f l = Ok r -> List.length r = List.length l.
Proof. induction l as [|x l IH]; intros r Hr; [injection Hr as <-; reflexivity|]. apply mapM_cons in Hr. destruct Hr as (y & r' & _ & H & ->). cbn. rewrite (IH _ H). reflexivity. Qed.
Lemma combine_map2 {A B C} (f : A -> B -> C) l : forall l', map2 f l l' = map (fun p => f (fst p) (snd p)) (combine l l').
Proof. induction l as [|x l IH]; intros [|y l']; try reflexivity. cbn [map2 combine map fst snd]. rewrite IH. reflexivity. Qed.
Lemma fst_combine {A B} (l : list A) : forall l' : list B, List.length l' = List.length l -> map fst (combine l l') = l.
Proof. induction l as [|x l IH]; intros [|y l'] H; try discriminate; [reflexivity|]. cbn [combine map fst]. rewrite IH by (cbn in H; lia). reflexivity. Qed.

Section O.
Context {E : IPS}.
Definition one_prox (tau : R) (it : Op E * R * E) : result E := t <- pydiv tau (snd (fst it)) ;; o_prox (fst (fst it)) (snd it) t.
Lemma stack_items tau (L : list (Op E * R * E)) ps : (taus <- mapM (pydiv tau) (map snd (map fst L)) ;; stack_all (map fst (map fst L)) (map snd L) taus) = Ok ps <-> mapM (one_prox tau) L = Ok ps /\ ps <> [].
Proof.
  assert (G : forall ps, (taus <- mapM (pydiv tau) (map snd (map fst L)) ;; prox_all (map fst (map fst L)) (map snd L) taus) = Ok ps <-> mapM (one_prox tau) L = Ok ps).
  { clear. induction L as [|[[o w] y] L IH]; intro ps; [reflexivity|]. cbn [map fst snd mapM]. unfold one_prox at 1. cbn [fst snd]. destruct (pydiv tau w) as [t|]; cbn [bind]; [|split; discriminate].
    split; intro H.
    - destruct (mapM (pydiv tau) (map snd (map fst L))) as [ts|]; cbn [bind prox_all] in *; [|discriminate]. destruct (o_prox o y t) as [p|]; cbn [bind] in *; [|discriminate]. destruct (prox_all _ _ ts) as [qs|]; cbn [bind] in *; [|discriminate]. rewrite (proj1 (IH qs) eq_refl). exact H.
    - destruct (o_prox o y t) as [p|] eqn:Ep; cbn [bind] in *; [|discriminate]. destruct (mapM (one_prox tau) L) as [qs|]; cbn [bind] in *; [|discriminate]. pose proof (proj2 (IH qs) eq_refl) as H2. destruct (mapM (pydiv tau) (map snd (map fst L))) as [ts|]; cbn [bind prox_all] in *; [|discriminate]. rewrite Ep. cbn [bind]. rewrite H2. exact H. }
  specialize (G ps). unfold stack_all. destruct (mapM (pydiv tau) (map snd (map fst L))) as [ts|]; cbn [bind] in *; [|split; [discriminate|intros [H _]; apply G in H; discriminate]].
  destruct (prox_all _ _ ts) as [[|q qs]|]; cbn [bind] in *.
  - split; [discriminate|]. intros [H N]. apply G in H. congruence.
  - rewrite <- G. split; [intro H; split; [exact H|]; injection H as <-; discriminate|tauto].
  - split; [discriminate|]. intros [H _]. apply G in H. discriminate.
Qed.
Lemma o_ppxa (L L' : list (Op E * R * E)) tau eta n amax tol r : Permutation L L' ->
  PPXA (map fst (map fst L)) (PerFun (map snd L)) tau eta (Some (map snd (map fst L))) n amax tol = Ok r -> PPXA (map fst (map fst L')) (PerFun (map snd L')) tau eta (Some (map snd (map fst L'))) n amax tol = Ok r.
Proof.
  intros HP. unfold PPXA. cbn [bind]. rewrite !map_length, !Nat.eqb_refl. cbn [andb negb]. intro H.
  assert (Hm : vmean (map snd L') = vmean (map snd L)). { unfold vmean. rewrite !map_length, <- (Permutation_length HP). f_equal. apply vsum_perm. apply Permutation_map. symmetry. exact HP. } rewrite Hm. clear Hm.
  match type of H with (_ <- for_loop ?b1 _ _ ?s ;; _) = _ => match goal with |- (_ <- for_loop ?b2 _ _ ?t ;; _) = _ =>
    pose proof (loop_fwd b1 b2 (fun u v : ppxa_state E => px_x u = px_x v /\ px_old u = px_old v /\ px_tr u = px_tr v /\ exists M M', Permutation M M' /\ map fst M = map fst L /\ map fst M' = map fst L' /\ map snd M = px_y u /\ map snd M' = px_y v)) as G; destruct (for_loop b1 n 0 s) as [[s1 k]|] eqn:El; cbn [bind fst snd] in H; [|discriminate]; injection H as <-; eapply G in El end end.
  - destruct El as (t' & -> & Q1 & _ & Q3 & _). cbn [bind fst snd]. rewrite Q1, Q3. reflexivity.
  - clear. intros j s t s' st (Q1 & Q2 & Q3 & M & M' & P & F1 & F2 & Y1 & Y2) H. unfold ppxa_body in *. rewrite <- F1, <- Y1 in H. rewrite <- F2, <- Y2.
    destruct (taus <- mapM (pydiv tau) (map snd (map fst M)) ;; stack_all (map fst (map fst M)) (map snd M) taus) as [ps|] eqn:Es; [|destruct (mapM _ _); cbn [bind] in *; [rewrite Es in H|]; discriminate].
    pose proof Es as Es'. apply stack_items in Es. destruct Es as [Em Ne]. destruct (mapM_perm _ _ _ P _ Em) as (ps' & Em' & P').
    pose proof (mapM_length _ _ _ Em) as Lp. pose proof (mapM_length _ _ _ Em') as Lp'.
    assert (Ne' : ps' <> []). { intros ->. destruct M'; [|discriminate]. apply Permutation_sym, Permutation_nil in P. subst M. destruct ps; [congruence|discriminate]. }
    pose proof (proj2 (stack_items tau M' ps') (Logic.conj Em' Ne')) as Es2.
    destruct (mapM (pydiv tau) (map snd (map fst M))) as [ts|]; cbn [bind] in H, Es'; [|discriminate]. rewrite Es' in H. cbn [bind] in H.
    destruct (mapM (pydiv tau) (map snd (map fst M'))) as [ts'|]; cbn [bind] in Es2 |- *; [|discriminate]. rewrite Es2. cbn [bind].
    assert (Hw : forall (N : list (Op E * R * E)) (qs : list E), wsum (map snd (map fst N)) qs = vsum (map (fun p => snd (fst (fst p)) [*] snd p) (combine N qs))).
    { clear. unfold wsum. induction N as [|it N IH]; intros [|q qs]; try reflexivity. cbn [map map2 combine]. change (vsum (snd (fst it) [*] q :: map2 vscal (map snd (map fst N)) qs)) with (snd (fst it) [*] q [+] vsum (map2 vscal (map snd (map fst N)) qs)). rewrite IH. reflexivity. }
    assert (Hpn : wsum (map snd (map fst M')) ps' = wsum (map snd (map fst M)) ps) by (rewrite !Hw; apply vsum_perm, Permutation_map; symmetry; exact P'). rewrite Hpn, <- Q1, <- Q2, <- Q3.
    destruct (abs_stop amax tol _) as [st'|]; cbn [bind] in *; [|discriminate]. injection H as <- <-. eexists. split; [reflexivity|]. cbn [px_x px_y px_old px_tr]. repeat split.
    set (h := fun p : (Op E * R * E) * E => (fst (fst p), snd (fst p) [+] eta [*] (2 [*] wsum (map snd (map fst M)) ps [-] px_x s [-] snd p))).
    exists (map h (combine M ps)), (map h (combine M' ps')). repeat split.
    + apply Permutation_map, P'.
    + rewrite map_map. cbn [h fst]. rewrite <- (map_map fst fst), (fst_combine M ps Lp). exact F1.
    + rewrite map_map. cbn [h fst]. rewrite <- (map_map fst fst), (fst_combine _ _ Lp'). reflexivity.
    + rewrite map2_map, combine_map2, map_map. reflexivity.
    + rewrite map2_map, combine_map2, map_map. reflexivity.
  - cbn [px_x px_y px_old px_tr]. repeat split. exists L, L'. auto.
Qed.
Lemma one_weight tau (os : list (Op E)) : mapM (pydiv tau) (map (fun _ => 1) os) = Ok (repeat tau (List.length os)).
Proof. induction os as [|o os IH]; [reflexivity|]. cbn [map mapM List.length repeat]. unfold pydiv at 1. destruct (Reqb_spec 1 0) as [[? _]|[_ ->]]; [lra|]. cbn [bind]. rewrite IH. cbn [bind]. replace (tau / 1) with tau by field. reflexivity. Qed.
Lemma o_cadmm (fs fs' : list (Op E)) x0 tau n amax tol r : Permutation fs fs' -> ConsensusADMM fs x0 tau n amax tol = Ok r -> ConsensusADMM fs' x0 tau n amax tol = Ok r.
Proof.
  intros HP. unfold ConsensusADMM. intro H.
  match type of H with (_ <- for_loop ?b1 _ _ ?s ;; _) = _ => match goal with |- (_ <- for_loop ?b2 _ _ ?t ;; _) = _ =>
    pose proof (loop_fwd b1 b2 (fun u v : cadmm_state E => ca_xbar u = ca_xbar v /\ ca_old u = ca_old v /\ ca_tr u = ca_tr v /\ exists M M' : list (Op E * E), Permutation M M' /\ map fst M = fs /\ map fst M' = fs' /\ map snd M = ca_y u /\ map snd M' = ca_y v)) as G; destruct (for_loop b1 n 0 s) as [[s1 k]|] eqn:El; cbn [bind fst snd] in H; [|discriminate]; injection H as <-; eapply G in El end end.
  - destruct El as (t' & -> & Q1 & _ & Q3 & _). cbn [bind fst snd]. rewrite Q1, Q3. reflexivity.
  - clear. intros j s t s' st (Q1 & Q2 & Q3 & M & M' & P & F1 & F2 & Y1 & Y2) H. unfold cadmm_body in *.
    set (it := fun p : Op E * E => (fst p, 1, ca_xbar s [-] snd p)).
    assert (Hs : forall (N : list (Op E * E)) ps, stack_all (map fst N) (map (fun yi => ca_xbar s [-] yi) (map snd N)) (repeat tau (List.length (map fst N))) = Ok ps <-> mapM (one_prox tau) (map it N) = Ok ps /\ ps <> []).
    { intros N ps. rewrite <- stack_items. rewrite !map_map. cbn [it fst snd]. assert (H1 := one_weight tau (map fst N)). rewrite map_map in H1. rewrite H1. cbn [bind]. reflexivity. }
    rewrite <- F1, <- Y1 in H. rewrite <- Q1, <- Y2, <- Q2, <- Q3, <- F2.
    destruct (stack_all (map fst M) _ _) as [ps|] eqn:Es; cbn [bind] in H; [|discriminate]. apply Hs in Es. destruct Es as [Em Ne]. destruct (mapM_perm _ _ _ (Permutation_map it P) _ Em) as (ps' & Em' & P').
    pose proof (mapM_length _ _ _ Em) as Lp. pose proof (mapM_length _ _ _ Em') as Lp'. rewrite map_length in Lp, Lp'.
    assert (Ne' : ps' <> []). { intros ->. destruct M'; [|discriminate]. apply Permutation_sym, Permutation_nil in P. subst M. destruct ps; [congruence|discriminate]. }
    rewrite (proj2 (Hs M' ps') (Logic.conj Em' Ne')). cbn [bind].
    assert (Pp : Permutation ps ps'). { assert (Hsnd : forall (N : list (Op E * R * E)) (qs : list E), List.length qs = List.length N -> map snd (combine N qs) = qs). { clear. induction N as [|x N IH]; intros [|q qs] Hl; try discriminate; [reflexivity|]. cbn [combine map snd]. rewrite IH by (cbn in Hl; lia). reflexivity. }
      rewrite <- (Hsnd (map it M) ps), <- (Hsnd (map it M') ps') by (rewrite map_length; assumption). apply Permutation_map, P'. }
    assert (Hv : vmean ps' = vmean ps) by (unfold vmean; rewrite <- (Permutation_length Pp), (vsum_perm _ _ Pp); reflexivity). rewrite Hv.
    destruct (abs_stop amax tol _) as [st'|]; cbn [bind] in *; [|discriminate]. injection H as <- <-. eexists. split; [reflexivity|]. cbn [ca_xbar ca_y ca_old ca_tr]. repeat split.
    set (h := fun p : (Op E * R * E) * E => (fst (fst (fst p)), (ca_xbar s [-] snd (fst p)) [+] snd p [-] vmean ps)).
    exists (map h (combine (map it M) ps)), (map h (combine (map it M') ps')).
    assert (C1 : forall (N : list (Op E * E)) qs, List.length qs = List.length N -> map fst (map h (combine (map it N) qs)) = map fst N). { intros N qs Hl. rewrite map_map. cbn [h fst]. rewrite <- (map_map fst (fun p => fst (fst p))), fst_combine by (rewrite map_length; exact Hl). rewrite map_map. reflexivity. }
    assert (C2 : forall (N : list (Op E * E)) qs, map snd (map h (combine (map it N) qs)) = map2 (fun yi xi => yi [+] xi [-] vmean ps) (map snd N) qs).
    { clear. induction N as [|p N IH]; intros [|q qs]; try reflexivity. cbn [map combine map2]. rewrite IH. f_equal. cbn [h it fst snd]. vring. }
    repeat split; [apply Permutation_map, P'|rewrite C1 by exact Lp; exact F1|rewrite C1 by exact Lp'; reflexivity|apply C2|apply C2].
  - cbn [ca_xbar ca_y ca_old ca_tr]. repeat split. exists (map (fun f => (f, vzero)) fs), (map (fun f => (f, vzero)) fs'). rewrite !map_map. cbn [fst snd]. rewrite !map_id. repeat split; [apply Permutation_map, HP| |]; clear; [induction fs|induction fs']; cbn; congruence.
Qed.

Lemma grad_items (fs : list (Op E)) x g : grad_all fs x = Ok g <-> exists l, mapM (fun f => get_grad f x) fs = Ok l /\ g = vsum l.
Proof.
  revert g. induction fs as [|f fs IH]; intro g; cbn [grad_all mapM].
  - split; [intro H; injection H as <-; exists []; auto|intros (l & H & ->); injection H as <-; reflexivity].
  - destruct (get_grad f x) as [v|]; cbn [bind]; [|split; [discriminate|intros (l & H & _); discriminate]]. split.
    + intro H. destruct (grad_all fs x) as [gs|]; cbn [bind] in H; [|discriminate]. destruct (proj1 (IH gs) eq_refl) as (l & -> & ->). exists (v :: l). cbn [bind]. split; [reflexivity|]. injection H as <-. reflexivity.
    + intros (l & H & ->). destruct (mapM _ fs) as [l'|]; cbn [bind] in H; [|discriminate]. injection H as <-. rewrite (proj2 (IH (vsum l')) (ex_intro _ l' (Logic.conj eq_refl eq_refl))). reflexivity.
Qed.
Lemma snd_combine {A B} (l : list A) : forall l' : list B, List.length l' = List.length l -> map snd (combine l l') = l'.
Proof. induction l as [|x l IH]; intros [|y l'] H; try discriminate; [reflexivity|]. cbn [combine map snd]. rewrite IH by (cbn in H; lia). reflexivity. Qed.
Lemma o_grad_all (fs fs' : list (Op E)) x g : Permutation fs fs' -> grad_all fs x = Ok g -> grad_all fs' x = Ok g.
Proof.
  intros P H. apply grad_items in H. destruct H as (l & H & ->). destruct (mapM_perm _ _ _ P _ H) as (l' & H' & P'). apply grad_items. exists l'. split; [exact H'|]. apply vsum_perm. rewrite <- (snd_combine fs l (mapM_length _ _ _ H)), <- (snd_combine fs' l' (mapM_length _ _ _ H')). apply Permutation_map, P'.
Qed.
(** one function of the sum: operator, its epsilon, its weight; and its auxiliary vector *)
Definition one_z (y grad : E) (tau eta : R) (it : Op E * R * R * E) : result E :=
  t <- pydiv (tau * snd (fst (fst it))) (snd (fst it)) ;; p <- o_prox (fst (fst (fst it))) (2 [*] y [-] snd it [-] tau [*] grad) t ;; Ok (snd it [+] eta [*] (p [-] y)).
Lemma gpg_items y grad tau eta (L : list (Op E * R * R * E)) r : gpg_zs (map fst (map fst (map fst L))) y grad tau eta (map snd L) (map snd (map fst (map fst L))) (map snd (map fst L)) = Ok r <->
  exists l, mapM (one_z y grad tau eta) L = Ok l /\ r = (l, wsum (map snd (map fst L)) l).
Proof.
  revert r. induction L as [|[[[o e] w] z] L IH]; intro r; cbn [map fst snd gpg_zs mapM].
  - split; [intro H; injection H as <-; exists []; auto|intros (l & H & ->); injection H as <-; reflexivity].
  - unfold one_z at 1. cbn [fst snd]. destruct (pydiv (tau * e) w) as [t|]; cbn [bind]; [|split; [discriminate|intros (l & H & _); discriminate]]. destruct (o_prox o _ t) as [p|]; cbn [bind]; [|split; [discriminate|intros (l & H & _); discriminate]]. split.
    + intro H. destruct (gpg_zs _ _ _ _ _ _ _ _) as [r'|]; cbn [bind] in H; [|discriminate]. destruct (proj1 (IH r') eq_refl) as (l & -> & ->). cbn [bind fst snd] in *. eexists. split; [reflexivity|]. injection H as <-. reflexivity.
    + intros (l & H & ->). destruct (mapM _ L) as [l'|]; cbn [bind] in H; [|discriminate]. injection H as <-. rewrite (proj2 (IH (l', wsum (map snd (map fst L)) l')) (ex_intro _ l' (Logic.conj eq_refl eq_refl))). reflexivity.
Qed.
Lemma o_gpg_loop (fs fs' : list (Op E)) (L L' : list (Op E * R * R)) x0 tau eta n accel s k : Permutation fs fs' -> Permutation L L' ->
  for_loop (gpg_body fs (map fst (map fst L)) tau (map snd (map fst L)) (map snd L) eta accel) n 0 (GP x0 x0 (repeat x0 (List.length L)) 1 []) = Ok (s, k) ->
  exists t, for_loop (gpg_body fs' (map fst (map fst L')) tau (map snd (map fst L')) (map snd L') eta accel) n 0 (GP x0 x0 (repeat x0 (List.length L')) 1 []) = Ok (t, k) /\ gp_x t = gp_x s /\ gp_tr t = gp_tr s.
Proof.
  intros HF HP H.
  match type of H with for_loop ?b1 _ _ ?s = _ => match goal with |- exists t, for_loop ?b2 _ _ ?t0 = _ /\ _ =>
    pose proof (loop_fwd b1 b2 (fun u v : gpg_state E => gp_x u = gp_x v /\ gp_y u = gp_y v /\ gp_t u = gp_t v /\ gp_tr u = gp_tr v /\ exists M M' : list (Op E * R * R * E), Permutation M M' /\ map fst M = L /\ map fst M' = L' /\ map snd M = gp_zs u /\ map snd M' = gp_zs v)) as G; eapply G in H end end.
  - destruct H as (t & H & Q1 & Q2 & Q3 & Q4 & _). exists t. split; [exact H|split; symmetry; assumption].
  - clear - HF. intros j s t s' st (Q1 & Q2 & Q3 & Q4 & M & M' & P & F1 & F2 & Y1 & Y2) H. unfold gpg_body in *. rewrite <- F1, <- Y1 in H. rewrite <- F2, <- Y2.
    destruct (grad_all fs (gp_x s)) as [gr|] eqn:Eg; cbn [bind] in H; [|discriminate]. apply (o_grad_all fs fs' _ _ HF) in Eg. rewrite <- Q1, <- Q2, <- Q3, <- Q4, Eg. cbn [bind].
    destruct (gpg_zs _ (gp_y s) gr tau eta (map snd M) _ _) as [r|] eqn:Ez; cbn [bind] in H; [|discriminate]. apply gpg_items in Ez. destruct Ez as (l & El & ->). destruct (mapM_perm _ _ _ P _ El) as (l' & El' & P').
    rewrite (proj2 (gpg_items (gp_y s) gr tau eta M' (l', wsum (map snd (map fst M')) l')) (ex_intro _ l' (Logic.conj El' eq_refl))). cbn [bind fst snd] in *.
    pose proof (mapM_length _ _ _ El) as Lp. pose proof (mapM_length _ _ _ El') as Lp'.
    assert (Hw : forall (N : list (Op E * R * R * E)) (qs : list E), wsum (map snd (map fst N)) qs = vsum (map (fun p => snd (fst (fst p)) [*] snd p) (combine N qs))).
    { clear. unfold wsum. induction N as [|it N IH]; intros [|q qs]; try reflexivity. cbn [map map2 combine]. change (vsum (snd (fst it) [*] q :: map2 vscal (map snd (map fst N)) qs)) with (snd (fst it) [*] q [+] vsum (map2 vscal (map snd (map fst N)) qs)). rewrite IH. reflexivity. }
    assert (Hx : wsum (map snd (map fst M')) l' = wsum (map snd (map fst M)) l) by (rewrite !Hw; apply vsum_perm, Permutation_map; symmetry; exact P'). rewrite Hx. injection H as <- <-. eexists. split; [reflexivity|]. cbn [gp_x gp_y gp_zs gp_t gp_tr]. repeat split.
    set (h := fun p : (Op E * R * R * E) * E => (fst (fst p), snd p)). exists (map h (combine M l)), (map h (combine M' l')).
    assert (C1 : forall (N : list (Op E * R * R * E)) qs, List.length qs = List.length N -> map fst (map h (combine N qs)) = map fst N). { intros N qs Hl. rewrite map_map. cbn [h fst]. rewrite <- (map_map fst fst), fst_combine by exact Hl. reflexivity. }
    assert (C2 : forall (N : list (Op E * R * R * E)) qs, List.length qs = List.length N -> map snd (map h (combine N qs)) = qs). { intros N qs Hl. rewrite map_map. cbn [h snd]. apply snd_combine, Hl. }
    repeat split; [apply Permutation_map, P'|rewrite C1 by exact Lp; exact F1|rewrite C1 by exact Lp'; reflexivity|apply C2, Lp|apply C2, Lp'].
  - cbn [gp_x gp_y gp_zs gp_t gp_tr]. repeat split. exists (map (fun f => (f, x0)) L), (map (fun f => (f, x0)) L'). rewrite !map_map. cbn [fst snd]. rewrite !map_id. repeat split; [apply Permutation_map, HP| |]; clear; [induction L|induction L']; cbn; congruence.
Qed.
Lemma o_gpg (fs fs' : list (Op E)) (L L' : list (Op E * R * R)) x0 tau eta n accel r : Permutation fs fs' -> Permutation L L' ->
  GeneralizedProximalGradient fs (map fst (map fst L)) x0 tau (map snd (map fst L)) (Some (map snd L)) eta n accel = Ok r -> GeneralizedProximalGradient fs' (map fst (map fst L')) x0 tau (map snd (map fst L')) (Some (map snd L')) eta n accel = Ok r.
Proof.
  intros HF HP. unfold GeneralizedProximalGradient. rewrite !map_length, !Nat.eqb_refl. rewrite <- (Rsum_perm _ _ (Permutation_map snd HP)). destruct (Reqb (Rsum (map snd L)) 1); cbn [andb negb]; [|discriminate]. destruct (accel_known accel); [|discriminate].
  assert (He : forall N : list (Op E * R * R), match map snd (map fst N) with [e] => repeat e (List.length N) | _ => map snd (map fst N) end = map snd (map fst N)) by (intros [|? [|? ?]]; reflexivity). rewrite !He. intro H.
  destruct (for_loop _ n 0 _) as [[s k]|] eqn:El in H; cbn [bind fst snd] in H; [|discriminate]. destruct (o_gpg_loop fs fs' L L' x0 _ eta n accel s k HF HP El) as (t & -> & H1 & H2). cbn [bind fst snd]. rewrite H1, H2. exact H.
Qed.
End O.

(*! C88_dual_algebra : for an operator whose proxdual is the one derived from its prox, the proxdual of c * g.precomposition(a, d) is that of c g(a y + d) in terms of g's, and again
   derived from its prox *)
Lemma C88_dual_algebra_l : forall (F : IPS) (g : Op F) c a d k k', 0 < c -> a <> 0 -> inherits_dual g ->
  let g' := obj (S (S k)) (post_body (obj (S k') (pre_body g a d)) c) in units_dual c a d g g' /\ inherits_dual g'.
Proof.
  intros F g c a d k k' Hc Ha Hg g'. assert (Ha2 : 0 < a ^ 2) by (cbn; rewrite Rmult_1_r; apply Rsqr_pos_lt; exact Ha). assert (Hca : 0 < c * a ^ 2) by (apply Rmult_lt_0_compat; assumption).
  assert (Hi : inherits_dual g').
  { intros y t Ht. unfold g'. assert (0 < 1 / t) by (apply Rdiv_lt_0_compat; lra). cbn [obj o_prox o_proxdual d_prox d_proxdual b_prox b_proxdual post_body]. unfold check_tau at 1. destruct (Rleb_spec t 0) as [[? _]|[_ ->]]; [lra|]. reflexivity. }
  split; [|exact Hi]. intros y t Ht. rewrite Hi by exact Ht. assert (H1 : 0 < 1 / t) by (apply Rdiv_lt_0_compat; lra). assert (H2 : 0 < t / (c * a ^ 2)) by (apply Rdiv_lt_0_compat; lra).
  rewrite (proj1 (proj1 (C88_algebra_l F g c a d (S k) k' Hc Ha))) by exact H1. rewrite Hg by exact H2.
  replace (/ (t / (c * a ^ 2)) [*] (/ (c * a) [*] y [+] (t / (c * a ^ 2)) [*] d)) with (a [*] (/ t [*] y) [+] d) by (vext w; field; repeat split; lra). replace (1 / (t / (c * a ^ 2))) with (c * a ^ 2 * (1 / t)) by (field; repeat split; lra).
  destruct (o_prox g _ _) as [p|]; cbn [bind]; [|reflexivity]. f_equal. vext w. field. repeat split; lra.
Qed.

(*! C88_proximal_point : ProximalPoint on c f(a x + b) from x0 with step tau is ProximalPoint on f from a x0 + b with step c a^2 tau, mapped back: returned vector, callbacks, number of
   iterations under a tolerance and errors *)
Lemma C88_proximal_point_l : forall (E : IPS) c a (b : E), 0 < c -> a <> 0 -> forall (f f' : Op E) x0 tau n tol, units c a b f f' -> 0 < tau ->
  ProximalPoint f' x0 tau n tol = (r <- ProximalPoint f (fwd a b x0) (c * a ^ 2 * tau) n tol ;; Ok (back a b (fst r), map (back a b) (snd r))).
Proof. intros E c a b Hc Ha f f' x0 tau n tol. apply u_pp; assumption. Qed.

(*! C88_splitting : the same for DouglasRachfordSplitting, ADMM and HQS (with one step or a list of steps), in both orders *)
Lemma C88_splitting_l : forall (E : IPS) c a (b : E), 0 < c -> a <> 0 -> forall (f f' g g' : Op E) n gfirst, units c a b f f' -> units c a b g g' ->
  let both := fun p => (back a b (fst p), back a b (snd p)) in
  (forall x0 tau eta, 0 < tau -> DouglasRachford f' g' x0 tau eta n gfirst = (r <- DouglasRachford f g (fwd a b x0) (c * a ^ 2 * tau) eta n gfirst ;; Ok (both (fst r), map both (snd r)))) /\
  (forall x0 z0 tau, 0 < tau -> ADMM f' g' x0 tau n z0 gfirst = (r <- ADMM f g (option_map (fwd a b) x0) (c * a ^ 2 * tau) n (option_map (fwd a b) z0) gfirst ;; Ok (both (fst r), map both (snd r)))) /\
  (forall x0 z0 taus, Forall (fun t => 0 < t) taus -> HQS f' g' x0 taus n z0 gfirst = (r <- HQS f g (option_map (fwd a b) x0) (map (Rmult (c * a ^ 2)) taus) n (option_map (fwd a b) z0) gfirst ;; Ok (both (fst r), map both (snd r)))).
Proof.
  intros E c a b Hc Ha f f' g g' n gfirst Hf Hg both. split; [|split].
  - intros x0 tau eta Ht. apply u_dr; assumption.
  - intros x0 z0 tau Ht. apply u_admm; assumption.
  - intros x0 z0 taus Ht. apply u_hqs; assumption.
Qed.

(*! C88_proximal_gradient : the same for ProximalGradient with every option: backtracking, acceleration, relaxation, a list of epsg, a tolerance *)
Lemma C88_proximal_gradient_l : forall (E : IPS) c a (b : E), 0 < c -> a <> 0 -> forall (f f' g g' : Op E) x0 epsg tau bt beta eta n nb accel tol, units c a b f f' -> units c a b g g' ->
  Forall (fun e => 0 < e) epsg -> 0 < tau -> 0 < beta ->
  ProximalGradient f' g' x0 epsg (Some tau) bt beta eta n nb accel tol = (r <- ProximalGradient f g (fwd a b x0) epsg (Some (c * a ^ 2 * tau)) bt beta eta n nb accel tol ;; Ok (back a b (fst r), map (back a b) (snd r))).
Proof. intros E c a b Hc Ha f f' g g' x0 epsg tau bt beta eta n nb accel tol. apply u_pg; assumption. Qed.

(*! C88_many : the same for PPXA, ConsensusADMM (the tolerance on the entries times |a|) and GeneralizedProximalGradient, with any number of functions and any positive weights that sum to 1 *)
Lemma C88_many_l : forall (E : IPS) c a (b : E), 0 < c -> a <> 0 -> forall (fs fs' gs gs' : list (Op E)) n, Forall2 (units c a b) fs fs' -> Forall2 (units c a b) gs gs' ->
  (forall x0 tau eta w amax tol, 0 < tau -> weights_ok w -> homogeneous amax ->
    PPXA fs' x0 tau eta w n amax tol = (r <- PPXA fs (fwd_init a b x0) (c * a ^ 2 * tau) eta w n amax (option_map (Rmult (Rabs a)) tol) ;; Ok (back a b (fst r), map (back a b) (snd r)))) /\
  (forall x0 tau amax tol, 0 < tau -> homogeneous amax ->
    ConsensusADMM fs' x0 tau n amax tol = (r <- ConsensusADMM fs (fwd a b x0) (c * a ^ 2 * tau) n amax (option_map (Rmult (Rabs a)) tol) ;; Ok (back a b (fst r), map (back a b) (snd r)))) /\
  (forall x0 tau eps w eta accel, 0 < tau -> Forall (fun e => 0 < e) eps -> weights_ok w ->
    GeneralizedProximalGradient fs' gs' x0 (Some tau) eps w eta n accel = (r <- GeneralizedProximalGradient fs gs (fwd a b x0) (Some (c * a ^ 2 * tau)) eps w eta n accel ;; Ok (back a b (fst r), map (back a b) (snd r)))).
Proof.
  intros E c a b Hc Ha fs fs' gs gs' n Hf Hg. split; [|split].
  - intros. apply u_ppxa; assumption.
  - intros. apply u_cadmm; assumption.
  - intros. apply u_gpg; assumption.
Qed.

(*! C88_operator : the same for the solvers with an operator A, g being moved to c g(a y + A b): LinearizedADMM; PrimalDual with constant or listed steps, whose mu is divided by c a^2
   and whose y and z are divided by c a, in both orders, also with an A that returns its argument *)
Lemma C88_operator_l : forall (E F : IPS) (A : linop E F) c a (b : E), 0 < c -> a <> 0 -> forall (f f' : Op E) (g g' : Op F) n, units c a b f f' ->
  (forall x0 z0 tau mu, units c a (lapp A b) g g' -> 0 < tau -> 0 < mu -> LinearizedADMM f' g' A x0 tau mu n z0 =
    (r <- LinearizedADMM f g A (option_map (fwd a b) x0) (c * a ^ 2 * tau) (c * a ^ 2 * mu) n (option_map (fwd a (lapp A b)) z0) ;; Ok (back a b (fst (fst r)), back a (lapp A b) (snd (fst r)), map (back a b) (snd r)))) /\
  (forall alias x0 tau mu y0 z theta gfirst, units_dual c a (lapp A b) g g' -> steps_pos tau -> steps_pos mu -> (forall h, alias = Some h -> forall k x, h (k [*] x) = k [*] h x) ->
    PrimalDual f' g' A alias x0 tau mu y0 z theta n gfirst =
    (r <- PrimalDual f g A alias (fwd a b x0) (fwd_steps (c * a ^ 2) tau) (fwd_steps (/ (c * a ^ 2)) mu) (option_map (vscal (/ (c * a))) y0) (option_map (vscal (/ (c * a))) z) theta n gfirst ;;
     Ok (back a b (fst (fst r)), (c * a) [*] snd (fst r), map (fun p => (back a b (fst p), (c * a) [*] snd p)) (snd r)))).
Proof.
  intros E F A c a b Hc Ha f f' g g' n Hf. split.
  - intros. apply u_ladmm; assumption.
  - intros. apply u_pd; assumption.
Qed.

(*! C88_order : PPXA, ConsensusADMM and GeneralizedProximalGradient return the same vector and call back with the same vectors in whatever order the functions (each with its weight,
   epsilon and starting vector) are listed *)
Lemma C88_order_l : forall (E : IPS) n,
  (forall (l l' : list (Op E * R * E)) tau eta amax tol r, Permutation l l' ->
    PPXA (map fst (map fst l)) (PerFun (map snd l)) tau eta (Some (map snd (map fst l))) n amax tol = Ok r -> PPXA (map fst (map fst l')) (PerFun (map snd l')) tau eta (Some (map snd (map fst l'))) n amax tol = Ok r) /\
  (forall (fs fs' : list (Op E)) x0 tau eta amax tol r, Permutation fs fs' -> PPXA fs (Common x0) tau eta None n amax tol = Ok r -> PPXA fs' (Common x0) tau eta None n amax tol = Ok r) /\
  (forall (fs fs' : list (Op E)) x0 tau amax tol r, Permutation fs fs' -> ConsensusADMM fs x0 tau n amax tol = Ok r -> ConsensusADMM fs' x0 tau n amax tol = Ok r) /\
  (forall (fs fs' : list (Op E)) (l l' : list (Op E * R * R)) x0 tau eta accel r, Permutation fs fs' -> Permutation l l' ->
    GeneralizedProximalGradient fs (map fst (map fst l)) x0 tau (map snd (map fst l)) (Some (map snd l)) eta n accel = Ok r -> GeneralizedProximalGradient fs' (map fst (map fst l')) x0 tau (map snd (map fst l')) (Some (map snd l')) eta n accel = Ok r) /\
  (forall (fs fs' gs gs' : list (Op E)) x0 tau e eta accel r, Permutation fs fs' -> Permutation gs gs' ->
    GeneralizedProximalGradient fs gs x0 tau [e] None eta n accel = Ok r -> GeneralizedProximalGradient fs' gs' x0 tau [e] None eta n accel = Ok r).
Proof.
  intros E n. split; [|split; [|split; [|split]]].
  - intros. eapply o_ppxa; eassumption.
  - intros fs fs' x0 tau eta amax tol r P H.
    assert (G : forall os : list (Op E), List.length os = List.length fs -> forall r, PPXA os (Common x0) tau eta None n amax tol = Ok r <-> List.length fs <> 0%nat /\ PPXA (map fst (map fst (map (fun f => (f, 1 / INR (List.length fs), x0)) os))) (PerFun (map snd (map (fun f => (f, 1 / INR (List.length fs), x0)) os))) tau eta (Some (map snd (map fst (map (fun f => (f, 1 / INR (List.length fs), x0)) os)))) n amax tol = Ok r).
    { intros os Lo r0. rewrite !map_map. cbn [fst snd]. rewrite map_id. assert (Hr : forall (v : R), map (fun _ : Op E => v) os = repeat v (List.length fs)) by (intro v; rewrite <- Lo; clear; induction os; cbn; congruence). assert (Hr' : map (fun _ : Op E => x0) os = repeat x0 (List.length fs)) by (rewrite <- Lo; clear; induction os; cbn; congruence). rewrite Hr, Hr'.
      unfold PPXA. rewrite Lo. unfold pydiv. destruct (Nat.eq_dec (List.length fs) 0) as [Z|Z].
      - rewrite Z. cbn [INR]. destruct (Reqb_spec 0 0) as [[_ ->]|[? _]]; [|lra]. cbn [bind]. split; [discriminate|intros [N _]; congruence].
      - assert (INR (List.length fs) <> 0) by (apply not_0_INR, Z). destruct (Reqb_spec (INR (List.length fs)) 0) as [[? _]|[_ ->]]; [lra|]. cbn [bind]. tauto. }
    apply (G fs eq_refl) in H. destruct H as [N H]. apply (G fs'); [symmetry; apply Permutation_length, P|]. split; [exact N|]. eapply o_ppxa; [|exact H]. apply Permutation_map, P.
  - intros. eapply o_cadmm; eassumption.
  - intros. eapply o_gpg; eassumption.
  - intros fs fs' gs gs' x0 tau e eta accel r PF PG H. set (m := List.length gs).
    assert (G : forall fs os : list (Op E), List.length os = m -> GeneralizedProximalGradient fs os x0 tau [e] None eta n accel = GeneralizedProximalGradient fs (map fst (map fst (map (fun f => (f, e, 1 / INR m)) os))) x0 tau (map snd (map fst (map (fun f => (f, e, 1 / INR m)) os))) (Some (map snd (map (fun f => (f, e, 1 / INR m)) os))) eta n accel).
    { intros fs0 os Lo. rewrite !map_map. cbn [fst snd]. rewrite map_id. assert (Hr : forall (v : R), map (fun _ : Op E => v) os = repeat v m) by (intro v; rewrite <- Lo; clear; induction os; cbn; congruence). rewrite !Hr. unfold GeneralizedProximalGradient. rewrite Lo. destruct m as [|[|m']]; reflexivity. }
    rewrite G in H by reflexivity. rewrite G by (symmetry; apply Permutation_length, PG). eapply o_gpg; [exact PF| |exact H]. apply Permutation_map, PG.
Qed.

(*! C88_weights_refuted : PPXA accepts weights that do not sum to 1, and then where the origin is decides the result: on two zero functions with weights 1, 1 one iteration takes x0 = 1
   to 2, while the same problem seen from the point 1 (where it starts at the origin) stays at x0 *)
Lemma C88_weights_refuted_l : units 1 1 (-1 : R_IPS) zero1 zero1 /\ back 1 (-1 : R_IPS) (0 : R_IPS) = 1 /\ exists tr tr',
  PPXA [zero1; zero1] (Common (1:R_IPS)) 1 1 (Some [1; 1]) 1 Rabs (Some 0) = Ok (2, tr) /\ PPXA [zero1; zero1] (fwd_init 1 (-1 : R_IPS) (Common (1:R_IPS))) 1 1 (Some [1; 1]) 1 Rabs (Some 0) = Ok (0, tr').
Proof.
  split; [|split].
  - repeat split; intros x; [intros t Ht| |]; cbn; f_equal; fq.
  - cbn. fq.
  - do 2 eexists. unfold PPXA, ppxa_body, stack_all, wsum, fwd_init, fwd. split; ev; do 2 f_equal; fq.
Qed.

(*!ex C88_example : (x-1)^2/2 is x^2/2 moved to the point 1, and 2 (3x+1)^2/2 is reached by the operator algebra; x^2/2 has the inherited dual prox, the absolute value is homogeneous; from 0
   with step 1 DouglasRachfordSplitting on two copies of (x-1)^2/2 returns 1/2 after one iteration, and on two copies of x^2/2 from -1 it returns -1/2 *)
Lemma C88_example_l : units 1 1 (-1 : R_IPS) half1 shifted1 /\ units 2 3 (1 : R_IPS) half1 (obj 2 (post_body (obj 2 (pre_body half1 3 1)) 2)) /\ inherits_dual half1 /\ homogeneous (E:=R_IPS) Rabs /\ weights_ok (Some [1/3; 2/3]) /\
  (exists y tr, DouglasRachford shifted1 shifted1 (0:R_IPS) 1 1 1 false = Ok (1/2, y, tr)) /\ (exists y tr, DouglasRachford half1 half1 (-1:R_IPS) 1 1 1 false = Ok (-(1/2), y, tr)) /\ back 1 (-1 : R_IPS) (-(1/2) : R_IPS) = 1/2.
Proof.
  split; [|split; [|split; [|split; [|split; [|split; [|split]]]]]].
  - repeat split; intros x; [intros t Ht| |]; cbn; f_equal; fq.
  - apply C88_algebra_l; lra.
  - intros y t Ht. cbn. f_equal. fq.
  - intros k x. cbn. apply Rabs_mult.
  - split; [repeat constructor; lra|cbn; lra].
  - do 2 eexists. cbn. do 3 f_equal; fq.
  - do 2 eexists. cbn. do 3 f_equal; fq.
  - cbn. fq.
Qed.
