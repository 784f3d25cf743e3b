(** * Integer arrays: solvers and in-place updates *)
From Coq Require Import String Psatz.
From Verif Require Import Base Space Spec SpecOps Sep VSum MatFacts ConvexFacts M_ProxOp P_ProxOp M_L1 P_L1 M_Pen P_Pen M_Proj M_Norms M_Loop LoopFacts M_PG M_Split SplitMath M_Multi M_Dyk M_VStack LoopFacts2 S_Seq Fejer P_Iter S_PG3 P_PG3 P_Split2 M_Int P_Int.
Open Scope result_scope.
Open Scope R_scope.

(** ** DouglasRachfordSplitting *)
Lemma adr_sim {E : IPS} (af ag : aop E) (f g : Op E) tau eta gfirst : on_floats f af -> on_floats g ag ->
  forall m i j s t t' k, ad_y s = Arr false (M_Split.d_y t) -> for_loop (dr_body f g tau eta gfirst) m j t = Ok (t', k) ->
  exists s', for_loop (adr_body af ag tau eta gfirst) m i s = Ok (s', (i + m)%nat) /\ ad_y s' = Arr false (M_Split.d_y t') /\ (m <> 0%nat -> ad_x s' = option_map (Arr false) (M_Split.d_x t')).
Proof.
  intros [Hf _] [Hg _]. induction m as [|m IH]; intros i j s t t' k Hy H.
  - cbn [for_loop] in *. injection H as <- <-. exists s. rewrite Nat.add_0_r. split; [reflexivity|]. split; [exact Hy|contradiction].
  - cbn [for_loop] in *. unfold adr_body at 1. unfold dr_body at 1 in H. rewrite Hy.
    assert (Step : exists x y, (if gfirst then x <- o_prox g (M_Split.d_y t) tau ;; p <- o_prox f (2 [*] x [-] M_Split.d_y t) tau ;; Ok (x, M_Split.d_y t [+] eta [*] (p [-] x))
         else x <- o_prox f (M_Split.d_y t) tau ;; p <- o_prox g (2 [*] x [-] M_Split.d_y t) tau ;; Ok (x, M_Split.d_y t [+] eta [*] (p [-] x))) = Ok (x, y) /\
       (if gfirst then x <- ao_prox ag (Arr false (M_Split.d_y t)) tau ;; p <- ao_prox af (np_sub (np_twice x) (Arr false (M_Split.d_y t))) tau ;; Ok (x, np_add (Arr false (M_Split.d_y t)) (np_fmul eta (np_sub p x)))
         else x <- ao_prox af (Arr false (M_Split.d_y t)) tau ;; p <- ao_prox ag (np_sub (np_twice x) (Arr false (M_Split.d_y t))) tau ;; Ok (x, np_add (Arr false (M_Split.d_y t)) (np_fmul eta (np_sub p x)))) = Ok (Arr false x, Arr false y)).
    { destruct gfirst.
      - rewrite Hg. destruct (o_prox g (M_Split.d_y t) tau) as [x|e]; [|discriminate]. cbn [bind] in *. unfold np_sub at 1, np_twice. cbn [a_int a_val andb]. rewrite Hf. destruct (o_prox f (2 [*] x [-] M_Split.d_y t) tau) as [p|e]; [|discriminate]. cbn [bind].
        exists x, (M_Split.d_y t [+] eta [*] (p [-] x)). split; reflexivity.
      - rewrite Hf. destruct (o_prox f (M_Split.d_y t) tau) as [x|e]; [|discriminate]. cbn [bind] in *. unfold np_sub at 1, np_twice. cbn [a_int a_val andb]. rewrite Hg. destruct (o_prox g (2 [*] x [-] M_Split.d_y t) tau) as [p|e]; [|discriminate]. cbn [bind].
        exists x, (M_Split.d_y t [+] eta [*] (p [-] x)). split; reflexivity. }
    destruct Step as (x & y & E1 & E2). rewrite E1 in H. rewrite E2. cbn [bind fst snd] in *.
    destruct (IH (S i) (S j) (ADR (Some (Arr false x)) (Arr false y) (ad_tr s ++ [(Arr false x, Arr false y)])) (DR (Some x) y (M_Split.d_tr t ++ [(x, y)])) t' k eq_refl H) as (s' & R & Y & X).
    exists s'. rewrite R. rewrite <- plus_n_Sm. split; [reflexivity|]. split; [exact Y|]. intros _. destruct m as [|m]; [|apply X; lia].
    cbn [for_loop] in R, H. injection R as <-. injection H as <- _. reflexivity.
Qed.

(*! C83_douglas_rachford : DouglasRachfordSplitting started from integers, the first prox steps being evaluated on integer arrays by operators that may return
   anything there: under the assumptions of the float case (exact proxes on float arrays, convex functions, a solution with a multiplier, 0 < eta < 2, finite
   dimension) the returned vectors still converge to a minimiser of f + g *)
Lemma C83_douglas_rachford_l : forall (E : IPS) (af ag : aop E) (proxf proxg : Op E) f g x0 tau eta (gfirst : bool), bw E ->
  on_floats proxf af -> on_floats proxg ag -> (forall x, exists p, ao_prox af x tau = Ok p) -> (forall x, exists p, ao_prox ag x tau = Ok p) ->
  impl_prox proxf f -> impl_prox proxg g -> convex f -> convex g -> 0 < tau -> 0 < eta < 2 -> (exists x u, kkt f g x u) ->
  exists xs ys l, (forall n, exists tr, aDouglasRachford af ag (Arr true x0) tau eta (S n) gfirst = Ok (xs n, ys n, tr)) /\
    is_min (eadd f g) l /\ vcv (fun n => a_val (xs n)) l.
Proof.
  intros E af ag proxf proxg f g x0 tau eta gfirst HB Of Og Tf Tg If Ig Cf Cg Ht He Hk.
  assert (F1 : exists x1 v1, forall i, adr_body af ag tau eta gfirst i (ADR None (Arr true x0) []) = Ok (ADR (Some x1) (Arr false v1) [(x1, Arr false v1)], false)).
  { unfold adr_body. cbn [ad_y ad_tr]. destruct gfirst.
    - destruct (Tg (Arr true x0)) as [x1 E1]. rewrite E1. cbn [bind]. destruct (Tf (np_sub (np_twice x1) (Arr true x0))) as [p E2]. rewrite E2. cbn [bind fst snd]. unfold np_add, np_fmul. cbn [a_int a_val andb]. do 2 eexists. reflexivity.
    - destruct (Tf (Arr true x0)) as [x1 E1]. rewrite E1. cbn [bind]. destruct (Tg (np_sub (np_twice x1) (Arr true x0))) as [p E2]. rewrite E2. cbn [bind fst snd]. unfold np_add, np_fmul. cbn [a_int a_val andb]. do 2 eexists. reflexivity. }
  destruct F1 as (x1 & v1 & F1).
  destruct (C75_douglas_rachford_l E proxf proxg f g v1 tau eta gfirst HB If Ig Cf Cg Ht He Hk) as (xs & ys & l & u & HR & _ & Hm & Hx & _).
  exists (fun n => match n with O => x1 | S n => Arr false (xs n) end), (fun n => match n with O => Arr false v1 | S n => Arr false (ys n) end), l.
  split; [|split; [exact Hm|]].
  - intro n. unfold aDouglasRachford. destruct n as [|n]; cbn [for_loop]; rewrite F1; cbn [bind fst snd].
    + eexists. reflexivity.
    + destruct (HR n) as [tr Hn]. unfold DouglasRachford in Hn.
      destruct (for_loop (dr_body proxf proxg tau eta gfirst) (S n) 0 (DR None v1 [])) as [[t' k]|e] eqn:EL; [|discriminate]. cbn [bind fst snd] in Hn.
      destruct (M_Split.d_x t') as [xx|] eqn:EX; [|discriminate]. injection Hn as E1 E2 E3.
      destruct (adr_sim af ag proxf proxg tau eta gfirst Of Og (S n) 1 0 (ADR (Some x1) (Arr false v1) [(x1, Arr false v1)]) (DR None v1 []) t' k eq_refl EL) as (s' & R & Y & X).
      match goal with |- context[for_loop ?b (S n) 1%nat ?s] => change (for_loop b (S n) 1%nat s) with (for_loop (adr_body af ag tau eta gfirst) (S n) 1 (ADR (Some x1) (Arr false v1) [(x1, Arr false v1)])) | _ => idtac end.
      cbn [for_loop] in R. rewrite R. cbn [bind fst snd]. rewrite X by lia. rewrite EX. cbn [option_map]. rewrite Y, E1, E2. eexists. reflexivity.
  - apply vcv_unshift. exact Hx.
Qed.

(** ** GeneralizedProximalGradient *)
(*! C83_generalized_pg_refuted : GeneralizedProximalGradient cannot be started from integers: with at least one non-smooth function and one iteration it never
   returns, and raises TypeError whenever the operators themselves do not raise (any smooth functions, weights that sum to 1, any acceleration) *)
Lemma C83_generalized_pg_refuted_l : forall (E : IPS) (proxfs proxgs : list (aop E)) (x0 : E) tau epsg weights eta niter accel, proxgs <> [] -> (1 <= niter)%nat ->
  (forall r, aGeneralizedProximalGradient proxfs proxgs (Arr true x0) tau epsg weights eta niter accel <> Ok r) /\
  ((forall o x, In o proxfs -> exists g, ao_grad o x = Ok g) -> (forall o x t, In o proxgs -> exists p, ao_prox o x t = Ok p) ->
   (exists e, epsg = [e]) -> (exists w, weights = Some w /\ length w = length proxgs /\ Rsum w = 1 /\ forall a, In a w -> a <> 0) -> accel_known accel = true ->
   aGeneralizedProximalGradient proxfs proxgs (Arr true x0) tau epsg weights eta niter accel = Err TypeError).
Proof.
  intros E proxfs proxgs x0 tau epsg weights eta niter accel Hg Hn. destruct niter as [|niter]; [lia|]. destruct proxgs as [|o os]; [contradiction|].
  assert (GI : forall (l : list (aop E)) x acc g, a_int acc = true -> agrad_all l x acc = Ok g -> a_int g = true).
  { induction l as [|o' l IH]; intros x acc g Ha H; cbn [agrad_all] in H; [injection H as <-; auto|]. destruct (ao_grad o' x) as [g'|]; [|discriminate]. cbn [bind] in H. unfold iadd in H. rewrite Ha in H. destruct (a_int g') eqn:G; cbn [andb negb bind] in H; [|discriminate].
    apply (IH x (Arr true (a_val acc [+] a_val g')) g); auto. }
  split.
  - intros r H. unfold aGeneralizedProximalGradient in H. destruct (negb _); [discriminate|]. destruct (accel_known accel); [|discriminate]. cbn [for_loop] in H. unfold agpg_body at 1 in H. cbn [ag_x ag_y ag_zs ag_t ag_tr] in H.
    destruct (agrad_all proxfs (Arr true x0) (zeros_like (Arr true x0))) as [g|]; [|discriminate]. cbn [bind] in H. cbn [agpg_zs length repeat] in H.
    destruct (match epsg with [] => epsg | [e] => e :: repeat e (length os) | e :: _ :: _ => epsg end) as [|e eps]; [discriminate|].
    destruct (match weights with Some w => w | None => _ end) as [|w ws]; [discriminate|]. destruct (pydiv _ w) as [t|]; [|discriminate]. cbn [bind] in H. destruct (ao_prox o _ t) as [p|]; [|discriminate]. cbn [bind] in H. unfold iadd at 1 in H. cbn [a_int np_fmul andb negb bind] in H. discriminate.
  - intros Tf Tg [e ->] (w & -> & Hl & Hs & Hw) Ha. unfold aGeneralizedProximalGradient. rewrite Hl, Nat.eqb_refl, Hs. destruct (Reqb_spec 1 1) as [[_ ->]|[? _]]; [|contradiction]. cbn [andb negb]. rewrite Ha. cbn [for_loop]. unfold agpg_body at 1. cbn [ag_x ag_y ag_zs ag_t ag_tr].
    assert (GT : forall (l : list (aop E)) x acc, (forall o x, In o l -> exists g, ao_grad o x = Ok g) -> (exists g, agrad_all l x acc = Ok g) \/ agrad_all l x acc = Err TypeError).
    { induction l as [|o' l IH]; intros x acc HT; cbn [agrad_all]; [left; eauto|]. destruct (HT o' x (or_introl eq_refl)) as [g ->]. cbn [bind]. unfold iadd. destruct (a_int acc && negb (a_int g))%bool; cbn [bind]; [right; reflexivity|]. apply IH. intros o'' x' Hi. apply HT. right; auto. }
    destruct (GT proxfs (Arr true x0) (zeros_like (Arr true x0)) Tf) as [[g ->]| ->]; [|reflexivity]. cbn [bind]. cbn [agpg_zs length repeat].
    destruct w as [|w ws]; [discriminate|]. unfold pydiv. destruct (Reqb_spec w 0) as [[Z _]|[_ ->]]; [exfalso; apply (Hw w); [left; auto|exact Z]|]. cbn [bind]. match goal with |- context[ao_prox o ?a ?t] => destruct (Tg o a t (or_introl eq_refl)) as [p ->] end. cbn [bind]. unfold iadd at 1. cbn [a_int np_fmul andb negb bind]. reflexivity.
Qed.

Lemma F2_length {A B} (P : A -> B -> Prop) l l' : Forall2 P l l' -> length l = length l'.
Proof. intro H. induction H; cbn [length]; auto. Qed.
Lemma agrad_float {E : IPS} : forall (fs : list (Op E)) (afs : list (aop E)), Forall2 on_floats fs afs -> forall v acc,
  agrad_all afs (Arr false v) (Arr false acc) = (g <- grad_all fs v ;; Ok (Arr false (acc [+] g))).
Proof.
  intros fs afs H. induction H as [|o a fs afs [_ Ho] H IH]; intros v acc; cbn [agrad_all grad_all bind]; [do 2 f_equal; vring|].
  rewrite Ho. destruct (get_grad o v) as [g|]; [|reflexivity]. cbn [bind]. unfold iadd. cbn [a_int a_val andb bind]. rewrite IH. destruct (grad_all fs v) as [gs|]; [|reflexivity]. cbn [bind]. do 2 f_equal. vring.
Qed.
Lemma agpg_zs_float {E : IPS} tau eta y grad : forall (gs : list (Op E)) (ags : list (aop E)), Forall2 on_floats gs ags -> forall zs eps w x,
  agpg_zs ags (Arr false y) (Arr false grad) tau eta (map (Arr false) zs) eps w (Arr false x) =
  (r <- gpg_zs gs y grad tau eta zs eps w ;; Ok (map (Arr false) (fst r), Arr false (x [+] snd r))).
Proof.
  intros gs ags H. induction H as [|o a gs ags [Ho _] H IH]; intros zs eps w x; cbn [agpg_zs gpg_zs bind fst snd map]; [do 3 f_equal; vring|].
  destruct zs as [|z zs]; [reflexivity|]. destruct eps as [|e eps]; [reflexivity|]. destruct w as [|w ws]; [reflexivity|]. cbn [map]. destruct (pydiv (tau * e) w) as [t|]; [|reflexivity]. cbn [bind].
  unfold np_sub at 1 2, np_twice. cbn [a_int a_val andb]. rewrite Ho. change (a_val (np_fmul tau (Arr false grad))) with (tau [*] grad). destruct (o_prox o (2 [*] y [-] z [-] tau [*] grad) t) as [p|]; [|reflexivity]. cbn [bind].
  unfold iadd at 1. cbn [a_int a_val andb bind np_fmul np_sub]. unfold iadd at 1. cbn [a_int a_val andb bind np_fmul]. rewrite IH. destruct (gpg_zs gs y grad tau eta zs eps ws) as [r|]; [|reflexivity]. cbn [bind fst snd map]. do 3 f_equal. vring.
Qed.

(*! C83_generalized_pg_float : started from floats the same code is the solver of the other properties: same vector, same callbacks, same exceptions *)
Lemma C83_generalized_pg_float_l : forall (E : IPS) (fs gs : list (Op E)) (afs ags : list (aop E)) x0 tau epsg weights eta niter accel,
  Forall2 on_floats fs afs -> Forall2 on_floats gs ags ->
  aGeneralizedProximalGradient afs ags (Arr false x0) tau epsg weights eta niter accel =
  (r <- GeneralizedProximalGradient fs gs x0 tau epsg weights eta niter accel ;; Ok (Arr false (fst r), map (Arr false) (snd r))).
Proof.
  intros E fs gs afs ags x0 tau epsg weights eta niter accel Hf Hg. unfold aGeneralizedProximalGradient, GeneralizedProximalGradient. rewrite <- (F2_length _ _ _ Hg).
  destruct (negb _); [reflexivity|]. destruct (accel_known accel); [|reflexivity].
  set (ta := match tau with None => 1 | Some t => t end). set (ep := match epsg with [e] => _ | _ => epsg end). set (w := match weights with None => _ | Some w => w end).
  set (lift := fun s : gpg_state E => AGP (Arr false (gp_x s)) (Arr false (gp_y s)) (map (Arr false) (gp_zs s)) (gp_t s) (map (Arr false) (gp_tr s))).
  assert (B : forall i s, agpg_body afs ags ta ep w eta accel i (lift s) = (p <- gpg_body fs gs ta ep w eta accel i s ;; Ok (lift (fst p), snd p))).
  { intros i s. unfold agpg_body, gpg_body. cbn [ag_x ag_y ag_zs ag_t ag_tr lift]. unfold zeros_like. cbn [a_int]. rewrite (agrad_float fs afs Hf). destruct (grad_all fs (gp_x s)) as [g|]; [|reflexivity]. cbn [bind].
    replace (vzero [+] g) with g by vring. rewrite (agpg_zs_float ta eta (gp_y s) g gs ags Hg). destruct (gpg_zs gs (gp_y s) g ta eta (gp_zs s) ep w) as [r|]; [|reflexivity]. cbn [bind fst snd]. replace (vzero [+] snd r) with (snd r) by vring.
    unfold lift. cbn [gp_x gp_y gp_zs gp_t gp_tr]. rewrite map_app. reflexivity. }
  assert (L : forall m i s, for_loop (agpg_body afs ags ta ep w eta accel) m i (lift s) = (r <- for_loop (gpg_body fs gs ta ep w eta accel) m i s ;; Ok (lift (fst r), snd r))).
  { induction m as [|m IH]; intros i s; cbn [for_loop bind fst snd]; [reflexivity|]. rewrite B. destruct (gpg_body fs gs ta ep w eta accel i s) as [[s' b]|]; [|reflexivity]. cbn [bind fst snd]. destruct b; [reflexivity|]. apply IH. }
  replace (AGP (Arr false x0) (Arr false x0) (repeat (Arr false x0) (length gs)) 1 []) with (lift (GP x0 x0 (repeat x0 (length gs)) 1 [])).
  - rewrite L. destruct (for_loop _ niter 0 _) as [[s k]|]; reflexivity.
  - unfold lift. cbn [gp_x gp_y gp_zs gp_t gp_tr map]. f_equal. clearbody ep w. clear. induction (length gs) as [|m IH]; [reflexivity|]. cbn [repeat map]. rewrite IH. reflexivity.
Qed.

(** ** L2 and Orthogonal *)
(*! C83_l2 : L2 without operator, sigma >= 0, tau > 0: on floats the result is the proximal point of sigma/2 |x - b|^2 + alpha <q, x>, and on integers it is the same
   point, except with q given and b missing, where it raises TypeError for every integer array *)
Lemma C83_l2_l : forall (E : IPS) sigma alpha (b q : option E) isint (x : E) tau, 0 <= sigma -> 0 < tau ->
  (isint = true /\ b = None /\ q <> None /\ al2_prox sigma alpha b q (Arr isint x) tau = Err TypeError) \/
  ((isint = false \/ b <> None \/ q = None) /\ exists p, al2_prox sigma alpha b q (Arr isint x) tau = Ok (Arr false p) /\
    is_prox (etot (fun v => sigma / 2 * norm2 (v [-] match b with Some b => b | None => vzero end) + alpha * << match q with Some q => q | None => vzero end, v >>)) tau x p).
Proof.
  intros E sigma alpha b q isint x tau Hs Ht.
  assert (ST : 0 <= tau * sigma) by (apply Rmult_le_pos; lra).
  assert (T : Rleb tau 0 = false) by (destruct (Rleb_spec tau 0) as [[? ?]|[? ?]]; [lra|auto]).
  assert (P : forall b q : E, is_prox (etot (fun v => sigma / 2 * norm2 (v [-] b) + alpha * << q, v >>)) tau x (/ (1 + tau * sigma) [*] (x [+] tau [*] (sigma [*] b) [+] -1 [*] ((tau * alpha) [*] q)))).
  { intros b' q'. set (p := / (1 + tau * sigma) [*] _). split; [exact I|]. intros y _. cbn [eval etot].
    assert (EX : (1 + tau * sigma) [*] p = x [+] tau [*] (sigma [*] b') [+] -1 [*] ((tau * alpha) [*] q')) by (unfold p; vfield; lra).
    assert (EX' : x = (1 + tau * sigma) [*] p [-] (tau * sigma) [*] b' [+] (tau * alpha) [*] q') by (rewrite EX; vring).
    assert (K : sigma / 2 * norm2 (y [-] b') + alpha * << q', y >> + / (2 * tau) * norm2 (y [-] x) - (sigma / 2 * norm2 (p [-] b') + alpha * << q', p >> + / (2 * tau) * norm2 (p [-] x)) = (sigma / 2 + / (2 * tau)) * norm2 (y [-] p)).
    { rewrite EX'. generalize p. intro p'. unfold norm2. iexp. rewrite ?(inner_sym E b' p'), ?(inner_sym E q' p'), ?(inner_sym E b' y), ?(inner_sym E q' y), ?(inner_sym E y p'), ?(inner_sym E q' b'). field. lra. }
    assert (0 < / (2 * tau)) by (apply Rinv_0_lt_compat; lra). assert (0 <= (sigma / 2 + / (2 * tau)) * norm2 (y [-] p)) by (apply Rmult_le_pos; [lra|apply norm2_nonneg]). lra. }
  unfold al2_prox. rewrite T. destruct b as [b|]; destruct q as [q|].
  - right. split; [right; left; discriminate|]. unfold np_add at 1, iadd, np_fmul. cbn [a_int a_val]. rewrite andb_false_r. cbn [andb bind]. eexists. split; [reflexivity|]. apply P.
  - right. split; [right; left; discriminate|]. unfold np_add at 1, np_fmul. cbn [a_int a_val bind]. eexists. split; [reflexivity|]. cbn [a_val]. replace (x [+] tau [*] (sigma [*] b)) with (x [+] tau [*] (sigma [*] b) [+] -1 [*] ((tau * alpha) [*] vzero)) by vring. apply P.
  - destruct isint; [left; split; [auto|]; split; [auto|]; split; [discriminate|]; reflexivity|]. right. split; [auto|]. unfold iadd, np_fmul. cbn [a_int a_val andb bind]. eexists. split; [reflexivity|]. replace (x [+] -1 [*] ((tau * alpha) [*] q)) with (x [+] tau [*] (sigma [*] vzero) [+] -1 [*] ((tau * alpha) [*] q)) by vring. apply P.
  - right. split; [auto|]. cbn [bind]. unfold np_fmul. cbn [a_val]. eexists. split; [reflexivity|]. replace x with (x [+] tau [*] (sigma [*] vzero) [+] -1 [*] ((tau * alpha) [*] vzero)) at 2 by vring. apply P.
Qed.

(*! C83_orthogonal_call_refuted : calling Orthogonal raises TypeError whenever Q x is an integer array (for instance Q the identity and x integers), even without b, whatever
   f is; when Q x is a float array it is f(Q x + b) *)
Lemma C83_orthogonal_call_refuted_l : forall (E : IPS) A (Q : arr E -> arr E) b (f : arr E -> result A) x,
  (a_int (Q x) = true -> aorth_call Q b f x = Err TypeError) /\
  (a_int (Q x) = false -> aorth_call Q b f x = f (Arr false (a_val (Q x) [+] match b with Some b => b | None => vzero end))).
Proof. intros E A Q b f x. unfold aorth_call, iadd. split; intros ->; reflexivity. Qed.

(*!ex C83_orthogonal_example : Orthogonal(f, Identity) on the integer 1, for f returning the entry *)
Lemma C83_orthogonal_example_l : aorth_call (E:=R_IPS) (fun x => x) None (fun y => Ok (a_val y)) (Arr true (1 : R_IPS)) = Err TypeError /\
  aorth_call (E:=R_IPS) (fun x => x) None (fun y => Ok (a_val y)) (Arr false (1 : R_IPS)) = Ok (1 + 0 : R_IPS).
Proof. split; reflexivity. Qed.

(** x^2/2 on typed numbers, integers in, integers out (as VStack with restrictions computes it) *)
Definition iquad : aop R_IPS := AOp (E:=R_IPS) (fun x tau => Ok (Arr (a_int x) (store (a_int x) ((a_val x : R) / (1 + tau * 1)) : R_IPS))) (fun x => Ok (Arr (a_int x) (1 * (a_val x : R) : R_IPS))).
Lemma iquad_floats : on_floats (quad1 1) iquad.
Proof. split; [intros v tau; reflexivity|]. intro v. reflexivity. Qed.

(*!ex C83_douglas_rachford_example : f = g = x^2/2 with integer-typed results, from the integer 3: the first returned x is 1 (not 3/2), the limit is the minimiser 0 *)
Lemma C83_douglas_rachford_example_l : exists xs ys, (forall n, exists tr, aDouglasRachford iquad iquad (Arr true (3 : R_IPS)) 1 1 (S n) false = Ok (xs n, ys n, tr)) /\
  xs 0%nat = Arr true (1 : R_IPS) /\ vcv (fun n => a_val (xs n)) (0 : R_IPS).
Proof.
  set (q := etot (E:=R_IPS) (fun x : R_IPS => 1 / 2 * (x * x))).
  assert (T1 : trunc (3 / (1 + 1 * 1)) = 1) by (apply (tz_intro 1); rewrite ?Rabs_right by lra; lra).
  destruct (C83_douglas_rachford_l R_IPS iquad iquad (quad1 1) (quad1 1) q q (3 : R_IPS) 1 1 false bw_R iquad_floats iquad_floats) as (xs & ys & l & H & [_ M] & V); try lra.
  - intro x. eexists. reflexivity.
  - intro x. eexists. reflexivity.
  - apply (quad1_prox 1). lra.
  - apply (quad1_prox 1). lra.
  - apply (quad1_smooth 1). lra.
  - apply (quad1_smooth 1). lra.
  - exists (0 : R_IPS), (0 : R_IPS). split; (split; [exact I|]); intros y _; cbn; nra.
  - assert (L0 : l = (0 : R_IPS)). { specialize (M (0 : R_IPS) (conj I I)). cbn in M. change (l = 0). assert (l * l <= 0) by lra. assert (0 <= l * l) by apply Rle_0_sqr. destruct (Rmult_integral l l); auto; lra. }
    exists xs, ys. split; [exact H|]. split; [|rewrite <- L0; exact V]. destruct (H 0%nat) as [tr H0]. unfold aDouglasRachford in H0. cbn [for_loop] in H0. unfold adr_body at 1 in H0. cbn [ad_y ad_tr ao_prox iquad a_int a_val bind fst snd] in H0. cbn [ad_x] in H0. injection H0 as <- _ _. unfold store. rewrite T1. reflexivity.
Qed.

(*!ex C83_generalized_pg_example : one smooth and one non-smooth function x^2/2 from the integer 3 *)
Lemma C83_generalized_pg_example_l : aGeneralizedProximalGradient [iquad] [iquad] (Arr true (3 : R_IPS)) None [1] (Some [1]) 1 5 None = Err TypeError.
Proof.
  apply (C83_generalized_pg_refuted_l R_IPS [iquad] [iquad] (3 : R_IPS) None [1] (Some [1]) 1 5 None); try discriminate; try lia.
  - intros o x [<-|[]]. eexists. reflexivity.
  - intros o x t [<-|[]]. eexists. reflexivity.
  - exists 1. reflexivity.
  - exists [1]. split; [reflexivity|]. split; [reflexivity|]. split; [simpl; lra|]. intros a [<-|[]]. lra.
  - reflexivity.
Qed.

(*!ex C83_simplex_example : Simplex with one row of two zeros and radius 1: the projection of the row computed by the code is [1/2, 1/2], the result for integers is [0, 0] *)
Lemma C83_simplex_example_l : let P := simplex_proj (n:=2) 1 100 (/ 10 ^ 8) 5 in let x : Vec (1 * 2) := vtab (1 * 2) (fun _ => 0) in
  (forall p, (p < 2)%nat -> exists y, simplex_prox_rows (r:=1) (c:=2) P x 1 = Ok y /\ get y p = 1/2) /\
  (forall p, (p < 2)%nat -> exists q, isimplex_rows (r:=1) (c:=2) true P x 1 = Ok q /\ get q p = 0).
Proof.
  intros P x.
  assert (B : forall mu i, (i < 2)%nat -> get (boxv nonneg_bounds (rowv x 0 [-] mu [*] ones 2)) i = Rmax (- mu) 0).
  { intros mu i Hi. unfold boxv. rewrite get_vtab by auto. rewrite get_sub, get_scal by auto. unfold ones, rowv, x. rewrite !get_vtab by lia. unfold clip, nonneg_bounds. cbn. f_equal. ring. }
  assert (HP : P (rowv x 0) = Ok (vtab 2 (fun _ => 1/2))).
  { unfold P, simplex_proj, hp_proj.
    assert (F : forall mu, hp_fun (ones 2) 1 nonneg_bounds (rowv x 0) mu = 2 * Rmax (- mu) 0 - 1).
    { intro mu. unfold hp_fun. rewrite vec_inner. cbn [RS]. rewrite !B by lia. unfold ones. rewrite !get_vtab by lia. ring. }
    unfold hp_bracket. cbn [double_while].
    assert (F1 : hp_fun (ones 2) 1 nonneg_bounds (rowv x 0) (-1) = 1) by (rewrite F, Rmax_left by lra; lra).
    assert (F2 : hp_fun (ones 2) 1 nonneg_bounds (rowv x 0) 1 = -1) by (rewrite F, Rmax_right by lra; lra).
    assert (F3 : hp_fun (ones 2) 1 nonneg_bounds (rowv x 0) (-1 + (1 - -1) / 2) = -1) by (rewrite F, Rmax_right by lra; lra).
    assert (F4 : hp_fun (ones 2) 1 nonneg_bounds (rowv x 0) (-1 + (1 - -1) / 2 / 2) = 0) by (rewrite F, Rmax_left by lra; lra).
    rewrite F1. destruct (Rltb_spec 1 0) as [[? _]|[_ ->]]; [lra|]. cbn [bind]. rewrite F2. destruct (Rltb_spec 0 (-1)) as [[? _]|[_ ->]]; [lra|]. cbn [bind fst snd].
    assert (X1 : Rleb (/ 10 ^ 8) 0 = false) by (destruct (Rleb_spec (/ 10 ^ 8) 0) as [[? _]|[_ ->]]; [lra|reflexivity]).
    assert (S1 : same_sign 1 (-1) = false) by (unfold same_sign; destruct (Rltb_spec 1 0) as [[? _]|[_ ->]]; [lra|]; destruct (Rltb_spec (-1) 0) as [[_ ->]|[? _]]; [reflexivity|lra]).
    assert (S2 : same_sign (-1) 1 = false) by (unfold same_sign; destruct (Rltb_spec 1 0) as [[? _]|[_ ->]]; [lra|]; destruct (Rltb_spec (-1) 0) as [[_ ->]|[? _]]; [reflexivity|lra]).
    unfold bisect. rewrite X1, F1, F2. destruct (Reqb_spec 1 0) as [[? _]|[_ ->]]; [lra|]. destruct (Reqb_spec (-1) 0) as [[? _]|[_ ->]]; [lra|]. rewrite S1.
    change 100%nat with (S (S 98)). generalize 98%nat. intro k. cbn [bisect_loop]. rewrite F3, S2. destruct (Reqb_spec (-1) 0) as [[? _]|[_ ->]]; [lra|]. cbn [orb].
    destruct (Rltb_spec (Rabs ((1 - -1) / 2)) (/ 10 ^ 8 + bisect_rtol * Rabs (-1 + (1 - -1) / 2))) as [[L _]|[_ ->]].
    { exfalso. replace ((1 - -1) / 2) with 1 in L by lra. replace (-1 + 1) with 0 in L by lra. rewrite Rabs_R0, Rmult_0_r, Rplus_0_r, Rabs_R1 in L. lra. }
    rewrite F4. destruct (Reqb_spec 0 0) as [[_ ->]|[? _]]; [|contradiction]. cbn [orb bind]. f_equal. apply vec_ext. intros i Hi. rewrite B by auto. rewrite get_vtab by auto. rewrite Rmax_left by lra. lra. }
  assert (TH : trunc (1/2) = 0) by (apply (tz_intro 0); rewrite ?Rabs_R0, ?Rabs_right by lra; lra).
  assert (T1 : Rleb 1 0 = false) by (destruct (Rleb_spec 1 0) as [[? _]|[_ ->]]; [lra|reflexivity]).
  split; intros p Hp; [unfold simplex_prox_rows|unfold isimplex_rows]; rewrite T1; unfold by_rows; cbn [seq M_Proj.mapM]; rewrite HP; cbn [bind]; eexists; (split; [reflexivity|]); unfold stack; rewrite get_vtab by (simpl; lia);
    rewrite Nat.div_small, Nat.mod_small by auto; cbn [nth].
  - rewrite get_vtab by auto. reflexivity.
  - rewrite get_vmap, get_vtab by auto. exact TH.
Qed.

(*! C83_float_loops : for float arrays the remaining models of this file are the ones of the other properties: Dykstra's loop, Simplex with dims, VStack, and
   DouglasRachfordSplitting (same vectors) *)
Lemma C83_float_loops_l :
  (forall (E : IPS) amax (x0 : E) projs niter tol, icyclic_dykstra amax (fun v => v) x0 projs niter tol = cyclic_dykstra amax x0 projs niter tol) /\
  (forall r c (P : Vec c -> result (Vec c)) (x : Vec (r * c)) tau, isimplex_rows false P x tau = simplex_prox_rows P x tau) /\
  (forall r c (P : Vec r -> result (Vec r)) (x : Vec (r * c)) tau, isimplex_cols false P x tau = simplex_prox_cols P x tau) /\
  (forall v x tau, ivstack_prox false v x tau = vstack_prox v x tau) /\
  (forall (E : IPS) (af ag : aop E) (f g : Op E) x0 tau eta niter gfirst x y tr, on_floats f af -> on_floats g ag -> DouglasRachford f g x0 tau eta niter gfirst = Ok (x, y, tr) ->
     exists tr', aDouglasRachford af ag (Arr false x0) tau eta niter gfirst = Ok (Arr false x, Arr false y, tr')).
Proof.
  assert (MI : forall n (p : Vec n), vmap (store false) p = p) by (intros n p; apply vec_ext; intros i Hi; rewrite get_vmap by auto; reflexivity).
  assert (BR : forall r c (P : Vec c -> result (Vec c)) (x : Vec (r * c)), by_rows (fun v => p <- P v ;; Ok (vmap (store false) p)) x = by_rows P x).
  { intros r c P x. unfold by_rows. f_equal. induction (seq 0 r) as [|i l IH]; [reflexivity|]. cbn [M_Proj.mapM]. rewrite IH. destruct (P (rowv x i)) as [p|]; [|reflexivity]. cbn [bind]. rewrite MI. reflexivity. }
  split; [|split; [|split; [|split]]].
  - intros E amax x0 projs niter tol. unfold icyclic_dykstra, cyclic_dykstra. f_equal. apply for_loop_ext. intros j s _. unfold icyc_body, cyc_body. f_equal.
    assert (W : forall first (l : list (E -> result E)) i st, isweep (fun v => v) first l i st = sweep l i st); [|apply W].
    intros first l. induction l as [|p l IH]; intros i st; [reflexivity|]. cbn [isweep sweep]. destruct (p _) as [u|]; [|reflexivity]. cbn [bind]. rewrite IH. destruct first; reflexivity.
  - intros. unfold isimplex_rows, simplex_prox_rows. rewrite BR. reflexivity.
  - intros. unfold isimplex_cols, simplex_prox_cols. rewrite BR. reflexivity.
  - intros v x tau. unfold ivstack_prox, vstack_prox. destruct (vs_blocks v) as [nn|r]; [reflexivity|]. do 2 f_equal. generalize (repeat 0 (length x)). revert r. induction (vs_ops v) as [|o l IH]; intros [|iava r] s; cbn [loop_restr]; try reflexivity.
    destruct (gather iava x); [|reflexivity]. cbn [bind]. destruct (l_prox o _ tau) as [p|]; [|reflexivity]. cbn [bind]. replace (map (store false) p) with p by (symmetry; apply map_id). destruct (scatter s iava p); [|reflexivity]. cbn [bind]. apply IH.
  - intros E af ag f g x0 tau eta niter gfirst x y tr Of Og H. unfold DouglasRachford in H. destruct (for_loop (dr_body f g tau eta gfirst) niter 0 (DR None x0 [])) as [[t' k]|e] eqn:EL; [|discriminate]. cbn [bind fst snd] in H.
    destruct (M_Split.d_x t') as [xx|] eqn:EX; [|discriminate]. injection H as E1 E2 E3. destruct niter as [|niter]; [cbn [for_loop] in EL; injection EL as <- _; discriminate|].
    destruct (adr_sim af ag f g tau eta gfirst Of Og (S niter) 0 0 (ADR None (Arr false x0) []) (DR None x0 []) t' k eq_refl EL) as (s' & R & Y & X).
    unfold aDouglasRachford. rewrite R. cbn [bind fst snd]. rewrite X by lia. rewrite EX. cbn [option_map]. rewrite Y, E1, E2. eexists. reflexivity.
Qed.
