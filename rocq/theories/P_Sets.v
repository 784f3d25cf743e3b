(** * Laws of all projection operators (C67) *)
From Verif Require Import Base Space Spec SpecOps ConvexFacts Sep M_ProxOp P_ProxOp M_Norms P_Norms M_L1 P_L1 MatFacts VSum M_Proj P_Proj P_Proj2 P_Proj3 M_L0 P_Hankel P_Seg.
From Coq Require Import Psatz.
From Verif Require Export S_Sets.
Open Scope result_scope.


Lemma projects_intro {E : IPS} (prox : E -> R -> result E) (accepts C : E -> Prop) :
  convex_set C -> (forall x tau, tau <= 0 -> prox x tau = Err ValueError) ->
  (forall x tau, 0 < tau -> exists p, prox x tau = Ok p /\ is_proj C x p /\ accepts p) ->
  projects prox accepts C.
Proof.
  intros HC Hneg H. split; auto. split; auto.
  assert (HP : exists P : E -> E, forall x, is_proj C x (P x) /\ accepts (P x)).
  { exists (fun x => match prox x 1 with Ok p => p | Err _ => x end).
    intro x. destruct (H x 1 ltac:(lra)) as (p & -> & Hp); exact Hp. }
  destruct HP as [P A]. exists P.
  split; [|split; [exact A|]].
  - intros x tau Ht. destruct (H x tau Ht) as (p & E1 & Hp & _). rewrite E1. f_equal.
    apply (proj_unique C x); auto. apply A.
  - split; [|split; [|split]].
    + intro x. apply (proj_of_mem C); apply A.
    + intro x. split; [intro Hx; apply (proj_of_mem C); auto; apply A|]. intro Hx. rewrite <- Hx. apply A.
    + intros x y. destruct (A x) as [Hp _], (A y) as [Hq _]. set (p := P x) in *. set (q := P y) in *.
      apply (proj_prox C 1) in Hp; [|lra]. apply (proj_prox C 1) in Hq; [|lra].
      pose proof (prox_firm (indic C) 1 x y p q (indic_convex C HC) ltac:(lra) Hp Hq) as HF.
      replace ((x [-] p) [-] (y [-] q)) with ((x [-] y) [-] (p [-] q)) by vring. set (d := x [-] y) in *. set (e := p [-] q) in *.
      rewrite (norm2_sub d e), (inner_sym d e). lra.
    + intros x y. apply (proj_nonexp C); auto; apply A.
Qed.

(** ** The operators of the library whose prox is a projection *)

Lemma box_convex n (lu : nlist bounds n) : convex_set (box_set lu).
Proof.
  intros x y t Hx Hy Ht. unfold box_set in *.
  destruct lu as [lu Hl], x as [x Hx'], y as [y Hy']. cbn in *. clear Hl Hx' Hy'.
  revert x y Hx Hy. induction lu as [|b lu IH]; intros x y Hx Hy; inversion Hx; inversion Hy; subst; cbn; constructor; auto.
  clear - Ht H1 H6. destruct H1 as [A1 A2], H6 as [B1 B2]. split; intros v Hv; [specialize (A1 v Hv); specialize (B1 v Hv)|specialize (A2 v Hv); specialize (B2 v Hv)]; nra.
Qed.

Lemma obj_neg_prox {E : IPS} fuel (b : Body E) x tau : tau <= 0 -> o_prox (obj (S fuel) b) x tau = Err ValueError.
Proof. intro H. exact (proj1 (guard_rejects E fuel b x tau H)). Qed.

(*! C67_projections : Box (lower <= upper), HalfSpace (w <> 0), EuclideanBall (radius > 0), AffineSet (whose inner solver solves the
   normal equations) and Hankel are projection operators on their convex sets: non-positive steps raise ValueError; for
   all positive steps prox is one and the same map, which sends every x to the nearest point of the set, is accepted by
   the operator's own call, changes nothing the second time, fixes exactly the points of the set, and is firmly
   non-expansive and 1-Lipschitz *)
Lemma C67_projections_l : forall fuel,
  (forall n (lu : nlist bounds n), Forall bounds_ok (proj1_sig lu) ->
     let o := obj (S fuel) (box_body lu) in projects (o_prox o) (yes o) (box_set lu)) /\
  (forall (E : IPS) (w : E) b, w <> vzero ->
     let o := obj (S fuel) (halfspace_body w b) in projects (o_prox o) (yes o) (fun x => << w, x >> <= b)) /\
  (forall (E : IPS) (c : E) r, 0 < r ->
     let o := obj (S fuel) (ball_body c r) in projects (o_prox o) (yes o) (fun x => norm (x [-] c) <= r)) /\
  (forall (E F : IPS) close cg (A : linop E F) b,
     (forall x, A (ladj A (cg (fun v => A (ladj A v)) (A x [-] b))) = A x [-] b) -> (forall y, close y y = true) ->
     let o := obj (S fuel) (affine_body close cg A b) in projects (o_prox o) (yes o) (fun y => A y = b)) /\
  (forall m n, projects (@hankel_prox m n) (fun x => hankel_call x = true) hankel_mat).
Proof.
  intro fuel. split; [|split; [|split; [|split]]].
  - intros n lu Hok o. apply projects_intro; [apply box_convex|intros; apply obj_neg_prox; auto|apply (C15_box_l n fuel lu Hok)].
  - intros E w b Hw o. apply projects_intro; [|intros; apply obj_neg_prox; auto|].
    + intros x y t Hx Hy Ht. rewrite inner_add_r, !inner_scal_r. nra.
    + intros x tau Ht. destruct (halfspace_projection E fuel w b Hw) as [_ H]. destruct (H x tau Ht) as (p & H1 & H2 & H3 & _). exists p; auto.
  - intros E c r Hr o. apply projects_intro; [|intros; apply obj_neg_prox; auto|].
    + intros x y t Hx Hy Ht. replace ((1 - t) [*] x [+] t [*] y [-] c) with ((1 - t) [*] (x [-] c) [+] t [*] (y [-] c)) by vring.
      eapply Rle_trans; [apply norm_triangle|]. rewrite !norm_scal, !Rabs_right by lra. nra.
    + intros x tau Ht. destruct (ball_projection E fuel c r Hr) as [_ H]. destruct (H x tau Ht) as (p & H1 & H2 & H3). exists p; auto.
  - intros E F close cg A b Hcg Hcl o. apply projects_intro; [|intros; apply obj_neg_prox; auto|].
    + intros x y t Hx Hy Ht. rewrite lapp_add, !lapp_scal, Hx, Hy. vring.
    + intros x tau Ht. destruct (affine_projection E F fuel close cg A b x tau Ht (Hcg x) Hcl) as (p & H1 & H2 & _ & H3). exists p; auto.
  - intros m n. apply projects_intro; [apply hankel_convex| |].
    + intros x tau Ht. unfold hankel_prox. destruct (Rleb_spec tau 0) as [[_ ->]|[? ->]]; [reflexivity|lra].
    + intros x tau Ht. destruct (C26_prox_l m n x tau Ht) as (p & H1 & H2 & _ & H3 & _). exists p; auto.
Qed.

(*! C67_dual_balls : the dual prox of Euclidean (sigma > 0) obeys the same laws for the ball of radius sigma *)
Lemma C67_dual_balls_l : forall fuel (E : IPS) sigma, 0 < sigma ->
  projects (o_proxdual (obj (S fuel) (euclid_body (E:=E) sigma))) (fun z => norm z <= sigma) (fun z => norm z <= sigma).
Proof.
  intros fuel E sigma Hs. apply projects_intro.
  - intros x y t Hx Hy Ht. eapply Rle_trans; [apply norm_triangle|]. rewrite !norm_scal, !Rabs_right by lra. nra.
  - intros x tau Ht. exact (proj2 (guard_rejects E fuel _ x tau Ht)).
  - intros x tau Ht. destruct (euclidean_dual E fuel sigma Hs) as (_ & _ & H). destruct (H x tau Ht) as (p & H1 & H2). exists p. split; auto. split; auto. apply H2.
Qed.


(*! C67_simplex : Simplex obeys the same laws up to the accuracy e(x) of its root search, all lengths, radii and options: whenever
   it returns, results are accepted by the operator's own call as soon as n (xtol + ...) <= tol; two results
   are at most |x1 - x2| + e(x1) + e(x2) apart; projecting a result y again (any accuracy) moves it by at most e(x) + e(y);
   tau plays no role *)
Lemma C67_simplex_l : forall n radius maxiter xtol fuel tol (x1 x2 y1 y2 : Vec n) t1 t2,
  let prox := simplex_prox1 (simplex_proj radius maxiter xtol fuel) in
  prox x1 t1 = Ok y1 -> 0 < t2 ->
  exists p1, is_proj (simplex_set radius) x1 p1 /\ norm (y1 [-] p1) <= search_err xtol x1 p1 /\
    (INR n * (xtol + bisect_rtol * Rmax 1 (2 * RS n (fun i => Rabs (get p1 i - get x1 i)))) <= tol -> simplex_call1 radius tol y1 = true) /\
    prox x1 t2 = Ok y1 /\
    (prox x2 t2 = Ok y2 -> exists p2, is_proj (simplex_set radius) x2 p2 /\ norm (y1 [-] y2) <= norm (x1 [-] x2) + search_err xtol x1 p1 + search_err xtol x2 p2) /\
    (prox y1 t2 = Ok y2 -> exists p2, is_proj (simplex_set radius) y1 p2 /\ norm (y2 [-] y1) <= search_err xtol x1 p1 + search_err xtol y1 p2).
Proof.
  intros n radius maxiter xtol fuel tol x1 x2 y1 y2 t1 t2 prox H1 Ht2.
  assert (Hin : forall x y t, prox x t = Ok y -> simplex_proj radius maxiter xtol fuel x = Ok y).
  { intros x y t. unfold prox, simplex_prox1. destruct (Rleb t 0); [discriminate|auto]. }
  assert (Hp2 : forall x, prox x t2 = simplex_proj radius maxiter xtol fuel x).
  { intro x. unfold prox, simplex_prox1. destruct (Rleb_spec t2 0) as [[? ->]|[_ ->]]; [lra|reflexivity]. }
  apply Hin in H1. destruct (C23_simplex_l n radius maxiter xtol fuel x1 y1 H1) as (p1 & P1 & (mu & Hmu) & HS & HN).
  exists p1. split; auto. split; [exact HN|]. split; [|split; [|split]].
  - intro Htol. unfold simplex_call1, vsumv. pose proof (Rle_abs (RS n (get y1) - radius)) as L1. pose proof (Rle_abs (- (RS n (get y1) - radius))) as L2. rewrite Rabs_Ropp in L2. cbv zeta in HS.
    destruct (Rltb_spec tol (RS n (get y1) - radius)) as [[A ->]|[A ->]]; [lra|].
    destruct (Rltb_spec (RS n (get y1) - radius) (- tol)) as [[B ->]|[B ->]]; [lra|].
    cbn [orb negb]. unfold any_neg. destruct (existsb (fun a => Rltb a 0) (lst y1)) eqn:Ex; auto. exfalso.
    apply existsb_exists in Ex. destruct Ex as (a & Ha & Hneg). apply (In_nth _ _ 0) in Ha. destruct Ha as (i & Hi & <-).
    assert (Hi' : (i < n)%nat) by (rewrite lst_length in Hi; auto). specialize (Hmu i Hi').
    destruct (Rltb_spec (nth i (lst y1) 0) 0) as [[C _]|[C C']]; [|congruence]. change (nth i (lst y1) 0) with (get y1 i) in C.
    pose proof (Rmax_r (get x1 i - mu) 0). lra.
  - rewrite Hp2; auto.
  - intro H2. rewrite Hp2 in H2. destruct (C23_simplex_l n radius maxiter xtol fuel x2 y2 H2) as (p2 & P2 & _ & _ & HN2). exists p2. split; auto.
    pose proof (proj_nonexp (simplex_set radius) x1 x2 p1 p2 (simplex_convex n radius) P1 P2) as HE.
    replace (y1 [-] y2) with ((y1 [-] p1) [+] (p1 [-] p2) [+] (p2 [-] y2)) by vring.
    pose proof (norm_triangle (y1 [-] p1 [+] (p1 [-] p2)) (p2 [-] y2)). pose proof (norm_triangle (y1 [-] p1) (p1 [-] p2)).
    rewrite (norm_sub_sym p2 y2) in H. unfold search_err. cbv zeta in HN, HN2. lra.
  - intro H2. rewrite Hp2 in H2. destruct (C23_simplex_l n radius maxiter xtol fuel y1 y2 H2) as (p2 & P2 & _ & _ & HN2). exists p2. split; auto.
    assert (HE : norm (p2 [-] y1) <= norm (p1 [-] y1)) by (apply P2; apply P1).
    replace (y2 [-] y1) with ((y2 [-] p2) [+] (p2 [-] y1)) by vring.
    pose proof (norm_triangle (y2 [-] p2) (p2 [-] y1)). rewrite (norm_sub_sym p1 y1) in HE. unfold search_err. cbv zeta in HN, HN2. lra.
Qed.

(*! C67_l1ball_refuted : L1Ball is not a projection operator in this sense: its prox expands distances, two points 1 apart are sent to
   points 2 apart (radius 1, single-entry arrays 1/2 and -1/2, any maxiter >= 2 and xtol < 1/2), although both
   are in the ball and accepted by its call *)
Lemma C67_l1ball_refuted_l : forall maxiter xtol fuel tau tol, (0 < fuel)%nat -> (2 <= maxiter)%nat -> 0 < xtol < 1 / 2 -> 0 < tau -> 0 < tol ->
  exists x1 x2 p1 p2 : Vec 1, l1ball_call 1 tol x1 = true /\ l1ball_call 1 tol x2 = true /\
    l1ball_prox 1 maxiter xtol fuel x1 tau = Ok p1 /\ l1ball_prox 1 maxiter xtol fuel x2 tau = Ok p2 /\
    norm (p1 [-] p2) = 2 * norm (x1 [-] x2) /\ 0 < norm (x1 [-] x2).
Proof.
  intros maxiter xtol fuel tau tol Hf Hm Hx Ht Htol.
  destruct (C24_inside_refuted_l maxiter xtol fuel tau tol Hf Hm Hx Ht Htol) as (A & B & _).
  assert (N1 : forall a, 0 <= a -> norm (vtab 1 (fun _ => a)) = a).
  { intros a Ha. unfold norm, norm2. rewrite vec_inner. unfold RS. rewrite get_vtab by lia. replace (0 + a * a) with (a * a) by ring. apply sqrt_square; auto. }
  exists half1, (vtab 1 (fun _ => - (1 / 2))), (vtab 1 (fun _ => 1)), (vtab 1 (fun _ => - 1)).
  split; auto. split.
  { unfold l1ball_call, RS. rewrite get_vtab by lia. apply Rltb_true. rewrite Rabs_left; lra. }
  split; auto. split.
  - unfold l1ball_prox. destruct (Rleb_spec tau 0) as [[? ->]|[_ ->]]; [lra|]. unfold l1_ball_proj.
    assert (E : absv (vtab 1 (fun _ => - (1 / 2))) = half1). { apply vec_ext. intros i Hi. rewrite get_absv by auto. unfold half1. rewrite !get_vtab by auto. rewrite Rabs_left; lra. }
    rewrite E, simplex_half by auto. cbn [bind]. f_equal. apply vtab_ext. intros i Hi. rewrite !get_vtab by auto. rewrite sgn_neg by lra. ring.
  - replace (vtab 1 (fun _ => 1) [-] vtab 1 (fun _ => - 1)) with (vtab 1 (fun _ => 2)) by (apply vec_ext; intros i Hi; rewrite get_sub, !get_vtab by auto; ring).
    replace (half1 [-] vtab 1 (fun _ => - (1 / 2))) with (vtab 1 (fun _ => 1)) by (apply vec_ext; intros i Hi; unfold half1; rewrite get_sub, !get_vtab by auto; field).
    rewrite !N1 by lra. split; lra.
Qed.

(*!ex C67_example : a box, a half-space, a ball and an affine set meeting the hypotheses *)
Lemma C67_example_l :
  Forall bounds_ok (proj1_sig (nl [(Some 0, Some 1); (Some 2, None)] : nlist bounds 2)) /\ (2 : R_IPS) <> vzero /\
  (exists (A : linop (Prod_IPS R_IPS R_IPS) R_IPS) (cg : (R_IPS -> R_IPS) -> R_IPS -> R_IPS),
     forall x, A (ladj A (cg (fun v => A (ladj A v)) (A x [-] (3 : R_IPS)))) = A x [-] (3 : R_IPS)).
Proof.
  split; [apply C15_example_l|]. split; [apply C16_example_l|].
  destruct C17_example_l as (A & cg & H). exists A, cg. intro x. apply H.
Qed.
