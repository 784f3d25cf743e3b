(** * Proofs about Nonlinear (M_Nonlin.v) and the warm start of Quadratic (M_Norms.v) *)
From Verif Require Import Base Space Spec SpecOps ConvexFacts M_ProxOp M_Norms M_Nonlin Smooth.
From Verif Require Export S_Nonlin.
Open Scope result_scope.


Lemma last_result_snoc {E : Type} (x0 : option E) rs r :
  last_result x0 (rs ++ [r]) = match r with Ok p => Some p | Err _ => last_result x0 rs end.
Proof. unfold last_result. rewrite fold_left_app. reflexivity. Qed.

(** A session whose state always holds what [start] says after the results so far. *)
Lemma session_gen {S E : Type} (prox : S -> E -> R -> S * result E) (inv : S -> list (result E) -> Prop)
  (out : list (result E) -> E -> R -> result E) :
  (forall st past x tau st' r, inv st past -> prox st x tau = (st', r) -> r = out past x tau /\ inv st' (past ++ [r])) ->
  forall calls st past, inv st past ->
  let rs := prox_session prox st calls in
  length rs = length calls /\
  forall j x tau, nth_error calls j = Some (x, tau) -> nth_error rs j = Some (out (past ++ firstn j rs) x tau).
Proof.
  intros Hs. induction calls as [|[x tau] calls IH]; intros st past Hi; cbn [prox_session].
  - split; [reflexivity|]. intros [|j] x tau Hj; discriminate.
  - destruct (prox st x tau) as [st' r] eqn:Er. destruct (Hs _ _ _ _ _ _ Hi Er) as [Hr Hi'].
    destruct (IH st' (past ++ [r]) Hi') as [I1 I2]. split; [cbn; f_equal; exact I1|].
    intros [|j] y t Hj; cbn [nth_error firstn] in *.
    + injection Hj as <- <-. rewrite app_nil_r, <- Hr. reflexivity.
    + rewrite (I2 j y t Hj), <- app_assoc. reflexivity.
Qed.

(*! C73_session : every sequence of prox calls on one Nonlinear object, rejected and failing ones included: a call with
   tau <= 0 raises ValueError; any other call returns (or raises) what the user's optimize gives for the point and step of
   that call and, as start, the last returned result when warm=True (x0 before there is one) and always x0 when warm=False *)
Lemma C73_session_l : forall (E : IPS) (u : NLUser E) niter warm x0 (calls : list (E * R)),
  let rs := prox_session (nl_prox u niter warm) (mkNLSt x0 None) calls in
  length rs = length calls /\
  forall j x tau, nth_error calls j = Some (x, tau) ->
    nth_error rs j = Some (if Rle_dec tau 0 then Err ValueError
                           else nl_optimize u (if warm then last_result x0 (firstn j rs) else x0) x tau niter).
Proof.
  intros E u niter warm x0 calls.
  apply (session_gen (nl_prox u niter warm) (fun st past => nls_x0 st = if warm then last_result x0 past else x0)
    (fun past x tau => if Rle_dec tau 0 then Err ValueError
       else nl_optimize u (if warm then last_result x0 past else x0) x tau niter)) with (past := []).
  - intros st past x tau st' r Hi Er. unfold nl_prox in Er.
    destruct (Rleb_spec tau 0) as [[H1 H2]|[H1 H2]]; rewrite H2 in Er; destruct (Rle_dec tau 0); try lra.
    + injection Er as <- <-. split; auto. rewrite last_result_snoc. auto.
    + rewrite Hi in Er. destruct (nl_optimize u (if warm then last_result x0 past else x0) x tau niter) as [p|e] eqn:Eo;
        injection Er as <- <-; (split; [auto|]); cbn [nls_x0]; rewrite last_result_snoc; destruct warm; auto.
  - cbn. destruct warm; reflexivity.
Qed.

(*! C73_prox : if optimize returns a minimiser of _funprox then prox is the exact proximal point of the user's function; the
   functions handed to optimize are right: _gradprox is the gradient of _funprox and _fungradprox returns both *)
Lemma C73_prox_l : forall (E : IPS) (u : NLUser E) niter warm st x tau, 0 < tau ->
  (forall p st', nl_prox u niter warm st x tau = (st', Ok p) ->
     is_min (etot (fun z => nl_funprox u x z tau)) p -> is_prox (etot (nl_call u)) tau x p) /\
  (forall z, is_grad (nl_fun u) z (nl_grad u z) ->
     is_grad (fun z => nl_funprox u x z tau) z (nl_gradprox u x z tau) /\
     nl_fungradprox u x z tau = (nl_funprox u x z tau, nl_gradprox u x z tau)).
Proof.
  intros E u niter warm st x tau Ht. split.
  - intros p st' _ [_ H]. split; [exact I|]. intros y _. specialize (H y I). cbn [eval etot] in *. unfold nl_funprox, nl_call in *.
    replace (1 / (2 * tau)) with (/ (2 * tau)) in H by (field; lra). exact H.
  - intros z Hg. split; [|reflexivity].
    intros eps He. destruct (Hg (eps / 2) ltac:(lra)) as [d [Hd H]].
    exists (Rmin d (tau * eps)). split; [apply Rmin_glb_lt; auto; apply Rmult_lt_0_compat; lra|].
    intros h Hh. assert (H1 : norm h <= d) by (eapply Rle_trans; [exact Hh|apply Rmin_l]).
    assert (H2 : norm h <= tau * eps) by (eapply Rle_trans; [exact Hh|apply Rmin_r]). specialize (H h H1).
    unfold nl_funprox, nl_gradprox.
    replace (nl_fun u (z [+] h) + 1 / (2 * tau) * norm2 (z [+] h [-] x) - (nl_fun u z + 1 / (2 * tau) * norm2 (z [-] x)) -
       << nl_grad u z [+] 1 / tau [*] (z [-] x), h >>) with
      (nl_fun u (z [+] h) - nl_fun u z - << nl_grad u z, h >> + / (2 * tau) * norm2 h) by (unfold norm2; iexp; field; lra).
    eapply Rle_trans; [apply Rabs_triang|]. rewrite <- norm_sq. pose proof (norm_nonneg h) as Hn.
    assert (Hi : 0 < / (2 * tau)) by (apply Rinv_0_lt_compat; lra).
    rewrite (Rabs_right (/ (2 * tau) * (norm h * norm h))) by (apply Rle_ge, Rmult_le_pos; [lra|apply Rmult_le_pos; auto]).
    assert (/ (2 * tau) * (norm h * norm h) <= eps / 2 * norm h); [|lra].
    replace (eps / 2 * norm h) with (/ (2 * tau) * (tau * eps * norm h)) by (field; lra).
    apply Rmult_le_compat_l; [lra|]. apply Rmult_le_compat_r; auto.
Qed.

(*! C73_inexact : for a convex differentiable function, whatever optimize returns: the distance of the result to the exact
   proximal point is at most tau times the norm of _gradprox there, so a point where _gradprox vanishes is exact *)
Lemma C73_inexact_l : forall (E : IPS) (u : NLUser E) niter warm st st' x tau p q, 0 < tau ->
  convex (etot (nl_fun u)) -> (forall z, is_grad (nl_fun u) z (nl_grad u z)) ->
  nl_prox u niter warm st x tau = (st', Ok p) -> is_prox (etot (nl_call u)) tau x q ->
  norm (p [-] q) <= tau * norm (nl_gradprox u x p tau).
Proof.
  intros E u niter warm st st' x tau p q Ht Hc Hg _ Hq.
  assert (Hs : forall z, is_subgrad (etot (nl_fun u)) z (nl_grad u z)).
  { intro z. split; [exact I|]. intros y _. apply (convex_grad_ineq (nl_fun u) z y); auto. }
  change (nl_call u) with (nl_fun u) in Hq. apply prox_subgrad in Hq; auto.
  pose proof (subgrad_mono _ _ _ _ _ (Hs p) Hq) as Hm.
  set (e := nl_gradprox u x p tau).
  assert (He : nl_grad u p = e [-] / tau [*] (p [-] x)) by (unfold e, nl_gradprox; vfield; lra).
  rewrite He in Hm.
  replace (<< e [-] / tau [*] (p [-] x) [-] / tau [*] (x [-] q), p [-] q >>) with
    (<< e, p [-] q >> - / tau * norm2 (p [-] q)) in Hm by (unfold norm2; iexp; ring).
  pose proof (CS e (p [-] q)) as Hcs. rewrite <- norm_sq in Hm. pose proof (norm_nonneg (p [-] q)) as Hn.
  destruct (Req_dec (norm (p [-] q)) 0) as [->|Hne]; [apply Rmult_le_pos; [lra|apply norm_nonneg]|].
  apply (Rmult_le_reg_r (norm (p [-] q))); [lra|].
  assert (Hx : / tau * (norm (p [-] q) * norm (p [-] q)) <= norm e * norm (p [-] q)) by lra.
  apply (Rmult_le_compat_l tau) in Hx; [|lra]. rewrite <- Rmult_assoc, Rinv_r in Hx by lra. lra.
Qed.

(*! C18_start : every sequence of prox calls on one Quadratic object with a non-explicit Op, rejected ones included: a
   non-positive step raises ValueError; any other call returns what lsqr returns for (I + tau Op) v = x - tau b with, as start,
   the last accepted result when warm=True (x0 before there is one) and always x0 when warm=False *)
Lemma C18_start_l : forall (E : IPS) div lsqr (A : linop E E) b c warm x0 (calls : list (E * R)),
  let q := quad_init (Some A) b c false warm in
  let rs := prox_session (quad_prox div lsqr q) x0 calls in
  length rs = length calls /\
  forall j x tau, nth_error calls j = Some (x, tau) ->
    nth_error rs j = Some (if Rle_dec tau 0 then Err ValueError
      else Ok (lsqr (fun v => v [+] tau [*] A v) (x [-] tau [*] match b with Some b => b | None => vzero end)
                 (if warm then last_result x0 (firstn j rs) else x0))).
Proof.
  intros E div lsqr A b c warm x0 calls q.
  apply (session_gen (quad_prox div lsqr q) (fun st past => st = if warm then last_result x0 past else x0)
    (fun past x tau => if Rle_dec tau 0 then Err ValueError
       else Ok (lsqr (fun v => v [+] tau [*] A v) (x [-] tau [*] match b with Some b => b | None => vzero end)
                 (if warm then last_result x0 past else x0)))) with (past := []).
  - intros st past x tau st' r Hi Er. unfold quad_prox in Er.
    destruct (Rleb_spec tau 0) as [[H1 H2]|[H1 H2]]; rewrite H2 in Er; destruct (Rle_dec tau 0); try lra.
    + injection Er as <- <-. split; auto. rewrite last_result_snoc. auto.
    + unfold q, quad_init in Er. cbn in Er. destruct b as [b|]; injection Er as <- <-; rewrite Hi; (split; [auto|]);
        rewrite last_result_snoc; destruct warm; auto.
  - cbn. destruct warm; reflexivity.
Qed.

(*!ex C73_example : f(x) = x^2/2 on the real line with the exact minimiser y/(1+tau) as optimize: steps 1, -1, 3 at 4 *)
Lemma C73_example_l :
  let u := mkNL (E:=R_IPS) (fun x => x * x / 2) (fun x => x) (fun _ y tau _ => Ok (y / (1 + tau))) in
  prox_session (nl_prox u 10 true) (mkNLSt None None) [(4 : R, 1); (4, -1); (4, 3)] = [Ok 2; Err ValueError; Ok 1] /\
  is_min (etot (E:=R_IPS) (fun z => nl_funprox u (4 : R_IPS) z 1)) (2 : R_IPS).
Proof.
  intro u. split.
  - cbn [prox_session]. unfold nl_prox.
    destruct (Rleb_spec 1 0) as [[? _]|[_ ->]]; [lra|]. destruct (Rleb_spec (-1) 0) as [[_ ->]|[? _]]; [|lra].
    destruct (Rleb_spec 3 0) as [[? _]|[_ ->]]; [lra|]. cbn. repeat f_equal; field.
  - split; [exact I|]. intros y _. unfold nl_funprox, norm2, vsub; cbn. pose proof (Rle_0_sqr (y - 2)). unfold Rsqr in *. lra.
Qed.
(*!ex C18_start_example : Op = 3 on the real line with an lsqr that returns its start plus one (0 when there is none) *)
Lemma C18_start_example_l :
  let lsqr := fun (_ : R_IPS -> R_IPS) (_ : R_IPS) (s : option R_IPS) => match s with Some p => p + 1 | None => 0 end : R_IPS in
  prox_session (quad_prox (E:=R_IPS) (fun _ y => y) lsqr (quad_init (Some (scal_linop R_IPS 3)) None 0 false true)) None
    [(4 : R, 1); (4, -1); (4, 3)] = [Ok 0; Err ValueError; Ok (0 + 1)].
Proof.
  intro lsqr. cbn [prox_session]. unfold quad_prox.
  destruct (Rleb_spec 1 0) as [[? _]|[_ ->]]; [lra|]. destruct (Rleb_spec (-1) 0) as [[_ ->]|[? _]]; [|lra].
  destruct (Rleb_spec 3 0) as [[? _]|[_ ->]]; [lra|]. reflexivity.
Qed.
