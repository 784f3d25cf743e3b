(** * PALM and iPALM (optimization/palm.py:11-403)

    Simplifications: the [show] log is not modelled; callbacks are recorded (the
    trace).  The bilinear function H is an object with two stored arrays H.x and
    H.y (utils/bilinear.py:74-80); only the stored array a method reads is
    passed to it, and the two stored arrays are part of the loop state. *)
From Verif Require Import Base Space M_ProxOp M_Norms M_Loop.
Open Scope result_scope.

(** The BilinearOperator interface (utils/bilinear.py:11-85).
    [h_gradx ystored x] is H.gradx(x) when H.y is ystored, etc. *)
Record Bilin (E F : IPS) : Type := mkBilin {
  h_call : E -> F -> result R;
  h_gradx : F -> E -> result E;
  h_grady : E -> F -> result F;
  h_lx : E -> result R;
  h_ly : F -> result R }.
Arguments mkBilin {E F} _ _ _ _ _.
Arguments h_call {E F} _ _ _.
Arguments h_gradx {E F} _ _ _.
Arguments h_grady {E F} _ _ _.
Arguments h_lx {E F} _ _.
Arguments h_ly {E F} _ _.

(** One python operator object seen on arrays of the shape of x and of the
    shape of y (python methods are not tied to one array length). *)
Record Op2 (E F : IPS) : Type := mkOp2 { on_x : Op E; on_y : Op F }.
Arguments mkOp2 {E F} _ _.
Arguments on_x {E F} _.
Arguments on_y {E F} _.

(** [if proxf is not None: z = proxf.prox(z, tau)] *)
Definition opt_prox {E : IPS} (o : option (Op E)) (z : E) (tau : R) : result E :=
  match o with Some o => o_prox o z tau | None => Ok z end.

(** palm.py:11-57 for one block: [call v] is H with this block set to v and the
    other block as in the argument list, [grad] the partial gradient method. *)
Section BT.
Context {E : IPS} (call : E -> result R) (o : option (Op E)) (beta : R) (x g : E).
Definition palm_ftilde (z : E) (tau : R) : result R :=                      (* 28-39 *)
  fy <- call x ;;
  c <- pydiv 1 (2 * tau) ;;
  Ok (fy + << g, z [-] x >> + c * norm2 (z [-] x)).
Fixpoint palm_bt_loop (n : nat) (z : E) (tau : R) : result (E * R) :=       (* 47-57 *)
  match n with
  | O => Ok (z, tau)
  | S n' =>
      z' <- opt_prox o (x [-] tau [*] g) tau ;;
      ft <- palm_ftilde z' tau ;;
      f <- call z' ;;
      if (Rleb f ft || Rltb tau (1 / 10 ^ 12))%bool then Ok (z', tau)
      else palm_bt_loop n' z' (tau * beta)
  end.
End BT.
Definition palm_bt {E : IPS} (call : E -> result R) (grad : E -> result E) (o : option (Op E)) (beta : R)
  (niterback : nat) (x : E) (tau : R) : result (E * R) :=
  g <- grad x ;;                                                            (* 42-45 *)
  palm_bt_loop call o beta x g niterback x tau.                             (* z = copy of x: 46 *)

(** Fixed step: palm.py:171-175, 184-188, 351-356, 367-372:
    [ck = gamma * L; v = z - (1/ck) * grad(z); v = prox(v, 1/ck)]. *)
Definition palm_fixed {E : IPS} (l : result R) (grad : E -> result E) (o : option (Op E)) (gamma : R) (z : E) : result E :=
  l <- l ;;
  c <- pydiv 1 (gamma * l) ;;
  g <- grad z ;;
  opt_prox o (z [-] c [*] g) c.

Section M.
Context {E F : IPS}.

(** Loop variables: x, y, H.x, H.y, tauf, taug (None: never assigned), the
    previous x and y (iPALM only), and the vectors given to the callback. *)
Record palm_state := PS { ps_x : E; ps_y : F; ps_hx : E; ps_hy : F; ps_tauf : option R; ps_taug : option R;
  ps_xo : E; ps_yo : F; ps_tr : list (E * F) }.

Definition read_var {A} (v : option A) : result A := match v with Some v => Ok v | None => Err UnboundLocalError end.

(** palm.py:169-194.  In backtracking mode both steps are given [proxf] (177-179, 190-192). *)
Definition palm_body (H : Bilin E F) (proxf : option (Op2 E F)) (proxg : option (Op F)) (gammaf gammag : option R)
  (beta : R) (niterback : nat) (iiter : nat) (s : palm_state) : result (palm_state * bool) :=
  let x := ps_x s in let y := ps_y s in
  xt <- match gammaf with
        | Some gm => x' <- palm_fixed (h_ly H y) (h_gradx H (ps_hy s)) (option_map on_x proxf) gm x ;; Ok (x', ps_tauf s)
        | None => tauf <- read_var (ps_tauf s) ;;
                  r <- palm_bt (fun v => h_call H v y) (h_gradx H (ps_hy s)) (option_map on_x proxf) beta niterback x tauf ;;
                  Ok (fst r, Some (snd r))
        end ;;
  let x' := fst xt in                                                       (* 181: H.updatex *)
  yt <- match gammag with
        | Some gm => y' <- palm_fixed (h_lx H x') (h_grady H x') proxg gm y ;; Ok (y', ps_taug s)
        | None => taug <- read_var (ps_taug s) ;;
                  r <- palm_bt (fun v => h_call H x' v) (h_grady H x') (option_map on_y proxf) beta niterback y taug ;;
                  Ok (fst r, Some (snd r))
        end ;;
  let y' := fst yt in                                                       (* 194: H.updatey *)
  Ok (PS x' y' x' y' (snd xt) (snd yt) x y (ps_tr s ++ [(x', y')]), false).

Definition is_none {A} (o : option A) : bool := match o with None => true | Some _ => false end.

(** palm.py:60-218.  [hx0], [hy0] are the arrays stored in H when PALM is called. *)
Definition PALM (H : Bilin E F) (hx0 : E) (hy0 : F) (proxf : option (Op2 E F)) (proxg : option (Op F)) (x0 : E) (y0 : F)
  (gammaf gammag : option R) (beta : R) (niter niterback : nat) : result (E * F * list (E * F)) :=
  let init g : option R := if is_none g then Some 1 else None in            (* 161-166 *)
  r <- for_loop (palm_body H proxf proxg gammaf gammag beta niterback) niter 0
         (PS x0 y0 hx0 hy0 (init gammaf) (init gammag) x0 y0 []) ;;
  Ok (ps_x (fst r), ps_y (fst r), ps_tr (fst r)).

(** palm.py:348-379.  The y backtracking starts from y, not from the
    extrapolated point (374-377). *)
Definition ipalm_body (H : Bilin E F) (proxf : option (Op2 E F)) (proxg : option (Op F)) (gammaf gammag : option R)
  (ax ay beta : R) (niterback : nat) (iiter : nat) (s : palm_state) : result (palm_state * bool) :=
  let x := ps_x s in let y := ps_y s in
  let z := x [+] ax [*] (x [-] ps_xo s) in
  xt <- match gammaf with
        | Some gm => x' <- palm_fixed (h_ly H y) (h_gradx H (ps_hy s)) (option_map on_x proxf) gm z ;; Ok (x', ps_tauf s)
        | None => tauf <- read_var (ps_tauf s) ;;
                  r <- palm_bt (fun v => h_call H v y) (h_gradx H (ps_hy s)) (option_map on_x proxf) beta niterback z tauf ;;
                  Ok (fst r, Some (snd r))
        end ;;
  let x' := fst xt in
  let z := y [+] ay [*] (y [-] ps_yo s) in
  yt <- match gammag with
        | Some gm => y' <- palm_fixed (h_lx H x') (h_grady H x') proxg gm z ;; Ok (y', ps_taug s)
        | None => taug <- read_var (ps_taug s) ;;
                  r <- palm_bt (fun v => h_call H x' v) (h_grady H x') (option_map on_y proxf) beta niterback y taug ;;
                  Ok (fst r, Some (snd r))
        end ;;
  let y' := fst yt in
  Ok (PS x' y' x' y' (snd xt) (snd yt) x y (ps_tr s ++ [(x', y')]), false).

(** palm.py:221-403; 339-344: both initialisations are guarded by gammaf. *)
Definition iPALM (H : Bilin E F) (hx0 : E) (hy0 : F) (proxf : option (Op2 E F)) (proxg : option (Op F)) (x0 : E) (y0 : F)
  (gammaf gammag : option R) (ax ay beta : R) (niter niterback : nat) : result (E * F * list (E * F)) :=
  let tau0 : option R := if is_none gammaf then Some 1 else None in
  r <- for_loop (ipalm_body H proxf proxg gammaf gammag ax ay beta niterback) niter 0
         (PS x0 y0 hx0 hy0 tau0 tau0 x0 y0 []) ;;
  Ok (ps_x (fst r), ps_y (fst r), ps_tr (fst r)).
End M.
Arguments palm_state : clear implicits.
