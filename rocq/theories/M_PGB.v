(** * ProximalGradient with a BilinearOperator as f (optimization/primal.py:209-449)

    The smooth term carries stored factors; the solver calls its [updatexy]
    after every proximal step (primal.py:394-396), and nothing else changes
    them ([proxf(x)] restores what it overwrites, bilinear.py:150-165, modelled
    in M_Bilin.v).  Simplifications as in M_PG.v. *)
From Coq Require Import String.
From Verif Require Import Base Space M_ProxOp M_Loop M_PG VSum MatFacts M_Bilin.
Open Scope result_scope.

(** An object with a changeable state: __call__, grad and updatexy. *)
Record SOp (E : IPS) (St : Type) := mkSOp { so_call : St -> E -> result R; so_grad : St -> E -> result E; so_upd : St -> E -> St }.
Arguments mkSOp {E St}. Arguments so_call {E St}. Arguments so_grad {E St}. Arguments so_upd {E St}.

Section M.
Context {E : IPS} {St : Type}.
(** The object between two updates, through the interface of M_PG.v.  A
    BilinearOperator has no [prox] (bilinear.py:11-85), and the solver does not
    call it. *)
Definition frozen (S : SOp E St) (st : St) : Op E :=
  mkOp (fun x => v <- so_call S st x ;; Ok (VNum v)) (fun _ _ => Err NotImplementedError) (fun _ _ => Err NotImplementedError)
       (fun x => g <- so_grad S st x ;; Ok (Some g)) true.

(** primal.py:372-432, one iteration *)
Definition pgb_body (S : SOp E St) (proxg : Op E) (epsg : list R) (bt : bool) (beta eta : R) (niterback : nat)
  (accel : option string) (tol : option R) (iiter : nat) (c : pg_state E * St) : result ((pg_state E * St) * bool) :=
  let s := fst c in
  e <- getitem epsg iiter ;;
  xt <- pg_prox_step (frozen S (snd c)) proxg bt beta eta niterback e (pg_x s) (pg_y s) (pg_tau s) ;;   (* 375-392 *)
  let x := fst xt in
  let st := so_upd S (snd c) x in                                                                        (* 394-396 *)
  let t' := if accel_is accel "fista" then (1 + sqrt (1 + 4 * (pg_t s * pg_t s))) / 2 else pg_t s in     (* 398-407 *)
  let omega := if accel_is accel "vandenberghe" then INR iiter / (INR iiter + 3)
               else if accel_is accel "fista" then (pg_t s - 1) / t' else 0 in
  let y := x [+] omega [*] (x [-] pg_x s) in
  let tr := pg_tr s ++ [x] in                                                                            (* 409-411 *)
  match tol with
  | None => Ok ((PG x y t' (snd xt) (pg_pfg s) tr, st), false)
  | Some tol =>                                                                                          (* 413-420 *)
      pf <- get_val (frozen S st) x ;;
      pg <- get_val proxg x ;;
      let pfg := pf + e * pg in
      stop <- rel_stop false tol pfg (pg_pfg s) ;;
      Ok ((PG x y t' (snd xt) (Some pfg) tr, st), stop)
  end.

(** primal.py:209-449: result, vectors seen by the callback, final state of f *)
Definition ProximalGradientB (S : SOp E St) (st : St) (proxg : Op E) (x0 : E) (epsg : list R) (tau : option R)
  (bt : bool) (beta eta : R) (niter niterback : nat) (accel : option string) (tol : option R)
  : result (E * list E * St) :=
  epsg <- pg_epsg epsg niter ;;
  if accel_known accel then
    let bt := match tau with None => true | Some _ => bt end in
    let tau := match tau with None => 1 | Some t => t end in
    r <- for_loop (pgb_body S proxg epsg bt beta eta niterback accel tol) niter 0 (PG x0 x0 1 tau None [], st) ;;
    Ok (pg_x (fst (fst r)), pg_tr (fst (fst r)), snd (fst r))
  else Err NotImplementedError.
End M.

(** The flat array of a method result as a vector of known length. *)
Definition as_vec (n : nat) (l : list R) : result (Vec n) :=
  match Nat.eq_dec (length l) n with left e => Ok (exist _ l e : Vec n) | right _ => Err ValueError end.
(** LowRankFactorizedMatrix on the concatenated variable: bilinear.py:150-165
    (call), 256-260 (grad), 82-85 (updatexy). *)
Definition lr_sop (n k m : nat) : SOp (Vec (n * k + k * m)) LR := mkSOp
  (fun H v => fst (lr_call H (lst v) None))
  (fun H v => g <- lr_grad H (lst v) ;; as_vec (n * k + k * m) g)
  (fun H v => updatexy H (lst v)).
