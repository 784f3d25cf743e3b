(** * Bregman iterations and plug-and-play
      (optimization/bregman.py, optimization/pnp.py) *)
From Verif Require Import Base Space M_ProxOp M_Norms M_Loop M_Split.
Open Scope result_scope.
Open Scope R_scope.

(** What a solver passed to Bregman returns: an array, or a tuple of arrays whose
    first component is the solution. *)
Inductive solver_out (E : IPS) : Type :=
| SArr (x : E)
| STup (x : E) (rest : list E).
Arguments SArr {E} x.
Arguments STup {E} x rest.
(** bregman.py:150-151 *)
Definition solver_x {E : IPS} (o : solver_out E) : E := match o with SArr x => x | STup x _ => x end.

Section B.
Context {E F : IPS}.

(** bregman.py:134-179.  [solver o1 o2 x0] is the user's solver with its remaining
    keyword arguments (and A, when given) already supplied; F is the space g acts
    on.  deepcopy(proxf) is proxf itself for operators without mutable state. *)
Record br_state := BR { br_x : E; br_q : E; br_tr : list E }.
Definition br_body (fuel : nat) (proxf : Op E) (aproxg : Op F) (x0 : E) (solver : Op E -> Op F -> E -> result (solver_out E))
  (alpha : R) (warm : bool) (tolx tolf : R) (iiter : nat) (s : br_state) : result (br_state * bool) :=
  let xold := br_x s in
  proxf_q <- (match iiter with
              | O => Ok proxf                                                   (* 141-142 *)
              | S _ => op_sub fuel proxf (PArray (alpha [*] br_q s))            (* 144 *)
              end) ;;
  out <- solver proxf_q aproxg (if warm then br_x s else x0) ;;                 (* 146-149 *)
  let x := solver_x out in
  g <- get_grad proxf x ;;
  c <- pydiv 1 alpha ;;
  let q := br_q s [-] c [*] g in                                                (* 154 *)
  pf <- get_val proxf x ;;
  Ok (BR x q (br_tr s ++ [x]), (Rltb (norm (x [-] xold)) tolx || Rltb pf tolf)%bool). (* 173 *)

(** The python number alpha: [1.0 / alpha] and [alpha * q] accept both ints and
    floats, [alpha * proxg] does not. *)
Definition num_of {G : IPS} (a : operand (E:=G)) : option R :=
  match a with PInt z => Some (IZR z) | PFloat r => Some r | _ => None end.

Definition Bregman (fuel : nat) (proxf : Op E) (proxg : Op F) (x0 : E)
  (solver : Op E -> Op F -> E -> result (solver_out E)) (alpha : operand (E:=F)) (niterouter : nat) (warm : bool)
  (tolx tolf : R) : result (E * list E) :=
  aproxg <- op_rmul fuel proxg alpha ;;                                          (* 134 *)
  match num_of alpha with
  | None => Err TypeError
  | Some a =>
      r <- for_loop (br_body fuel proxf aproxg x0 solver a warm tolx tolf) niterouter 0 (BR x0 vzero []) ;;
      Ok (br_x (fst r), br_tr (fst r))
  end.
End B.
Arguments br_state : clear implicits.

(** pnp.py:10-42, class _Denoise.  [denoiser] is the user's function on the flat
    array; the two reshapes (40, 42) are the identity on data when prod(dims) is
    the size of x, otherwise reshape raises. *)
Definition denoise_body {n : nat} (denoiser : Vec n -> R -> result (Vec n)) (dims : list nat) : Body (Vec n) :=
  mkBody (Some (fun _ => Ok (VNum 0)))
    (Some (fun x tau => if Nat.eqb (fold_right Nat.mul 1%nat dims) n then denoiser x tau else Err ValueError))
    None None false 1.

(** pnp.py:45-130 with an arbitrary solver and with the default one *)
Definition PlugAndPlay {n : nat} {A} (fuel : nat) (solver : Op (Vec n) -> Op (Vec n) -> Vec n -> result A)
  (proxf : Op (Vec n)) (denoiser : Vec n -> R -> result (Vec n)) (dims : list nat) (x0 : Vec n) : result A :=
  solver proxf (obj fuel (denoise_body denoiser dims)) x0.
Definition PlugAndPlay_default {n : nat} (fuel : nat) (proxf : Op (Vec n)) (denoiser : Vec n -> R -> result (Vec n)) (dims : list nat)
  (x0 : Vec n) (tau : R) (niter : nat) (z0 : option (Vec n)) (gfirst : bool) : result (Vec n * Vec n * list (Vec n * Vec n)) :=
  PlugAndPlay fuel (fun f g x => ADMM f g (Some x) tau niter z0 gfirst) proxf denoiser dims x0.
