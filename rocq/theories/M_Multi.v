(** * Solvers for sums of many functions: PPXA, ConsensusADMM,
      GeneralizedProximalGradient (optimization/primal.py:725-902, 1814-2107)

    Callbacks are recorded; the [show] log is not modelled.  Arrays of shape
    (m, d) are lists of m vectors; [amax] stands for the entrywise maximum
    [np.abs(.).max()]. *)
From Coq Require Import String.
From Verif Require Import Base Space VSum M_ProxOp M_Norms M_Loop M_PG.
Open Scope result_scope.
Open Scope R_scope.

Section S.
Context {E : IPS}.

(** [[o[i].prox(y[i], taus[i]) for i in range(m)]] with m = len(o) *)
Fixpoint prox_all (os : list (Op E)) (ys : list E) (taus : list R) : result (list E) :=
  match os with
  | [] => Ok []
  | o :: os =>
      match ys, taus with
      | y :: ys, t :: taus => p <- o_prox o y t ;; ps <- prox_all os ys taus ;; Ok (p :: ps)
      | _, _ => Err IndexError
      end
  end.
(** [np.stack] of that list: an empty list raises ValueError (1948, 2081) *)
Definition stack_all (os : list (Op E)) (ys : list E) (taus : list R) : result (list E) :=
  ps <- prox_all os ys taus ;; match ps with [] => Err ValueError | _ => Ok ps end.
Fixpoint mapM {A B} (f : A -> result B) (l : list A) : result (list B) :=
  match l with [] => Ok [] | a :: l => b <- f a ;; bs <- mapM f l ;; Ok (b :: bs) end.
Definition wsum (w : list R) (l : list E) : E := vsum (map2 vscal w l).
Definition vmean (l : list E) : E := / INR (List.length l) [*] vsum l.

(** The test [np.abs(x - x_old).max() < tol]; comparing with None raises. *)
Definition abs_stop (amax : E -> R) (tol : option R) (d : E) : result bool :=
  match tol with None => Err TypeError | Some t => Ok (Rltb (amax d) t) end.

(** ** PPXA, primal.py:1814-1973 *)
Inductive ppxa_init := Common (x : E) | PerFun (l : list E).
Record ppxa_state := PX { px_y : list E; px_x : E; px_old : E; px_tr : list E }.

Definition ppxa_body (proxfs : list (Op E)) (w : list R) (tau eta : R) (amax : E -> R) (tol : option R)
  (iiter : nat) (s : ppxa_state) : result (ppxa_state * bool) :=
  (* 1948; a zero weight (infinite step in numpy) is outside the model: reported as ZeroDivisionError *)
  taus <- mapM (pydiv tau) w ;;
  p <- stack_all proxfs (px_y s) taus ;;
  let pn := wsum w p in
  let x := px_x s in
  let y' := map2 (fun yi pi => yi [+] eta [*] (2 [*] pn [-] x [-] pi)) (px_y s) p in
  let x' := x [+] eta [*] (pn [-] x) in
  stop <- abs_stop amax tol (x' [-] px_old s) ;;
  Ok (PX y' x' x' (px_tr s ++ [x']), stop).

(** Shapes: w and y must have exactly m rows (numpy broadcasting with m = 1 is not
    modelled). *)
Definition PPXA (proxfs : list (Op E)) (x0 : ppxa_init) (tau eta : R) (weights : option (list R)) (niter : nat)
  (amax : E -> R) (tol : option R) : result (E * list E) :=
  let m := List.length proxfs in
  w <- (match weights with None => c <- pydiv 1 (INR m) ;; Ok (repeat c m) | Some w => Ok w end) ;;       (* 1933-1936 *)
  let y := match x0 with PerFun l => l | Common x => repeat x m end in               (* 1938-1941 *)
  if negb (Nat.eqb (List.length w) m && Nat.eqb (List.length y) m) then Err ValueError else
  let x := vmean y in                                                                (* 1943 *)
  r <- for_loop (ppxa_body proxfs w tau eta amax tol) niter 0 (PX y x x []) ;;
  Ok (px_x (fst r), px_tr (fst r)).

(** ** ConsensusADMM, primal.py:1976-2107 *)
Record cadmm_state := CA { ca_xbar : E; ca_old : E; ca_y : list E; ca_tr : list E }.
Definition cadmm_body (proxfs : list (Op E)) (tau : R) (amax : E -> R) (tol : option R)
  (iiter : nat) (s : cadmm_state) : result (cadmm_state * bool) :=
  x <- stack_all proxfs (map (fun yi => ca_xbar s [-] yi) (ca_y s)) (repeat tau (List.length proxfs)) ;;
  let xbar := vmean x in
  let y' := map2 (fun yi xi => yi [+] xi [-] xbar) (ca_y s) x in
  stop <- abs_stop amax tol (xbar [-] ca_old s) ;;
  Ok (CA xbar xbar y' (ca_tr s ++ [xbar]), stop).
Definition ConsensusADMM (proxfs : list (Op E)) (x0 : E) (tau : R) (niter : nat) (amax : E -> R) (tol : option R)
  : result (E * list E) :=
  r <- for_loop (cadmm_body proxfs tau amax tol) niter 0 (CA x0 x0 (repeat vzero (List.length proxfs)) []) ;;
  Ok (ca_xbar (fst r), ca_tr (fst r)).

(** ** GeneralizedProximalGradient, primal.py:725-902 *)
Record gpg_state := GP { gp_x : E; gp_y : E; gp_zs : list E; gp_t : R; gp_tr : list E }.

(** 855-858: grad += proxf.grad(x) *)
Fixpoint grad_all (os : list (Op E)) (x : E) : result E :=
  match os with
  | [] => Ok vzero
  | o :: os => g <- get_grad o x ;; gs <- grad_all os x ;; Ok (g [+] gs)
  end.
(** 860-866: the new z list and the accumulated x *)
Fixpoint gpg_zs (os : list (Op E)) (y grad : E) (tau eta : R) (zs : list E) (eps w : list R) : result (list E * E) :=
  match os with
  | [] => Ok ([], vzero)
  | o :: os =>
      match zs, eps, w with
      | z :: zs, e :: eps, w :: ws =>
          t <- pydiv (tau * e) w ;;                                  (* w = 0 is outside the model *)
          p <- o_prox o (2 [*] y [-] z [-] tau [*] grad) t ;;
          let z' := z [+] eta [*] (p [-] y) in
          r <- gpg_zs os y grad tau eta zs eps ws ;;
          Ok (z' :: fst r, w [*] z' [+] snd r)
      | _, _, _ => Err IndexError
      end
  end.
Definition gpg_body (proxfs proxgs : list (Op E)) (tau : R) (eps w : list R) (eta : R) (accel : option string)
  (iiter : nat) (s : gpg_state) : result (gpg_state * bool) :=
  grad <- grad_all proxfs (gp_x s) ;;
  r <- gpg_zs proxgs (gp_y s) grad tau eta (gp_zs s) eps w ;;
  let x := snd r in
  let t' := if accel_is accel "fista" then (1 + sqrt (1 + 4 * (gp_t s * gp_t s))) / 2 else gp_t s in
  let omega := if accel_is accel "vandenberghe" then INR iiter / (INR iiter + 3)
               else if accel_is accel "fista" then (gp_t s - 1) / t' else 0 in
  Ok (GP x (x [+] omega [*] (x [-] gp_x s)) (fst r) t' (gp_tr s ++ [x]), false).

Definition GeneralizedProximalGradient (proxfs proxgs : list (Op E)) (x0 : E) (tau : option R) (epsg : list R)
  (weights : option (list R)) (eta : R) (niter : nat) (accel : option string) : result (E * list E) :=
  let m := List.length proxgs in
  let w := match weights with None => repeat (1 / INR m) m | Some w => w end in        (* 805-807 *)
  if negb (Nat.eqb (List.length w) m && Reqb (Rsum w) 1) then Err ValueError else      (* 808-810, over the reals; see M_Float *)
  let eps := match epsg with [e] => repeat e m | _ => epsg end in                       (* 812-818 *)
  if accel_known accel then
    let tau := match tau with None => 1 | Some t => t end in
    r <- for_loop (gpg_body proxfs proxgs tau eps w eta accel) niter 0 (GP x0 x0 (repeat x0 m) 1 []) ;;
    Ok (gp_x (fst r), gp_tr (fst r))
  else Err NotImplementedError.
End S.
Arguments ppxa_state : clear implicits.
Arguments cadmm_state : clear implicits.
Arguments gpg_state : clear implicits.
Arguments ppxa_init : clear implicits.
