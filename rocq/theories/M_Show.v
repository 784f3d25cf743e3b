(** * Evaluating the functions inside the solvers: progress lines and tolerance tests, on arrays in memory

    M_Heap.v models the proximal operators of a solver as programs acting on a heap of arrays.  Here [__call__] is one too, and
    the evaluations that the solvers make for the log (show=True) and for the tolerance test are part of the model.
    Simplifications: those of M_Heap.v, except that [__call__] may now write; the linear operators are square (only a square operator
    can return the array it is given); the headers and the elapsed time are not modelled, the text of a progress line is the
    function [fmt] of the array x and of the values printed (it may raise: x[0] of an empty array, the format of a value). *)
From Coq Require Import String.
From Verif Require Import Base Space MatFacts M_ProxOp M_Norms M_Loop M_PG M_Split M_Multi M_PD M_Heap M_AndShow.
Open Scope result_scope.
Open Scope R_scope.

Section S.
Context {E : IPS}.

(** ** [__call__] and [matvec] on the heap *)
Definition hcall : Type := heap E -> ref -> result (heap E * pyval).
Definition hlin : Type := heap E -> ref -> result (heap E * ref).
(** a [__call__] that computes with values (all classes but Orthogonal) *)
Definition hc_reads (c : E -> result pyval) : hcall := fun h r => v <- rd h r ;; k <- c v ;; Ok (h, k).
(** a linear operator that returns a new array *)
Definition hl_new (A : E -> E) : hlin := fun h r => v <- rd h r ;; Ok (alloc h (A v)).
(** pylops.Identity(n), whose result is by default its argument (pytests/test_proximal.py:119 passes inplace=False for this reason) *)
Definition hl_self : hlin := fun h r => Ok (h, r).

(** proximal/Orthogonal.py:78-82: [y = self.Q.matvec(x); y += self.b; return self.f(y)] *)
Definition horth_call (Q : hlin) (b : E) (C : hcall) : hcall := fun h x =>
  y <- Q h x ;;
  vy <- rd (fst y) (snd y) ;;
  C (wr (fst y) (snd y) (vy [+] b)) (snd y).
(** ProxOperator.py:346-348, [_SumOperator.__call__]: [self.f(x) + np.dot(self.v, x)], the product is computed after the call *)
Definition hsum_call (C : hcall) (v : E) : hcall := fun h x =>
  p <- C h x ;;
  vx <- rd (fst p) x ;;
  Ok (fst p, VNum (as_num (snd p) + << v, vx >>)).

(** ** The progress line of an iteration *)
(** [if show: if iiter < 10 or ...: ...] *)
Definition with_line {S : Type} (show : bool) (niter iiter : nat) (line : S -> result S) (r : S * bool) : result (S * bool) :=
  if (show && logged niter iiter)%bool then s <- line (fst r) ;; Ok (s, snd r) else Ok r.
(** [pf, pg = proxf(x), proxg(x)] and the line *)
Definition line2 (Cf Cg : hcall) (fmt : E -> list pyval -> result unit) (h : heap E) (x : ref) : result (heap E) :=
  pf <- Cf h x ;;
  pg <- Cg (fst pf) x ;;
  v <- rd (fst pg) x ;;
  _ <- fmt v [snd pf; snd pg] ;;
  Ok (fst pg).

(** ** ProximalPoint, primal.py:106-206 *)
Definition spp_body (show : bool) (niter : nat) (H : hprox E) (C : hcall) (fmt : E -> list pyval -> result unit) (tau : R) (tol : option R)
  (iiter : nat) (s : hpp E) : result (hpp E * bool) :=
  p <- H (hpp_h s) (hpp_x s) tau ;;                                (* 177 *)
  let x := snd p in
  let tr := hpp_tr s ++ [x] in                                     (* 179-181 *)
  r <- match tol with
       | None => Ok (HPP (fst p) x (hpp_pf s) tr, false, None)
       | Some tol =>
           c <- C (fst p) x ;;                                     (* 187 *)
           stop <- rel_stop true tol (as_num (snd c)) (hpp_pf s) ;; (* 188 *)
           Ok (HPP (fst c) x (Some (as_num (snd c))) tr, stop, Some (snd c))
       end ;;
  let '(s, stop, vals) := r in
  with_line show niter iiter (fun s =>                             (* 192-197 *)
    c <- match vals with None => C (hpp_h s) (hpp_x s) | Some pf => Ok (hpp_h s, pf) end ;;
    v <- rd (fst c) (hpp_x s) ;;
    _ <- fmt v [snd c] ;;
    Ok (HPP (fst c) (hpp_x s) (hpp_pf s) (hpp_tr s))) (s, stop).
Definition sProximalPoint (show : bool) (H : hprox E) (C : hcall) (fmt : E -> list pyval -> result unit) (h : heap E) (x0 : ref) (tau : R)
  (niter : nat) (tol : option R) : result (heap E * ref * list ref) :=
  c <- copy h x0 ;;                                                (* 171 *)
  r <- for_loop (spp_body show niter H C fmt tau tol) niter 0 (HPP (fst c) (snd c) None []) ;;
  Ok (hpp_h (fst r), hpp_x (fst r), hpp_tr (fst r)).

(** ** ProximalGradient, primal.py:209-449, with backtracking=False and a given tau.  The gradient method computes with values. *)
Record hpg := HPG { hg_h : heap E; hg_x : ref; hg_y : ref; hg_t : R; hg_pfg : option R; hg_tr : list ref }.
(** proxg.prox(a - tau * proxf.grad(a), e * tau) (379-385): the argument is a temporary *)
Definition hpg_step (f : Op E) (Hg : hprox E) (e tau : R) (h : heap E) (a : ref) : result (heap E * ref) :=
  va <- rd h a ;;
  g <- get_grad f va ;;
  let t := alloc h (va [-] tau [*] g) in
  Hg (fst t) (snd t) (e * tau).
Definition spg_body (show : bool) (niter : nat) (f : Op E) (Hg : hprox E) (Cf Cg : hcall) (fmt : E -> list pyval -> result unit)
  (epsg : list R) (tau eta : R) (accel : option string) (tol : option R) (iiter : nat) (s : hpg) : result (hpg * bool) :=
  xo <- copy (hg_h s) (hg_x s) ;;                                  (* 375: xold = x.copy() *)
  e <- getitem epsg iiter ;;
  p <- (if Reqb eta 1 then hpg_step f Hg e tau (fst xo) (hg_y s)   (* 379-380 *)
        else p <- hpg_step f Hg e tau (fst xo) (hg_x s) ;;         (* 382-384 *)
             ex2 (fst p) (hg_x s) (snd p) (fun x p => x [+] eta [*] (p [-] x))) ;;
  let x := snd p in
  let t' := if accel_is accel "fista" then (1 + sqrt (1 + 4 * (hg_t s * hg_t s))) / 2 else hg_t s in
  let omega := if accel_is accel "vandenberghe" then INR iiter / (INR iiter + 3)
               else if accel_is accel "fista" then (hg_t s - 1) / t' else 0 in
  y <- ex2 (fst p) x (snd xo) (fun x xold => x [+] omega [*] (x [-] xold)) ;;   (* 407 *)
  let tr := hg_tr s ++ [x] in                                      (* 410-411 *)
  r <- match tol with
       | None => Ok (HPG (fst y) x (snd y) t' (hg_pfg s) tr, false, None)
       | Some tol =>                                               (* 415-420 *)
           cf <- Cf (fst y) x ;;
           cg <- Cg (fst cf) x ;;
           let pfg := as_num (snd cf) + e * as_num (snd cg) in
           stop <- rel_stop false tol pfg (hg_pfg s) ;;
           Ok (HPG (fst cg) x (snd y) t' (Some pfg) tr, stop, Some [snd cf; snd cg])
       end ;;
  let '(s, stop, vals) := r in
  with_line show niter iiter (fun s =>                             (* 423-440 *)
    match vals with
    | None => h <- line2 Cf Cg fmt (hg_h s) (hg_x s) ;; Ok (HPG h (hg_x s) (hg_y s) (hg_t s) (hg_pfg s) (hg_tr s))
    | Some l => v <- rd (hg_h s) (hg_x s) ;; _ <- fmt v l ;; Ok s
    end) (s, stop).
Definition sProximalGradient (show : bool) (f : Op E) (Hg : hprox E) (Cf Cg : hcall) (fmt : E -> list pyval -> result unit) (h : heap E)
  (x0 : ref) (epsg : list R) (tau eta : R) (niter : nat) (accel : option string) (tol : option R) : result (heap E * ref * list ref) :=
  epsg <- pg_epsg epsg niter ;;
  if accel_known accel then
    x <- copy h x0 ;;                                              (* 368-369 *)
    y <- copy (fst x) (snd x) ;;
    r <- for_loop (spg_body show niter f Hg Cf Cg fmt epsg tau eta accel tol) niter 0 (HPG (fst y) (snd x) (snd y) 1 None []) ;;
    Ok (hg_h (fst r), hg_x (fst r), hg_tr (fst r))
  else Err NotImplementedError.

(** ** HQS, primal.py:905-1053 *)
Definition shqs_body (show : bool) (niter : nat) (Hf Hg : hprox E) (Cf Cg : hcall) (fmt : E -> list pyval -> result unit) (taus : list R)
  (gfirst : bool) (iiter : nat) (s : hhqs E) : result (hhqs E * bool) :=
  r <- hhqs_body Hf Hg taus gfirst iiter s ;;
  with_line show niter iiter (fun s => h <- line2 Cf Cg fmt (hh_h s) (hh_x s) ;; Ok (HHQ h (hh_x s) (hh_z s) (hh_tr s))) r.   (* 1039-1049 *)
Definition sHQS (show : bool) (Hf Hg : hprox E) (Cf Cg : hcall) (fmt : E -> list pyval -> result unit) (h : heap E) (x0 : option ref)
  (tau : list R) (niter : nat) (z0 : option ref) (gfirst : bool) : result (heap E * ref * ref * list (ref * ref)) :=
  hxz <- hx0z0 h x0 z0 ;;
  let '(h, x, z) := hxz in
  r <- for_loop (shqs_body show niter Hf Hg Cf Cg fmt (hqs_taus tau niter) gfirst) niter 0 (HHQ h x z []) ;;
  Ok (hh_h (fst r), hh_x (fst r), hh_z (fst r), hh_tr (fst r)).

(** ** ADMM, primal.py:1056-1210 *)
Definition sadmm_body (show : bool) (niter : nat) (Hf Hg : hprox E) (Cf Cg : hcall) (fmt : E -> list pyval -> result unit) (tau : R)
  (gfirst : bool) (iiter : nat) (s : hadmm E) : result (hadmm E * bool) :=
  r <- hadmm_body Hf Hg tau gfirst iiter s ;;
  with_line show niter iiter (fun s => h <- line2 Cf Cg fmt (ha_h s) (ha_x s) ;; Ok (HAD h (ha_x s) (ha_z s) (ha_u s) (ha_tr s))) r.   (* 1196-1206 *)
Definition sADMM (show : bool) (Hf Hg : hprox E) (Cf Cg : hcall) (fmt : E -> list pyval -> result unit) (h : heap E) (x0 : option ref)
  (tau : R) (niter : nat) (z0 : option ref) (gfirst : bool) : result (heap E * ref * ref * list (ref * ref)) :=
  hxz <- hx0z0 h x0 z0 ;;
  let '(h, x, z) := hxz in
  let u := alloc h vzero in
  r <- for_loop (sadmm_body show niter Hf Hg Cf Cg fmt tau gfirst) niter 0 (HAD (fst u) x z (snd u) []) ;;
  Ok (ha_h (fst r), ha_x (fst r), ha_z (fst r), ha_tr (fst r)).

(** ** DouglasRachfordSplitting, primal.py:1685-1811 *)
Definition sdr_body (show : bool) (niter : nat) (Hf Hg : hprox E) (Cf Cg : hcall) (fmt : E -> list pyval -> result unit) (tau eta : R)
  (gfirst : bool) (iiter : nat) (s : hdr E) : result (hdr E * bool) :=
  r <- hdr_body Hf Hg tau eta gfirst iiter s ;;
  with_line show niter iiter (fun s =>                             (* 1799-1805 *)
    match hd_x s with
    | Some x => h <- line2 Cf Cg fmt (hd_h s) x ;; Ok (HDR h (hd_x s) (hd_y s) (hd_tr s))
    | None => Err UnboundLocalError
    end) r.
Definition sDouglasRachford (show : bool) (Hf Hg : hprox E) (Cf Cg : hcall) (fmt : E -> list pyval -> result unit) (h : heap E) (x0 : ref)
  (tau eta : R) (niter : nat) (gfirst : bool) : result (heap E * ref * ref * list (ref * ref)) :=
  c <- copy h x0 ;;
  r <- for_loop (sdr_body show niter Hf Hg Cf Cg fmt tau eta gfirst) niter 0 (HDR (fst c) None (snd c) []) ;;
  match hd_x (fst r) with
  | Some x => Ok (hd_h (fst r), x, hd_y (fst r), hd_tr (fst r))
  | None => Err UnboundLocalError
  end.

(** ** PrimalDual, primaldual.py:15-221, with a square operator A; [Hgd] is the method proxdual of g *)
Record hpd := HPD { hp_h : heap E; hp_x : ref; hp_y : ref; hp_hat : ref; hp_tr : list (ref * ref) }.
(** [x = proxf.prox(x - tau * ATy, tau)] after [ATy = A.rmatvec(y); if z is not None: ATy += z] (181-184, 187-190): the sum is in place *)
Definition hpd_x (Hf : hprox E) (At : hlin) (z : option E) (tau : result R) (h : heap E) (x y : ref) : result (heap E * ref) :=
  a <- At h y ;;
  h <- match z with None => Ok (fst a) | Some z => va <- rd (fst a) (snd a) ;; Ok (wr (fst a) (snd a) (va [+] z)) end ;;
  tau <- tau ;;
  t <- ex2 h x (snd a) (fun x a => x [-] tau [*] a) ;;
  Hf (fst t) (snd t) tau.
(** [y = proxg.proxdual(y + mu * A.matvec(xhat), mu)] (180, 192) *)
Definition hpd_y (Hgd : hprox E) (Am : hlin) (mu : result R) (h : heap E) (xhat y : ref) : result (heap E * ref) :=
  mu <- mu ;;
  a <- Am h xhat ;;
  t <- ex2 (fst a) y (snd a) (fun y a => y [+] mu [*] a) ;;
  Hgd (fst t) (snd t) mu.
Definition spd_body (show : bool) (niter : nat) (Hf Hgd : hprox E) (Am At : hlin) (Cf Cg : hcall) (fmt : E -> list pyval -> result unit)
  (z : option E) (theta : R) (gfirst : bool) (taus mus : list R) (iiter : nat) (s : hpd) : result (hpd * bool) :=
  xo <- copy (hp_h s) (hp_x s) ;;                                  (* 178 *)
  r <- (if gfirst then
          y <- hpd_y Hgd Am (getitem mus iiter) (fst xo) (hp_hat s) (hp_y s) ;;
          x <- hpd_x Hf At z (getitem taus iiter) (fst y) (hp_x s) (snd y) ;;
          xh <- ex2 (fst x) (snd x) (snd xo) (fun x xold => x [+] theta [*] (x [-] xold)) ;;
          Ok (HPD (fst xh) (snd x) (snd y) (snd xh) (hp_tr s ++ [(snd x, snd y)]))
        else
          x <- hpd_x Hf At z (getitem taus iiter) (fst xo) (hp_x s) (hp_y s) ;;
          xh <- ex2 (fst x) (snd x) (snd xo) (fun x xold => x [+] theta [*] (x [-] xold)) ;;
          y <- hpd_y Hgd Am (getitem mus iiter) (fst xh) (snd xh) (hp_y s) ;;
          Ok (HPD (fst y) (snd x) (snd y) (snd xh) (hp_tr s ++ [(snd x, snd y)]))) ;;
  with_line show niter iiter (fun s =>                             (* 200-214 *)
    pf <- Cf (hp_h s) (hp_x s) ;;
    a <- Am (fst pf) (hp_x s) ;;
    pg <- Cg (fst a) (snd a) ;;
    v <- rd (fst pg) (hp_x s) ;;
    _ <- fmt v [snd pf; snd pg; VNum (match z with None => 0 | Some z => << z, v >> end)] ;;
    Ok (HPD (fst pg) (hp_x s) (hp_y s) (hp_hat s) (hp_tr s))) (r, false).
Definition sPrimalDual (show : bool) (Hf Hgd : hprox E) (Am At : hlin) (Cf Cg : hcall) (fmt : E -> list pyval -> result unit) (h : heap E)
  (x0 : ref) (tau mu : steps) (y0 : option ref) (z : option E) (theta : R) (niter : nat) (gfirst : bool)
  : result (heap E * ref * ref * list (ref * ref)) :=
  x <- copy h x0 ;;                                                (* 172-174 *)
  y <- match y0 with Some y => copy (fst x) y | None => Ok (alloc (fst x) vzero) end ;;
  xh <- copy (fst y) (snd x) ;;
  r <- for_loop (spd_body show niter Hf Hgd Am At Cf Cg fmt z theta gfirst (steps_arr tau niter) (steps_arr mu niter)) niter 0
         (HPD (fst xh) (snd x) (snd y) (snd xh) []) ;;
  Ok (hp_h (fst r), hp_x (fst r), hp_y (fst r), hp_tr (fst r)).
End S.
Arguments hcall E : clear implicits.
Arguments hlin E : clear implicits.
Arguments hpg E : clear implicits.
Arguments hpd E : clear implicits.
