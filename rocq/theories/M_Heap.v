(** * Arrays as memory cells: what the solvers compute when an operator writes into its argument

    The other model files pass arrays by value.  Here an array is a cell of a heap, a python variable holds a reference to a
    cell, and every arithmetic expression allocates a new cell, as numpy does.  An operator's prox receives a reference and may
    write into the heap.  The order in which the cells are read is python's evaluation order.
    Simplifications: views of the same buffer (reshape, ravel, the rows of a 2-D array) are the same reference; the arrays x of
    PPXA, which are never handed to an operator, are kept as values; __call__ does not write. *)
From Verif Require Import Base Space MatFacts M_ProxOp M_Norms M_Loop M_PG M_Split M_Multi M_Dyk M_L2 M_Inter.
Open Scope result_scope.
Open Scope R_scope.

Section H.
Context {E : IPS}.

Definition heap : Type := list E.
Definition ref : Set := nat.
(** content of a cell; a dangling reference cannot arise in python *)
Definition rd (h : heap) (r : ref) : result E := match nth_error h r with Some v => Ok v | None => Err RuntimeError end.
(** a new array *)
Definition alloc (h : heap) (v : E) : heap * ref := (h ++ [v], List.length h).
(** assignment of all the entries of an array *)
Fixpoint wr (h : heap) (r : ref) (v : E) : heap :=
  match h, r with
  | [], _ => []
  | _ :: h, O => v :: h
  | a :: h, S r => a :: wr h r v
  end.
(** reads that may only be done on existing cells, then a new array with the result of an expression on two of them *)
Definition ex2 (h : heap) (a b : ref) (k : E -> E -> E) : result (heap * ref) :=
  va <- rd h a ;; vb <- rd h b ;; Ok (alloc h (k va vb)).
Definition copy (h : heap) (a : ref) : result (heap * ref) := va <- rd h a ;; Ok (alloc h va).

(** the method prox of an operator, acting on the heap *)
Definition hprox : Type := heap -> ref -> R -> result (heap * ref).

(** ** Three ways a prox method uses the array it is given *)
(** it computes a new array (most operators) *)
Definition hp_fresh (f : E -> R -> result E) : hprox := fun h r tau => x <- rd h r ;; v <- f x tau ;; Ok (alloc h v).
(** it computes a new array, and leaves another content in its argument: [f x tau] is (content of x afterwards, result) *)
Definition hp_scratch (f : E -> R -> result (E * E)) : hprox := fun h r tau =>
  x <- rd h r ;; p <- f x tau ;; Ok (alloc (wr h r (fst p)) (snd p)).
(** it stores the result in its argument and returns that array *)
Definition hp_inplace (f : E -> R -> result E) : hprox := fun h r tau => x <- rd h r ;; v <- f x tau ;; Ok (wr h r v, r).

(** ProxOperator.py:183, the inherited grad: [(x - self.prox(x, sigmame)) / sigmame]; the subtraction reads x after the call *)
Definition h_moreau_grad (H : hprox) (sigmame : R) (h : heap) (x : ref) : result (heap * ref) :=
  p <- H h x sigmame ;;
  ex2 (fst p) x (snd p) (fun vx vp => / sigmame [*] (vx [-] vp)).

(** ** ProximalPoint, primal.py:106-206 *)
Record hpp := HPP { hpp_h : heap; hpp_x : ref; hpp_pf : option R; hpp_tr : list ref }.
Definition hpp_body (H : hprox) (f : Op E) (tau : R) (tol : option R) (iiter : nat) (s : hpp) : result (hpp * bool) :=
  p <- H (hpp_h s) (hpp_x s) tau ;;                                (* 177 *)
  let tr := hpp_tr s ++ [snd p] in                                 (* 179-181 *)
  match tol with
  | None => Ok (HPP (fst p) (snd p) (hpp_pf s) tr, false)
  | Some tol =>
      v <- rd (fst p) (snd p) ;;
      pf <- get_val f v ;;                                         (* 187 *)
      stop <- rel_stop true tol pf (hpp_pf s) ;;                   (* 188 *)
      Ok (HPP (fst p) (snd p) (Some pf) tr, stop)
  end.
(** the final heap, the returned array, the arrays handed to the callback *)
Definition hProximalPoint (H : hprox) (f : Op E) (h : heap) (x0 : ref) (tau : R) (niter : nat) (tol : option R)
  : result (heap * ref * list ref) :=
  c <- copy h x0 ;;                                                (* 171: x = x0.copy() *)
  r <- for_loop (hpp_body H f tau tol) niter 0 (HPP (fst c) (snd c) None []) ;;
  Ok (hpp_h (fst r), hpp_x (fst r), hpp_tr (fst r)).

(** primal.py:54-103, Op=None: a missing array is a copy of the other one, a given array is used as it is *)
Definition hx0z0 (h : heap) (x0 z0 : option ref) : result (heap * ref * ref) :=
  match x0, z0 with
  | None, None => Err ValueError
  | None, Some z => c <- copy h z ;; Ok (fst c, snd c, z)
  | Some x, None => c <- copy h x ;; Ok (fst c, x, snd c)
  | Some x, Some z => Ok (h, x, z)
  end.

(** ** HQS, primal.py:905-1053 *)
Record hhqs := HHQ { hh_h : heap; hh_x : ref; hh_z : ref; hh_tr : list (ref * ref) }.
Definition hhqs_body (Hf Hg : hprox) (taus : list R) (gfirst : bool) (iiter : nat) (s : hhqs) : result (hhqs * bool) :=
  tau <- getitem taus iiter ;;
  hxz <- (if gfirst then
            z <- Hg (hh_h s) (hh_x s) tau ;;
            x <- Hf (fst z) (snd z) tau ;; Ok (fst x, snd x, snd z)
          else
            x <- Hf (hh_h s) (hh_z s) tau ;;
            z <- Hg (fst x) (snd x) tau ;; Ok (fst z, snd x, snd z)) ;;
  let '(h, x, z) := hxz in
  Ok (HHQ h x z (hh_tr s ++ [(x, z)]), false).
Definition hHQS (Hf Hg : hprox) (h : heap) (x0 : option ref) (tau : list R) (niter : nat) (z0 : option ref) (gfirst : bool)
  : result (heap * ref * ref * list (ref * ref)) :=
  hxz <- hx0z0 h x0 z0 ;;
  let '(h, x, z) := hxz in
  r <- for_loop (hhqs_body Hf Hg (hqs_taus tau niter) gfirst) niter 0 (HHQ h x z []) ;;
  Ok (hh_h (fst r), hh_x (fst r), hh_z (fst r), hh_tr (fst r)).

(** ** ADMM, primal.py:1056-1210: the arrays handed to the operators are the temporaries x + u and z - u *)
Record hadmm := HAD { ha_h : heap; ha_x : ref; ha_z : ref; ha_u : ref; ha_tr : list (ref * ref) }.
Definition hadmm_body (Hf Hg : hprox) (tau : R) (gfirst : bool) (iiter : nat) (s : hadmm) : result (hadmm * bool) :=
  hxz <- (if gfirst then
            t <- ex2 (ha_h s) (ha_x s) (ha_u s) vadd ;;
            z <- Hg (fst t) (snd t) tau ;;
            t <- ex2 (fst z) (snd z) (ha_u s) vsub ;;
            x <- Hf (fst t) (snd t) tau ;; Ok (fst x, snd x, snd z)
          else
            t <- ex2 (ha_h s) (ha_z s) (ha_u s) vsub ;;
            x <- Hf (fst t) (snd t) tau ;;
            t <- ex2 (fst x) (snd x) (ha_u s) vadd ;;
            z <- Hg (fst t) (snd t) tau ;; Ok (fst z, snd x, snd z)) ;;
  let '(h, x, z) := hxz in
  t <- ex2 h (ha_u s) x vadd ;;                                    (* 1188: u = u + x - z *)
  u <- ex2 (fst t) (snd t) z vsub ;;
  Ok (HAD (fst u) x z (snd u) (ha_tr s ++ [(x, z)]), false).
Definition hADMM (Hf Hg : hprox) (h : heap) (x0 : option ref) (tau : R) (niter : nat) (z0 : option ref) (gfirst : bool)
  : result (heap * ref * ref * list (ref * ref)) :=
  hxz <- hx0z0 h x0 z0 ;;
  let '(h, x, z) := hxz in
  let u := alloc h vzero in
  r <- for_loop (hadmm_body Hf Hg tau gfirst) niter 0 (HAD (fst u) x z (snd u) []) ;;
  Ok (ha_h (fst r), ha_x (fst r), ha_z (fst r), ha_tr (fst r)).

(** ** DouglasRachfordSplitting, primal.py:1685-1811: y itself is handed to the first operator, and read again afterwards *)
Record hdr := HDR { hd_h : heap; hd_x : option ref; hd_y : ref; hd_tr : list (ref * ref) }.
Definition hdr_half (H1 H2 : hprox) (tau eta : R) (h : heap) (y : ref) : result (heap * ref * ref) :=
  x <- H1 h y tau ;;                                               (* 1788 / 1791 *)
  t <- ex2 (fst x) (snd x) y (fun vx vy => 2 [*] vx [-] vy) ;;     (* 1789 / 1792 *)
  p <- H2 (fst t) (snd t) tau ;;
  d <- ex2 (fst p) (snd p) (snd x) (fun vp vx => eta [*] (vp [-] vx)) ;;
  y' <- ex2 (fst d) y (snd d) vadd ;;
  Ok (fst y', snd x, snd y').
Definition hdr_body (Hf Hg : hprox) (tau eta : R) (gfirst : bool) (iiter : nat) (s : hdr) : result (hdr * bool) :=
  hxy <- (if gfirst then hdr_half Hg Hf tau eta (hd_h s) (hd_y s) else hdr_half Hf Hg tau eta (hd_h s) (hd_y s)) ;;
  let '(h, x, y) := hxy in
  Ok (HDR h (Some x) y (hd_tr s ++ [(x, y)]), false).
Definition hDouglasRachford (Hf Hg : hprox) (h : heap) (x0 : ref) (tau eta : R) (niter : nat) (gfirst : bool)
  : result (heap * ref * ref * list (ref * ref)) :=
  c <- copy h x0 ;;                                                (* 1785: y = x0.copy() *)
  r <- for_loop (hdr_body Hf Hg tau eta gfirst) niter 0 (HDR (fst c) None (snd c) []) ;;
  match hd_x (fst r) with
  | Some x => Ok (hd_h (fst r), x, hd_y (fst r), hd_tr (fst r))
  | None => Err UnboundLocalError
  end.

(** ** PPXA, primal.py:1814-1973: the rows of y are handed to the operators, and y is read again afterwards *)
Record hppxa := HPX { hx_h : heap; hx_y : list ref; hx_x : E; hx_old : E; hx_tr : list E }.
Fixpoint hprox_all (Hs : list hprox) (h : heap) (ys : list ref) (taus : list R) : result (heap * list ref) :=
  match Hs with
  | [] => Ok (h, [])
  | H :: Hs =>
      match ys, taus with
      | y :: ys, t :: taus => p <- H h y t ;; ps <- hprox_all Hs (fst p) ys taus ;; Ok (fst ps, snd p :: snd ps)
      | _, _ => Err IndexError
      end
  end.
(** new rows; numpy allocates them as one array *)
Fixpoint allocs (h : heap) (vs : list E) : heap * list ref :=
  match vs with
  | [] => (h, [])
  | v :: vs => let c := allocs (fst (alloc h v)) vs in (fst c, snd (alloc h v) :: snd c)
  end.
Definition hppxa_body (Hs : list hprox) (w : list R) (tau eta : R) (amax : E -> R) (tol : option R) (iiter : nat) (s : hppxa)
  : result (hppxa * bool) :=
  taus <- mapM (pydiv tau) w ;;
  ps <- hprox_all Hs (hx_h s) (hx_y s) taus ;;                     (* 1948 *)
  let h := fst ps in
  p <- mapM (rd h) (snd ps) ;;                                     (* np.stack copies *)
  match p with [] => Err ValueError | _ =>
  let pn := wsum w p in
  let x := hx_x s in
  ys <- mapM (rd h) (hx_y s) ;;                                    (* 1950: y is read here *)
  let y' := map2 (fun yi pi => yi [+] eta [*] (2 [*] pn [-] x [-] pi)) ys p in
  let c := allocs h y' in
  let x' := x [+] eta [*] (pn [-] x) in
  stop <- abs_stop amax tol (x' [-] hx_old s) ;;
  Ok (HPX (fst c) (snd c) x' x' (hx_tr s ++ [x']), stop)
  end.
(** x0 given as a 2-D array: its rows are used without a copy (1938-1939); a 1-D array is copied m times (1941) *)
Inductive hppxa_init := HCommon (x : ref) | HRows (l : list ref).
Definition hPPXA (Hs : list hprox) (h : heap) (x0 : hppxa_init) (tau eta : R) (weights : option (list R)) (niter : nat)
  (amax : E -> R) (tol : option R) : result (heap * E * list E) :=
  let m := List.length Hs in
  w <- (match weights with None => c <- pydiv 1 (INR m) ;; Ok (repeat c m) | Some w => Ok w end) ;;
  hy <- (match x0 with HRows l => Ok (h, l) | HCommon x => v <- rd h x ;; Ok (allocs h (repeat v m)) end) ;;
  if negb (Nat.eqb (List.length w) m && Nat.eqb (List.length (snd hy)) m) then Err ValueError else
  ys <- mapM (rd (fst hy)) (snd hy) ;;
  let x := vmean ys in
  r <- for_loop (hppxa_body Hs w tau eta amax tol) niter 0 (HPX (fst hy) (snd hy) x x []) ;;
  Ok (hx_h (fst r), hx_x (fst r), hx_tr (fst r)).

(** ** ConsensusADMM, primal.py:1976-2107: each operator is handed a temporary x_bar - y[i].  x_bar and y are arrays that no
    operator sees: they are kept as values. *)
Fixpoint hprox_tmps (Hs : list hprox) (h : heap) (vs : list E) (taus : list R) : result (heap * list ref) :=
  match Hs with
  | [] => Ok (h, [])
  | H :: Hs =>
      match vs, taus with
      | v :: vs, t :: taus =>
          p <- H (fst (alloc h v)) (snd (alloc h v)) t ;; ps <- hprox_tmps Hs (fst p) vs taus ;; Ok (fst ps, snd p :: snd ps)
      | _, _ => Err IndexError
      end
  end.
Record hcadmm := HCA { hc_h : heap; hc_xbar : E; hc_old : E; hc_y : list E; hc_tr : list E }.
Definition hcadmm_body (Hs : list hprox) (tau : R) (amax : E -> R) (tol : option R) (iiter : nat) (s : hcadmm)
  : result (hcadmm * bool) :=
  ps <- hprox_tmps Hs (hc_h s) (map (fun yi => hc_xbar s [-] yi) (hc_y s)) (repeat tau (List.length Hs)) ;;   (* 2081 *)
  x <- mapM (rd (fst ps)) (snd ps) ;;                              (* np.stack copies *)
  match x with [] => Err ValueError | _ =>
  let xbar := vmean x in
  let y' := map2 (fun yi xi => yi [+] xi [-] xbar) (hc_y s) x in
  stop <- abs_stop amax tol (xbar [-] hc_old s) ;;
  Ok (HCA (fst ps) xbar xbar y' (hc_tr s ++ [xbar]), stop)
  end.
Definition hConsensusADMM (Hs : list hprox) (h : heap) (x0 : ref) (tau : R) (niter : nat) (amax : E -> R) (tol : option R)
  : result (heap * E * list E) :=
  v <- rd h x0 ;;
  r <- for_loop (hcadmm_body Hs tau amax tol) niter 0 (HCA h v v (repeat vzero (List.length Hs)) []) ;;
  Ok (hc_h (fst r), hc_xbar (fst r), hc_tr (fst r)).

(** ** parallel_dykstra_prox, _Dykstra.py:91-118: the rows of z are handed to the operators (111), and z is read again (113) *)
Record hdyk := HDY { hk_h : heap; hk_x : E; hk_z : list ref }.
Definition hdyk_body (Hs : list hprox) (w taus : list R) (amax : E -> R) (tol : R) (iiter : nat) (s : hdyk) : result (hdyk * bool) :=
  ps <- hprox_all Hs (hk_h s) (hk_z s) taus ;;
  p <- mapM (rd (fst ps)) (snd ps) ;;
  if negb (Nat.eqb (List.length w) (List.length p)) then Err ValueError else
  let x := wsum w p in
  zs <- mapM (rd (fst ps)) (hk_z s) ;;
  let c := allocs (fst ps) (map2 (fun zi pi => zi [+] x [-] pi) zs p) in
  Ok (HDY (fst c) x (snd c), Rltb (amax (x [-] hk_x s)) tol).
Definition hparallel_dykstra_prox (Hs : list hprox) (h : heap) (x0 : ref) (weights taus : list R) (niter : nat) (amax : E -> R) (tol : R)
  : result (heap * E) :=
  w <- normalise weights ;;
  v <- rd h x0 ;;
  let c := allocs h (repeat v (List.length Hs)) in
  r <- for_loop (hdyk_body Hs w taus amax tol) niter 0 (HDY (fst c) v (snd c)) ;;
  Ok (hk_h (fst r), hk_x (fst r)).
End H.
Arguments heap E : clear implicits.
Arguments hprox E : clear implicits.
Arguments hpp E : clear implicits.
Arguments hhqs E : clear implicits.
Arguments hadmm E : clear implicits.
Arguments hdr E : clear implicits.
Arguments hppxa E : clear implicits.
Arguments hcadmm E : clear implicits.
Arguments hdyk E : clear implicits.

(** ** The operators of the library *)
(** L2.prox, L2.py:205-295 (M_L2.v): the argument afterwards and the result; [st] is the state of the attributes *)
Definition l2_hprox {E F : IPS} (ext : L2Ext E F) (cfg : L2Cfg E F) (st : L2St ext) : hprox E :=
  hp_scratch (fun x tau => let '(_, x', res) := l2_prox ext cfg st x tau in v <- res ;; Ok (x', v)).
(** Intersection.prox, proximal/Intersection.py:61-64 and projection/Intersection.py:54-74 (M_Inter.v): [x.reshape(k, n)] and
    [x.ravel()] are views of the caller's array *)
Definition inter_vec (k n : nat) (sg : isigma) (niter : nat) (tol : R) (x : Vec (k * n)) (tau : R) : result (Vec (k * n)) :=
  r <- inter_prox k n sg niter tol (proj1_sig x) tau ;; Ok (vtab (k * n) (fun i => nth i (snd r) 0)).
Definition inter_hprox (k n : nat) (sg : isigma) (niter : nat) (tol : R) : hprox (Vec (k * n)) := hp_inplace (inter_vec k n sg niter tol).
