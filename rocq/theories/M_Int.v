(** * Integer arrays

    numpy arrays of integers: [np.zeros_like(x)], [np.abs(x)], [x.copy()] and [np.array([...])] keep the
    integer type of x.  Assigning floats to entries of such an array ([y[mask] = v], [y[i] = v]) drops the
    fractional part; the in-place operators [+=] and [-=] with a float operand raise UFuncTypeError, a
    TypeError; [a + b] with a float operand makes a new float array.  The Boolean argument [isint] says
    whether the array has integer type; integers are unbounded (overflow is not modelled).  Only the code
    that reacts to the type is repeated here. *)
From Coq Require Import String.
From Coq Require Import Rtrigo1 Ratan Rpower.
From Verif Require Import Base Space Sep VSum MatFacts M_ProxOp M_L1 M_Pen M_Proj M_Norms M_Loop M_PG M_Split M_Multi M_Dyk M_VStack.
Open Scope result_scope.
Open Scope R_scope.

(** float to int64: the fractional part is dropped *)
Definition trunc (r : R) : R := if Rleb 0 r then IZR (Int_part r) else - IZR (Int_part (- r)).
(** the value found in an array entry after the assignment of [v] *)
Definition store (isint : bool) (v : R) : R := if isint then trunc v else v.

(** ** Huber (proximal/Huber.py:51-71): [h = np.zeros_like(x)] and the two masked assignments *)
Definition ihuber_elem (isint : bool) (alpha a : R) : R :=
  if Rltb alpha (Rabs a) then store isint (Rabs a - alpha / 2) else store isint (Rabs a * Rabs a / (2 * alpha)).
Definition ihuber_pr (isint : bool) (alpha tau a : R) : R :=
  if Rltb alpha (Rabs a) then store isint (soft (tau * 1) a) else store isint (a / (1 + tau * (1 / alpha))).
Definition ihuber_body {n} (isint : bool) (alpha : R) : Body (Vec n) := sep_body (ihuber_elem isint alpha) (ihuber_pr isint alpha).

(** ** Log (proximal/Log.py:91-104): [out] is an integer array, [out[idx] = ...]; [out *= np.sign(x)] has
    integers on both sides *)
Definition ilog_pr (isint : bool) (sigma gamma tau a : R) : R :=
  let k := tau * sigma / ln (gamma + 1) in
  let b := gamma * Rabs a - 1 in
  let disc := b * b - 4 * gamma * (k * gamma - Rabs a) in
  let out :=
    if Rleb 0 disc then
      let r := (b + sqrt disc) / (2 * gamma) in
      let val z := tau * log_elem sigma gamma z + (z - Rabs a) * (z - Rabs a) / 2 in
      store isint (if Rltb (val r) (val 0) then r else 0)
    else 0 in
  out * sgn a.
Definition ilog_body {n} (isint : bool) (sigma gamma : R) : Body (Vec n) := sep_body (log_elem sigma gamma) (ilog_pr isint sigma gamma).

(** ** Log1 (proximal/Log.py:163-190), the branch for real arrays *)
Definition ilog1_pr (isint : bool) (sigma delta tau a : R) : R :=
  let tau1 := sigma * tau in
  let thresh := sqrt (2 * tau1) - delta in
  let v1 := if Rltb thresh a
            then store isint (/ 2 * (a - delta + sqrt (Rabs (a + delta) * Rabs (a + delta) - 2 * tau1))) else 0 in
  if Rltb a (- thresh)
  then store isint (/ 2 * (a + delta - sqrt (Rabs (a - delta) * Rabs (a - delta) - 2 * tau1))) else v1.
Definition ilog1_body {n} (isint : bool) (sigma delta : R) : Body (Vec n) := sep_body (log1_elem delta) (ilog1_pr isint sigma delta).

(** ** SCAD (proximal/SCAD.py:66-90): [f = np.zeros_like(x)] and [theta = x.copy()] *)
Definition iscad_elem (isint : bool) (sigma al a : R) : R :=
  if Rleb (Rabs a) sigma then store isint (sigma * Rabs a)
  else if Rleb (Rabs a) (al * sigma)
       then store isint ((- (a * a) + 2 * al * sigma * Rabs a - sigma * sigma) / (2 * (al - 1)))
       else store isint ((al + 1) * (sigma * sigma) / 2).
Definition iscad_pr (isint : bool) (sigma al tau a : R) : R :=
  let first := sigma * (al - 1 - tau + tau * al) / (al - 1) in
  if Rleb (Rabs a) first then store isint (sgn a * Rmax 0 (Rabs a - sigma * tau))
  else if Rleb (Rabs a) (al * sigma)
       then store isint (((al - 1) * a - sgn a * al * sigma * tau) / (al - 1 - tau))
       else a.
Definition iscad_body {n} (isint : bool) (sigma al : R) : Body (Vec n) := sep_body (iscad_elem isint sigma al) (iscad_pr isint sigma al).

(** ** QuadraticEnvelopeCard (proximal/QuadraticEnvelope.py:88-95): [r = np.abs(x)] and [r[idx] = ...] *)
Definition iqec_pr (isint : bool) (mu tau a : R) : R :=
  let r := if Rltb (Rabs a) (sqrt (2 * mu))
           then if Rleb 1 tau then 0
                else store isint (Rmax 0 ((Rabs a - tau * sqrt (2 * mu)) / (1 - tau)))
           else Rabs a in
  r * sgn a.
Definition iqec_body {n} (isint : bool) (mu : R) : Body (Vec n) := sep_body (qec_elem mu) (iqec_pr isint mu).

(** ** ETP (proximal/ETP.py:73-91) *)
Definition ietp_pr (isint : bool) (W : R -> R) (sigma gamma tau a : R) : R :=
  let k := tau * sigma / (1 - exp (- gamma)) in
  let tmp := exp (- Rabs a * gamma) * k * (gamma * gamma) in
  if Rleb tmp (exp (-1)) then
    let st := sgn a * W (- tmp) / gamma + a in
    if Rltb (tau * etp_elem sigma gamma st + (st - a) * (st - a) / 2) (a * a / 2) then store isint st else 0
  else 0.
Definition ietp_body {n} (isint : bool) (W : R -> R) (sigma gamma : R) : Body (Vec n) := sep_body (etp_elem sigma gamma) (ietp_pr isint W sigma gamma).

(** ** Geman (proximal/Geman.py:66-90) *)
Definition igeman_pr (isint : bool) (sigma gamma tau a : R) : R :=
  let b := 2 * gamma - Rabs a in
  let c := gamma * gamma - 2 * gamma * Rabs a in
  let d := gamma * sigma * tau - gamma * gamma * Rabs a in
  let f := - ((c - b * b / 3) ^ 3) / 27 in
  let g := (2 * b ^ 3 - 9 * b * c + 27 * d) / 27 in
  if Rleb (g * g / 4 - f) 0 then
    let sqrtf := sqrt f in
    let k := acos (- (g / (2 * sqrtf))) in
    let lm := 2 * Rpower sqrtf (1 / 3) * cos (k / 3) - b / 3 in
    if Rltb (tau * geman_elem sigma gamma lm + (lm - Rabs a) * (lm - Rabs a) / 2) (Rabs a * Rabs a / 2)
    then store isint (sgn a * lm) else 0
  else 0.
Definition igeman_body {n} (isint : bool) (sigma gamma : R) : Body (Vec n) := sep_body (geman_elem sigma gamma) (igeman_pr isint sigma gamma).

(** ** Simplex with dims (proximal/Simplex.py:76-89): [y = np.zeros_like(x)], [y[i] = self.simplex(x[i])];
    the numba and cuda versions allocate their result in the same way.  [P] is the projection of one row. *)
Definition isimplex_rows {r c} (isint : bool) (P : Vec c -> result (Vec c)) (x : Vec (r * c)) (tau : R) : result (Vec (r * c)) :=
  if Rleb tau 0 then Err ValueError else by_rows (fun v => p <- P v ;; Ok (vmap (store isint) p)) x.
Definition isimplex_cols {r c} (isint : bool) (P : Vec r -> result (Vec r)) (x : Vec (r * c)) (tau : R) : result (Vec (r * c)) :=
  if Rleb tau 0 then Err ValueError
  else y <- by_rows (r:=c) (c:=r) (fun v => p <- P v ;; Ok (vmap (store isint) p)) (transp x) ;; Ok (transp y).

(** ** VStack with restr (proximal/VStack.py:105-109): [f = np.zeros_like(x)], [f[iava] = op.prox(...)] *)
Definition ivstack_prox (isint : bool) (v : vstack) (x : list R) (tau : R) : result (list R) :=
  check_tau tau (size_check v x
    (match vs_blocks v with
     | Sizes nn => l <- loop_nn (fun op xi => l_prox op xi tau) (vs_ops v) nn x 0 ;; if Nat.eqb (length l) 0 then Err ValueError else Ok (concat l)
     | Restr r => loop_restr (fun op xi => l_prox op xi tau) (fun f iava a => scatter f iava (map (store isint) a)) (vs_ops v) r x (repeat 0 (length x))
     end)).

(** ** parallel_dykstra_projection (proximal/_Dykstra.py:62-88): [u_prev = array([u, ..., u])] has the type of u,
    so that [u_prev[i] = u] drops the fractional part during the first sweep from an integer x0.  The
    projections are assumed to return float arrays: from the second sweep on u_prev is a float array.
    [cast] is the conversion of a float array to the type of x0: [vmap trunc], or nothing for a float x0. *)
Section D.
Context {E : IPS} (amax : E -> R) (cast : E -> E).
Fixpoint isweep (first : bool) (projs : list (E -> result E)) (i : nat) (s : cyc_state (E:=E)) : result cyc_state :=
  match projs with
  | [] => Ok s
  | proj :: projs =>
      let b := last_of (c_prev s) i in
      let zi := nth i (c_z s) vzero in
      u <- proj (b [+] zi) ;;
      isweep first projs (S i) (CY u (lset (c_prev s) i (if first then cast u else u)) (lset (c_z s) i (zi [+] b [-] u)))
  end.
Definition icyc_body (projs : list (E -> result E)) (tol : R) (k : nat) (s : E * list E) : result (E * list E * bool) :=
  let u_old := fst s in
  r <- isweep (Nat.eqb k 0) projs 0 (CY u_old (repeat u_old (length projs)) (snd s)) ;;
  Ok (c_u r, c_z r, Rltb (Rmax (amax (u_old [-] c_u r)) (amax_rows amax (map (fun v => v [-] c_u r) (c_prev r)))) tol).
Definition icyclic_dykstra (x0 : E) (projs : list (E -> result E)) (niter : nat) (tol : R) : result E :=
  r <- for_loop (icyc_body projs tol) niter 0 (x0, repeat vzero (length projs)) ;;
  Ok (fst (fst r)).
End D.

(** ** Arrays with their type *)
Section A.
Context {E : IPS}.
Record arr := Arr { a_int : bool; a_val : E }.
(** a + b, a - b; c * a with a float c *)
Definition np_add (a b : arr) : arr := Arr (a_int a && a_int b) (a_val a [+] a_val b).
Definition np_sub (a b : arr) : arr := Arr (a_int a && a_int b) (a_val a [-] a_val b).
Definition np_fmul (c : R) (a : arr) : arr := Arr false (c [*] a_val a).
(** 2 * a: the type is kept *)
Definition np_twice (a : arr) : arr := Arr (a_int a) (2 [*] a_val a).
(** np.zeros_like(a) *)
Definition zeros_like (a : arr) : arr := Arr (a_int a) vzero.
(** a += b *)
Definition iadd (a b : arr) : result arr := if (a_int a && negb (a_int b))%bool then Err TypeError else Ok (Arr (a_int a) (a_val a [+] a_val b)).

(** operators acting on typed arrays *)
Record aop := AOp { ao_prox : arr -> R -> result arr; ao_grad : arr -> result arr }.

(** *** GeneralizedProximalGradient (optimization/primal.py:846-880) *)
(** 855-858: grad = np.zeros_like(x); grad += proxf.grad(x) *)
Fixpoint agrad_all (os : list aop) (x acc : arr) : result arr :=
  match os with
  | [] => Ok acc
  | o :: os => g <- ao_grad o x ;; acc <- iadd acc g ;; agrad_all os x acc
  end.
(** 860-866 *)
Fixpoint agpg_zs (os : list aop) (y grad : arr) (tau eta : R) (zs : list arr) (eps w : list R) (x : arr) : result (list arr * arr) :=
  match os with
  | [] => Ok ([], x)
  | o :: os =>
      match zs, eps, w with
      | z :: zs, e :: eps, w :: ws =>
          t <- pydiv (tau * e) w ;;
          p <- ao_prox o (np_sub (np_sub (np_twice y) z) (np_fmul tau grad)) t ;;
          z' <- iadd z (np_fmul eta (np_sub p y)) ;;
          x' <- iadd x (np_fmul w z') ;;
          r <- agpg_zs os y grad tau eta zs eps ws x' ;;
          Ok (z' :: fst r, snd r)
      | _, _, _ => Err IndexError
      end
  end.
Record agpg_state := AGP { ag_x : arr; ag_y : arr; ag_zs : list arr; ag_t : R; ag_tr : list arr }.
Definition agpg_body (proxfs proxgs : list aop) (tau : R) (eps w : list R) (eta : R) (accel : option string)
  (iiter : nat) (s : agpg_state) : result (agpg_state * bool) :=
  grad <- agrad_all proxfs (ag_x s) (zeros_like (ag_x s)) ;;
  r <- agpg_zs proxgs (ag_y s) grad tau eta (ag_zs s) eps w (zeros_like (ag_x s)) ;;
  let x := snd r in
  let t' := if accel_is accel "fista" then (1 + sqrt (1 + 4 * (ag_t s * ag_t s))) / 2 else ag_t s in
  let omega := if accel_is accel "vandenberghe" then INR iiter / (INR iiter + 3)
               else if accel_is accel "fista" then (ag_t s - 1) / t' else 0 in
  Ok (AGP x (np_add x (np_fmul omega (np_sub x (ag_x s)))) (fst r) t' (ag_tr s ++ [x]), false).
Definition aGeneralizedProximalGradient (proxfs proxgs : list aop) (x0 : arr) (tau : option R) (epsg : list R)
  (weights : option (list R)) (eta : R) (niter : nat) (accel : option string) : result (arr * list arr) :=
  let m := List.length proxgs in
  let w := match weights with None => repeat (1 / INR m) m | Some w => w end in
  if negb (Nat.eqb (List.length w) m && Reqb (Rsum w) 1) then Err ValueError else
  let eps := match epsg with [e] => repeat e m | _ => epsg end in
  if accel_known accel then
    let tau := match tau with None => 1 | Some t => t end in
    r <- for_loop (agpg_body proxfs proxgs tau eps w eta accel) niter 0 (AGP x0 x0 (repeat x0 m) 1 []) ;;
    Ok (ag_x (fst r), ag_tr (fst r))
  else Err NotImplementedError.

(** *** DouglasRachfordSplitting (optimization/primal.py:1785-1801), eta a float: the first prox is
    evaluated at the copy of the integer x0, the second one at [2 * x - y], an integer array if the first
    one returned an integer array; [y = y + eta * (...)] is a float array *)
Record adr_state := ADR { ad_x : option arr; ad_y : arr; ad_tr : list (arr * arr) }.
Definition adr_body (proxf proxg : aop) (tau eta : R) (gfirst : bool) (iiter : nat) (s : adr_state) : result (adr_state * bool) :=
  let y := ad_y s in
  xy <- (if gfirst then
           x <- ao_prox proxg y tau ;;
           p <- ao_prox proxf (np_sub (np_twice x) y) tau ;; Ok (x, np_add y (np_fmul eta (np_sub p x)))
         else
           x <- ao_prox proxf y tau ;;
           p <- ao_prox proxg (np_sub (np_twice x) y) tau ;; Ok (x, np_add y (np_fmul eta (np_sub p x)))) ;;
  Ok (ADR (Some (fst xy)) (snd xy) (ad_tr s ++ [xy]), false).
Definition aDouglasRachford (proxf proxg : aop) (x0 : arr) (tau eta : R) (niter : nat) (gfirst : bool)
  : result (arr * arr * list (arr * arr)) :=
  r <- for_loop (adr_body proxf proxg tau eta gfirst) niter 0 (ADR None x0 []) ;;
  match ad_x (fst r) with
  | Some x => Ok (x, ad_y (fst r), ad_tr (fst r))
  | None => Err UnboundLocalError
  end.

(** *** L2 without Op (proximal/L2.py:285-294): [num = x + tau*sigma*b] is a new array, [num = x] is x itself;
    [num -= tau * alpha * q] *)
Definition al2_prox (sigma alpha : R) (b q : option E) (x : arr) (tau : R) : result arr :=
  if Rleb tau 0 then Err ValueError else
  let num := match b with Some b => np_add x (np_fmul tau (Arr false (sigma [*] b))) | None => x end in
  num <- match q with Some q => iadd num (np_fmul (-1) (Arr false ((tau * alpha) [*] q))) | None => Ok num end ;;
  Ok (np_fmul (/ (1 + tau * sigma)) num).

(** *** Orthogonal.__call__ (proximal/Orthogonal.py:70-82): [y = self.Q.matvec(x); y += self.b], where b is
    the float 0.0 when not given *)
Definition aorth_call {A} (matvec : arr -> arr) (b : option E) (f : arr -> result A) (x : arr) : result A :=
  y <- iadd (matvec x) (Arr false (match b with Some b => b | None => vzero end)) ;; f y.
End A.
Arguments arr : clear implicits.
Arguments aop : clear implicits.
Arguments agpg_state : clear implicits.
Arguments adr_state : clear implicits.

(** the prox of one of the operators above on typed arrays: an integer result for an integer argument;
    [pr] is the entrywise map for each type *)
Definition asep {n} (pr : bool -> R -> R -> R) : aop (Vec n) :=
  AOp (fun x tau => if Rleb tau 0 then Err ValueError else Ok (Arr (a_int x) (vmap (pr (a_int x) tau) (a_val x) : Vec n)))
      (fun _ => Err NotImplementedError).
