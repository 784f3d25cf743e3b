(** * Operators applied to complex arrays

    A complex number is a pair of reals, np.abs is its modulus ([norm] in the plane), a complex array of n entries
    is a [CArr n].  The classes below have no separate complex branch (except L1BallProj), so every numpy
    function is modelled by what it does on complex arguments:
    - np.sign: numpy 2 returns z/|z| and 0 at 0; older releases return the sign of the real part, or of the
      imaginary part when the real part is 0, as a real number.  Both are admitted by the requirement numpy >= 1.21;
    - <, <=, np.maximum, np.minimum compare lexicographically, first the real parts, then the imaginary parts;
    - np.dot does not conjugate; x**2 is the complex square; np.sqrt is the principal root;
    - float(z) drops the imaginary part (with a ComplexWarning).
    Classes that only use np.linalg.norm, +, and multiplication by real numbers (Euclidean, EuclideanBall,
    HuberCircular, AffineSet, L2 without q) are covered by their models over arbitrary inner product spaces. *)
From Verif Require Import Base Space M_ProxOp VSum MatFacts Cplx M_L1 M_Loop M_Proj M_L0.
From Coq Require Import ZArith Rtrigo1 Ratan Rpower.
Open Scope result_scope.

Definition cvec (n : nat) (f : nat -> C) : CArr n := exist _ (map f (seq 0 n)) (eq_trans (map_length f _) (seq_length n 0)).
(** an operation applied to every entry *)
Definition cmapv {n} (f : C_IPS -> C_IPS) (x : CArr n) : CArr n := cvec n (fun i => f (cg x i)).
(** np.abs(x) *)
Definition mods {n} (x : CArr n) : Vec n := vtab n (fun i => norm (cg x i : C_IPS)).

(** np.sign, numpy >= 2 and numpy < 2 *)
Definition csign_new (z : C_IPS) : C_IPS := if Reqb (norm z) 0 then (0, 0) else / norm z [*] z.
Definition csign_old (z : C_IPS) : C_IPS := (if Reqb (fst z) 0 then sgn (snd z) else sgn (fst z), 0).
(** np.exp(1j * np.angle(z)); angle(0) = 0 *)
Definition cphase (z : C_IPS) : C_IPS := if Reqb (norm z) 0 then (1, 0) else / norm z [*] z.
(** a < b, np.maximum(a, b), np.minimum(a, b) *)
Definition clt (a b : C) : bool := Rltb (fst a) (fst b) || (Reqb (fst a) (fst b) && Rltb (snd a) (snd b)).
Definition cle (a b : C) : bool := Rltb (fst a) (fst b) || (Reqb (fst a) (fst b) && Rleb (snd a) (snd b)).
Definition cmaximum (a b : C) : C := if cle b a then a else b.
Definition cminimum (a b : C) : C := if cle a b then a else b.
(** np.sqrt; the imaginary part of a negative real argument is taken as +0 *)
Definition csqrt (z : C_IPS) : C :=
  (sqrt ((norm z + fst z) / 2), (if Rltb (snd z) 0 then -1 else 1) * sqrt ((norm z - fst z) / 2)).
Definition cdiv (a b : C) : C := cscal (/ cabs2 b) (cmul a (cconj b)).
(** np.dot(x, y) *)
Definition cdot {n} (x y : CArr n) : C := csum n (fun i => cmul (cg x i) (cg y i)).

Section Sign.
Context (sign : C_IPS -> C_IPS).

(** ** Entrywise penalties: one entry of prox, and of the values *)
(** Huber (proximal/Huber.py:51-71); h has the dtype of x and real entries, so float(np.sum(h)) is their sum *)
Definition huberc_elem (alpha : R) (z : C_IPS) : R :=
  if Rltb alpha (norm z) then norm z - alpha / 2 else norm z * norm z / (2 * alpha).
Definition huberc_pr (alpha tau : R) (z : C_IPS) : C_IPS :=
  if Rltb alpha (norm z) then csoft (tau * 1) z else / (1 + tau * (1 / alpha)) [*] z.

(** L0 (proximal/L0.py:15-40, 94-112) with a constant sigma *)
Definition hardc (thresh : R) (z : C_IPS) : C_IPS := if Rleb (norm z) thresh then (0, 0) else z.
Definition l0c_elem (z : C_IPS) : R := if Rltb 0 (norm z) then 1 else 0.
Definition l0c_pr (sigma tau : R) (z : C_IPS) : C_IPS := hardc (tau * sigma) z.

(** Log (proximal/Log.py:84-104): line 103 multiplies by np.sign(x) *)
Definition logc_elem (sigma gamma : R) (z : C_IPS) : R := sigma / ln (gamma + 1) * ln (gamma * norm z + 1).
Definition logc_pr (sigma gamma tau : R) (z : C_IPS) : C_IPS :=
  let k := tau * sigma / ln (gamma + 1) in
  let b := gamma * norm z - 1 in
  let disc := b * b - 4 * gamma * (k * gamma - norm z) in
  let out :=
    if Rleb 0 disc then
      let r := (b + sqrt disc) / (2 * gamma) in
      let el t := sigma / ln (gamma + 1) * ln (gamma * Rabs t + 1) in
      let val t := tau * el t + (t - norm z) * (t - norm z) / 2 in
      if Rltb (val r) (val 0) then r else 0
    else 0 in
  out [*] sign z.

(** SCAD (proximal/SCAD.py:63-90): line 73 squares x, not its modulus; the value keeps the real part of the sum *)
Definition scadc_elem (sigma al : R) (z : C_IPS) : C :=
  if Rleb (norm z) sigma then cr (sigma * norm z)
  else if Rleb (norm z) (al * sigma)
       then cscal (/ (2 * (al - 1))) (cadd (cscal (-1) (cmul z z)) (cr (2 * al * sigma * norm z - sigma * sigma)))
       else cr ((al + 1) * (sigma * sigma) / 2).
Definition scadc_call {n} (sigma al : R) (x : CArr n) : R := fst (csum n (fun i => scadc_elem sigma al (cg x i))).
Definition scadc_pr (sigma al tau : R) (z : C_IPS) : C_IPS :=
  let first := sigma * (al - 1 - tau + tau * al) / (al - 1) in
  if Rleb (norm z) first then Rmax 0 (norm z - sigma * tau) [*] sign z
  else if Rleb (norm z) (al * sigma)
       then / (al - 1 - tau) [*] ((al - 1) [*] z [-] (al * sigma * tau) [*] sign z)
       else z.

(** RelaxedMumfordShah (proximal/RelaxedMS.py:31-32, 96-107), constant parameters *)
Definition rmsc_pr (sigma kappa tau : R) (z : C_IPS) : C_IPS :=
  if Rleb (norm z) (sqrt (kappa / sigma * (1 + 2 * tau * sigma))) then (1 / (1 + 2 * (tau * sigma))) [*] z else z.

(** QuadraticEnvelopeCard (proximal/QuadraticEnvelope.py:81-95) *)
Definition qecc_elem (mu : R) (z : C_IPS) : R :=
  mu - / 2 * (Rmax 0 (sqrt (2 * mu) - norm z) * Rmax 0 (sqrt (2 * mu) - norm z)).
Definition qecc_pr (mu tau : R) (z : C_IPS) : C_IPS :=
  let r := if Rltb (norm z) (sqrt (2 * mu))
           then if Rleb 1 tau then 0 else Rmax 0 ((norm z - tau * sqrt (2 * mu)) / (1 - tau))
           else norm z in
  r [*] sign z.

(** ETP (proximal/ETP.py:62-91): lines 85-88 compare complex numbers built from the squares of x and of
    stat_points - x; [W] is scipy's lambertw on the real interval where its principal branch is real *)
Definition etpc_elem (sigma gamma : R) (z : C_IPS) : R := sigma / (1 - exp (- gamma)) * (1 - exp (- gamma * norm z)).
Definition etpc_pr (W : R -> R) (sigma gamma tau : R) (z : C_IPS) : C_IPS :=
  let k := tau * sigma / (1 - exp (- gamma)) in
  let tmp := exp (- norm z * gamma) * k * (gamma * gamma) in
  if Rleb tmp (exp (-1)) then
    let st : C_IPS := (W (- tmp) / gamma) [*] sign z [+] z in
    let d : C := st [-] z in
    if clt (cadd (cr (tau * etpc_elem sigma gamma st)) (cscal (/ 2) (cmul d d))) (cscal (/ 2) (cmul z z)) then st else (0, 0)
  else (0, 0).

(** Geman (proximal/Geman.py:59-90) *)
Definition gemanc_elem (sigma gamma : R) (z : C_IPS) : R := sigma * norm z / (norm z + gamma).
Definition gemanc_pr (sigma gamma tau : R) (z : C_IPS) : C_IPS :=
  let b := 2 * gamma - norm z in
  let c := gamma * gamma - 2 * gamma * norm z in
  let d := gamma * sigma * tau - gamma * gamma * norm z in
  let f := - ((c - b * b / 3) ^ 3) / 27 in
  let g := (2 * b ^ 3 - 9 * b * c + 27 * d) / 27 in
  if Rleb (g * g / 4 - f) 0 then
    let sqrtf := sqrt f in
    let k := acos (- (g / (2 * sqrtf))) in
    let lm := 2 * Rpower sqrtf (1 / 3) * cos (k / 3) - b / 3 in
    let el t := sigma * Rabs t / (Rabs t + gamma) in
    if Rltb (tau * el lm + (lm - norm z) * (lm - norm z) / 2) (norm z * norm z / 2)
    then lm [*] sign z else (0, 0)
  else (0, 0).

(** A class whose call is the sum of [elem] over the entries and whose prox applies [pr tau] to every entry. *)
Definition csep_body {n} (elem : C_IPS -> R) (pr : R -> C_IPS -> C_IPS) : Body (CArr n) :=
  mkBody (E:=CArr n) (Some (fun x => Ok (VNum (RS n (fun i => elem (cg x i))))))
    (Some (fun x tau => Ok (cmapv (pr tau) x))) None None false 1.
Definition scadc_body {n} (sigma al : R) : Body (CArr n) :=
  mkBody (E:=CArr n) (Some (fun x => Ok (VNum (scadc_call sigma al x))))
    (Some (fun x tau => Ok (cmapv (scadc_pr sigma al tau) x))) None None false 1.
End Sign.

(** ** Balls *)
(** L1BallProj (projection/L1.py:51-53) and L1Ball.prox *)
Definition l1ballc_prox {n} (radius : R) (maxiter : nat) (xtol : R) (fuel : nat) (x : CArr n) (tau : R) : result (CArr n) :=
  if Rleb tau 0 then Err ValueError else
  s <- simplex_proj radius maxiter xtol fuel (mods x) ;;
  Ok (cvec n (fun i => cscal (get s i) (cphase (cg x i)))).
(** L0BallProj (projection/L0.py:34-38), L0Ball (proximal/L0.py:145-164) at counter [count] *)
Definition l0c_proj (argsort : list R -> list nat) {n} (radius : Z) (x : CArr n) : CArr n :=
  cvec n (fun i => if mem i (l0_drop argsort radius (lst (mods x))) then C0 else cg x i).
Definition nnzc {n} (x : CArr n) : nat := length (filter (fun i => negb (Reqb (norm (cg x i : C_IPS)) 0)) (seq 0 n)).
Definition l0ballc_call {n} (rad : nat -> Z) (count : nat) (x : CArr n) : bool := (Z.of_nat (nnzc x) <=? rad count)%Z.
Definition l0ballc_prox (argsort : list R -> list nat) {n} (rad : nat -> Z) (count : nat) (x : CArr n) (tau : R) : nat * result (CArr n) :=
  let count := S count in
  (count, if Rleb tau 0 then Err ValueError else Ok (l0c_proj argsort (rad count) x)).

(** Box with real bounds on one entry (projection/Box.py:48-50, proximal/Box.py:38-43) *)
Definition boxc_pr (lo hi : R) (z : C) : C := cminimum (cmaximum z (cr lo)) (cr hi).
Definition boxc_call (lo hi : R) (z : C) : bool := cle (cr lo) z && cle z (cr hi).

(** ** L21 (proximal/L21.py:66-85), one group (column) of m complex entries: x**2 is the complex square *)
Definition l21c_aux {m} (c : CArr m) : C := csqrt (csum m (fun i => cmul (cg c i) (cg c i))).
Definition l21c_col {m} (sigma tau : R) (c : CArr m) : CArr m :=
  let factor := csub (cr 1) (cdiv (cr (tau * sigma)) (cmaximum (l21c_aux c) (cr (tau * sigma)))) in
  cvec m (fun i => cmul factor (cg c i)).
(** L21.proxdual (lines 79-85) on one group *)
Definition l21c_dcol {m} (sigma : R) (c : CArr m) : CArr m :=
  let d := cmaximum (l21c_aux c) (cr sigma) in
  cvec m (fun i => cdiv (cscal sigma (cg c i)) d).
Definition l21c_call {m} (sigma : R) (cols : list (CArr m)) : R :=
  fst (cscal sigma (fold_right cadd C0 (map l21c_aux cols))).

(** ** L21_plus_L1 (proximal/L21_plus_L1.py:38-54), axis = 0, one column.  As in M_L1.v: when the thresholded column
    is zero numpy divides by 0, which gives 0 after the maximum if the numerator is positive and NaN or +inf
    otherwise.  Line 53: np.nan_to_num(0/0) is 0. *)
Definition l21l1c_col {m} (sigma rho tau : R) (c : CArr m) : result (CArr m) :=
  let thresh := sigma * tau in
  let l1 i := Rmax (norm (cg c i : C_IPS) - thresh * rho) 0 in
  let aux := sqrt (RS m (fun i => l1 i * l1 i)) in
  l21 <- (if Reqb aux 0 then (if Rltb 0 (thresh * (1 - rho)) then Ok 0 else Err ZeroDivisionError)
          else Ok (Rmax (1 - thresh * (1 - rho) / aux) 0)) ;;
  Ok (cvec m (fun i => if Reqb (norm (cg c i : C_IPS)) 0 then C0
                       else cscal (/ norm (cg c i : C_IPS) * l1 i * l21) (cg c i))).
(** one column's share of the value: lines 40-41, before float *)
Definition l21l1c_val {m} (sigma rho : R) (c : CArr m) : C :=
  cadd (cr (rho * sigma * RS m (fun i => norm (cg c i : C_IPS))))
       (cscal ((1 - rho) * sigma) (l21c_aux c)).

(** ** np.dot on complex arrays *)
(** _SumOperator.__call__ (ProxOperator.py:346-348) where f returns a real number: the number produced is complex; the
    real part is kept as in the other values *)
Definition add_call {n} (f : CArr n -> R) (v x : CArr n) : R := f x + fst (cdot v x).
(** L2.__call__ without operator (proximal/L2.py:194-203), with q *)
Definition l2c_call {n} (sigma : R) (b : option (CArr n)) (alpha : R) (q x : CArr n) : R :=
  sigma / 2 * norm2 (match b with Some b => x [-] b | None => x end) + alpha * fst (cdot q x).
(** Quadratic.__call__ (proximal/Quadratic.py:94-101) *)
Definition quadc_call {n} (Op : CArr n -> CArr n) (b : CArr n) (c : R) (x : CArr n) : R :=
  fst (cdot x (Op x)) / 2 + fst (cdot b x) + c.
(** HalfSpace (projection/HalfSpace.py:41-53, proximal/HalfSpace.py:35-40); a zero denominator gives inf or NaN *)
Definition halfspacec_prox {n} (w : CArr n) (b : R) (x : CArr n) : result (CArr n) :=
  let w_x := cdot w x in
  if cle w_x (cr b) then Ok x
  else if Reqb (cabs2 (cdot w w)) 0 then Err ZeroDivisionError
  else Ok (cvec n (fun i => csub (cg x i) (cmul (cdiv (csub w_x (cr b)) (cdot w w)) (cg w i)))).
Definition halfspacec_call {n} (w : CArr n) (b : R) (x : CArr n) : bool := cle (cdot w x) (cr b).
(** Nuclear.__call__ (proximal/Nuclear.py:63-67) on a matrix with one column: X.T @ X is 1 x 1 and eigvalsh, which
    assumes a Hermitian argument, returns its real part *)
Definition nucc_call {m} (sigma : R) (x : CArr m) : R := sigma * sqrt (Rmax 0 (fst (cdot x x))).

(** ** _backtracking (optimization/primal.py:20-51) and ProximalGradient with backtracking, eta = 1, no acceleration
    and no tolerance (primal.py:335-449): the only difference to M_PG.v is the np.dot of line 40 *)
Definition ftildec {n} (f : Op (CArr n)) (x y : CArr n) (tau : R) : result R :=
  fy <- get_val f y ;;
  g <- get_grad f y ;;
  Ok (fy + fst (cdot g (x [-] y)) + 1 / (2 * tau) * norm2 (x [-] y)).
Fixpoint btc_loop {n} (x : CArr n) (proxf proxg : Op (CArr n)) (epsg beta : R) (k : nat) (tau : R) (z : option (CArr n))
  : result (CArr n * R) :=
  match k with
  | O => match z with Some z => Ok (z, tau) | None => Err UnboundLocalError end
  | S k' =>
      g <- get_grad proxf x ;;
      z <- o_prox proxg (x [-] tau [*] g) (epsg * tau) ;;
      ft <- ftildec proxf z x tau ;;
      fz <- get_val proxf z ;;
      if Rleb fz ft then Ok (z, tau) else btc_loop x proxf proxg epsg beta k' (tau * beta) (Some z)
  end.
Fixpoint pgc_bt {n} (proxf proxg : Op (CArr n)) (epsg beta : R) (niterback niter : nat) (x : CArr n) (tau : R) : result (CArr n * R) :=
  match niter with
  | O => Ok (x, tau)
  | S k => r <- btc_loop x proxf proxg epsg beta niterback tau None ;; pgc_bt proxf proxg epsg beta niterback k (fst r) (snd r)
  end.
