(** * SR3 and its inner LSQR (optimization/sr3.py)

    Numbers and arrays are [option]: None is NaN (an array whose entries are all
    NaN).  numpy does not raise on a division by zero; in this file every
    zero divisor is the norm of its own numerator (or a quotient whose numerator is
    zero too), so the quotient is NaN, never an infinity.  Arithmetic with NaN is
    NaN and a comparison with NaN is False. *)
From Verif Require Import Base Space M_ProxOp M_Norms M_L1 M_Loop.
Open Scope result_scope.
Open Scope R_scope.

Definition o1 {A B} (f : A -> B) (a : option A) : option B := match a with Some a => Some (f a) | None => None end.
Definition o2 {A B C} (f : A -> B -> C) (a : option A) (b : option B) : option C :=
  match a, b with Some a, Some b => Some (f a b) | _, _ => None end.
Definition odiv (a b : option R) : option R :=
  match a, b with Some a, Some b => if Reqb b 0 then None else Some (a / b) | _, _ => None end.
Definition ovdiv {E : IPS} (x : option E) (b : option R) : option E :=
  match x, b with Some x, Some b => if Reqb b 0 then None else Some (/ b [*] x) | _, _ => None end.
Definition oltb (a b : option R) : bool := match a, b with Some a, Some b => Rltb a b | _, _ => false end.

(** np.sign(temp) * np.maximum(abs(temp) - t, 0): sr3.py:87 and 198 *)
Definition softv {p : nat} (t : R) (x : Vec p) : Vec p := powmap (E:=R_IPS) (fun a => soft t a) x.

Section Lsqr.
Context {E G : IPS} {p : nat}.

(** sr3.py:61-92 (_lsqr).  B is the stacked operator Op, [thr] is eps / kappa. *)
Record ls_state := LS { ls_x : option E; ls_u : option G; ls_v : option E; ls_w : option E;
                        ls_alpha : option R; ls_phi : option R; ls_rho : option R; ls_z : option (Vec p) }.
Definition ls_init (B : linop E G) (data : option G) (z_old : option (Vec p)) (x0 : option E) : ls_state :=
  let data := o2 vsub data (o1 (lapp B) x0) in                         (* 61 *)
  let beta := o1 norm data in
  let u := ovdiv data beta in
  let v := o1 (ladj B) u in
  let alpha := o1 norm v in
  let v := ovdiv v alpha in
  LS x0 u v v alpha beta alpha z_old.
Definition ls_body (B : linop E G) (Reg : E -> Vec p) (thr : R) (_ : nat) (s : ls_state) : result (ls_state * bool) :=
  let u := o2 vsub (o1 (lapp B) (ls_v s)) (o2 vscal (ls_alpha s) (ls_u s)) in       (* 72 *)
  let beta := o1 norm u in
  let u := ovdiv u beta in
  let v := o2 vsub (o1 (ladj B) u) (o2 vscal beta (ls_v s)) in                      (* 75 *)
  let alpha := o1 norm v in
  let v := ovdiv v alpha in
  let rho := o1 sqrt (o2 Rplus (o1 (fun a => a ^ 2) (ls_rho s)) (o1 (fun a => a ^ 2) beta)) in   (* 78 *)
  let c := odiv (ls_rho s) rho in
  let sn := odiv beta rho in
  let theta := o2 Rmult sn alpha in
  let rho_bar := o2 Rmult (o1 Ropp c) alpha in
  let phi := o2 Rmult c (ls_phi s) in
  let phi_bar := o2 Rmult sn (ls_phi s) in
  let x := o2 vadd (ls_x s) (o2 vscal (odiv phi rho) (ls_w s)) in                   (* 85 *)
  let z := o1 (fun x => softv thr (Reg x)) x in
  let stop := oltb (o1 norm (o2 vsub z (ls_z s))) (o1 (fun z => / 1000000 * norm z) (ls_z s)) in   (* 88 *)
  let w := o2 vsub v (o2 vscal (odiv theta rho) (ls_w s)) in
  Ok (LS x u v w alpha phi_bar rho_bar z, stop).
Definition lsqr (B : linop E G) (Reg : E -> Vec p) (data : option G) (iter_lim : nat) (z_old : option (Vec p)) (x0 : option E) (thr : R)
  : result (option E) :=
  r <- for_loop (ls_body B Reg thr) iter_lim 0 (ls_init B data z_old x0) ;;
  Ok (ls_x (fst r)).
End Lsqr.
Arguments ls_state : clear implicits.

(** pylops.VStack([Op, sqrt(kappa) * Reg]) (sr3.py:174) *)
Program Definition stackop {E D F : IPS} (A : linop E D) (c : R) (L : linop E F) : linop E (Prod_IPS D F) :=
  mkLinop E (Prod_IPS D F) (fun x => (lapp A x, c [*] lapp L x)) (fun y => ladj A (fst y) [+] c [*] ladj L (snd y)) _ _ _.
Next Obligation. rewrite !lapp_add. f_equal. vring. Qed.
Next Obligation. rewrite !lapp_scal. f_equal. vring. Qed.
Next Obligation. rewrite inner_add_r, inner_scal_r, inner_scal_l, !ladj_spec. reflexivity. Qed.

Section SR3.
Context {E D : IPS} {p : nat}.

(** sr3.py:165-204.  kappa >= 0 is assumed (np.sqrt of a negative number is NaN).
    [inner d v x] is the inner solve: lines 177-187 (adaptive) or 189-194 (scipy's
    lsqr); SR3_adaptive plugs in the model of _lsqr. *)
Record sr_state := SR { sr_x : option E; sr_v : option (Vec p); sr_w : option (Vec p); sr_theta : R }.
Definition sr_body (Reg : linop E (Vec p)) (eta eps : R) (inner : option (Vec p) -> option E -> result (option E))
  (_ : nat) (s : sr_state) : result (sr_state * bool) :=
  x <- inner (sr_v s) (sr_x s) ;;
  let w_old := sr_w s in
  let w := o1 (fun x => softv (eta * eps) (lapp Reg x)) x in                         (* 198 *)
  let nw := match o1 norm w with Some a => Rmax 1 a | None => 1 end in
  let err1 := o1 (fun a => a / nw) (o1 norm (o2 vsub (sr_v s) w)) in                 (* 199 *)
  if oltb err1 (Some (/ 1000000)) then Ok (SR x (sr_v s) w (sr_theta s), true)       (* 200-201 *)
  else
    let theta := 2 / (1 + sqrt (1 + 4 / (sr_theta s) ^ 2)) in                        (* 202 *)
    let v := o2 vadd w (o1 (fun d => (1 - theta) [*] d) (o2 vsub w w_old)) in        (* 203 *)
    Ok (SR x v w theta, false).
Definition SR3 (Reg : linop E (Vec p)) (kappa eps : R) (x0 : option E) (iter_lim_outer : nat)
  (inner : option (Vec p) -> option E -> result (option E)) : result (option E) :=
  let x0 := match x0 with Some x => x | None => vzero end in
  eta <- pydiv 1 kappa ;;
  r <- for_loop (sr_body Reg eta eps inner) iter_lim_outer 0 (SR (Some x0) (Some vzero) (Some vzero) 1) ;;
  Ok (sr_x (fst r)).

(** sr3.py:177-187: the default inner solve *)
Definition sr_adaptive (A : linop E D) (Reg : linop E (Vec p)) (data : D) (kappa eps : R) (iter_lim_inner : nat)
  (v : option (Vec p)) (x : option E) : result (option E) :=
  thr <- pydiv eps kappa ;;
  lsqr (stackop A (sqrt kappa) Reg) (lapp Reg) (o1 (fun v => ((data, sqrt kappa [*] v) : Prod_IPS D (Vec p))) v) iter_lim_inner v x thr.
Definition SR3_adaptive (A : linop E D) (Reg : linop E (Vec p)) (data : D) (kappa eps : R) (x0 : option E)
  (iter_lim_outer iter_lim_inner : nat) : result (option E) :=
  SR3 Reg kappa eps x0 iter_lim_outer (sr_adaptive A Reg data kappa eps iter_lim_inner).
End SR3.
Arguments sr_state : clear implicits.
