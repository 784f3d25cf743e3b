(** * Entrywise penalties: Huber, L0, Log, Log1, SCAD, RelaxedMumfordShah,
    QuadraticEnvelopeCard, ETP, Geman *)
From Verif Require Import Base Space Sep M_ProxOp M_L1.
From Coq Require Import Rtrigo1 Ratan Rpower.
Open Scope result_scope.

(** A class whose call is the sum of [elem] over the entries and whose prox
    applies [pr tau] to every entry. *)
Definition sep_body {n} (elem : R -> R) (pr : R -> R -> R) : Body (Vec n) :=
  mkBody (E:=Vec n)
    (Some (fun x : nlist R n => Ok (VNum (Rsum (map elem (proj1_sig x))))))
    (Some (fun x tau => Ok (vmap (pr tau) x))) None None false 1.

(** ** Huber (proximal/Huber.py:45-71) *)
Definition huber_elem (alpha a : R) : R :=
  if Rltb alpha (Rabs a) then Rabs a - alpha / 2 else Rabs a * Rabs a / (2 * alpha).
(** The L2(sigma = 1/alpha) object without operator or data divides by
    1 + tau*sigma (L2.py:290-294); the L1() object soft-thresholds by tau. *)
Definition huber_pr (alpha tau a : R) : R :=
  if Rltb alpha (Rabs a) then soft (tau * 1) a else a / (1 + tau * (1 / alpha)).

(** ** L0 (proximal/L0.py:15-40, 90-112), scalar constant sigma *)
Definition hard (thresh a : R) : R := if Rleb (Rabs a) thresh then 0 else a.
Definition l0_elem (a : R) : R := if Rltb 0 (Rabs a) then 1 else 0.
Definition l0_pr (sigma tau a : R) : R := hard (tau * sigma) a.

(** ** Log (proximal/Log.py:73-104); [_vstack] of the two candidates and argmin *)
Definition log_elem (sigma gamma a : R) : R := sigma / ln (gamma + 1) * ln (gamma * Rabs a + 1).
Definition log_pr (sigma gamma tau a : R) : R :=
  let k := tau * sigma / ln (gamma + 1) in
  let b := gamma * Rabs a - 1 in
  let disc := b * b - 4 * gamma * (k * gamma - Rabs a) in
  let out :=
    if Rleb 0 disc then
      let r := (b + sqrt disc) / (2 * gamma) in
      let val z := tau * log_elem sigma gamma z + (z - Rabs a) * (z - Rabs a) / 2 in
      if Rltb (val r) (val 0) then r else 0        (* argmin returns the first minimum *)
    else 0 in
  out * sgn a.

(** ** Log1 (proximal/Log.py:148-190), real entries (complex ones: M_Log1.v).  The two masked
    assignments are executed one after the other; the second one wins. *)
Definition log1_elem (delta a : R) : R := ln (Rabs a + delta).
Definition log1_pr (sigma delta tau a : R) : R :=
  let tau1 := sigma * tau in
  let thresh := sqrt (2 * tau1) - delta in
  let v1 := if Rltb thresh a
            then / 2 * (a - delta + sqrt (Rabs (a + delta) * Rabs (a + delta) - 2 * tau1)) else 0 in
  if Rltb a (- thresh)
  then / 2 * (a + delta - sqrt (Rabs (a - delta) * Rabs (a - delta) - 2 * tau1)) else v1.

(** ** SCAD (proximal/SCAD.py:52-90) *)
Definition scad_elem (sigma al a : R) : R :=
  if Rleb (Rabs a) sigma then sigma * Rabs a
  else if Rleb (Rabs a) (al * sigma)
       then (- (a * a) + 2 * al * sigma * Rabs a - sigma * sigma) / (2 * (al - 1))
       else (al + 1) * (sigma * sigma) / 2.
Definition scad_pr (sigma al tau a : R) : R :=
  let first := sigma * (al - 1 - tau + tau * al) / (al - 1) in
  if Rleb (Rabs a) first then sgn a * Rmax 0 (Rabs a - sigma * tau)
  else if Rleb (Rabs a) (al * sigma)
       then ((al - 1) * a - sgn a * al * sigma * tau) / (al - 1 - tau)
       else a.
(** SCAD.py:52-62 constructor checks. *)
Definition scad_init (sigma al : R) : result unit :=
  if Rleb sigma 0 then Err ValueError else if Rleb al 2 then Err ValueError else Ok tt.

(** ** Relaxed Mumford-Shah (proximal/RelaxedMS.py:13-32, 72-107), constant parameters *)
Definition rms_call {n} (sigma kappa : R) (x : Vec n) : R := Rmin (sigma * norm2 x) kappa.
Definition rms_pr (sigma kappa tau a : R) : R :=
  if Rleb (Rabs a) (sqrt (kappa / sigma * (1 + 2 * tau * sigma)))
  then 1 / (1 + 2 * (tau * sigma)) * a else a.
Definition rms_body {n} (sigma kappa : R) : Body (Vec n) :=
  mkBody (Some (fun x => Ok (VNum (rms_call sigma kappa x))))
    (Some (fun x tau => Ok (vmap (rms_pr sigma kappa tau) x : Vec n))) None None false 1.

(** ** Quadratic envelope of the cardinality (proximal/QuadraticEnvelope.py:77-95) *)
Definition qec_elem (mu a : R) : R :=
  mu - / 2 * (Rmax 0 (sqrt (2 * mu) - Rabs a) * Rmax 0 (sqrt (2 * mu) - Rabs a)).
Definition qec_pr (mu tau a : R) : R :=
  let r := if Rltb (Rabs a) (sqrt (2 * mu))
           then if Rleb 1 tau then 0
                else Rmax 0 ((Rabs a - tau * sqrt (2 * mu)) / (1 - tau))
           else Rabs a in
  r * sgn a.

(** ** ETP (proximal/ETP.py:62-91); [W] is scipy's lambertw on the real interval
    where its principal branch is real. *)
Definition etp_elem (sigma gamma a : R) : R :=
  sigma / (1 - exp (- gamma)) * (1 - exp (- gamma * Rabs a)).
Definition etp_pr (W : R -> R) (sigma gamma tau a : R) : R :=
  let k := tau * sigma / (1 - exp (- gamma)) in
  let tmp := exp (- Rabs a * gamma) * k * (gamma * gamma) in
  if Rleb tmp (exp (-1)) then
    let st := sgn a * W (- tmp) / gamma + a in
    if Rltb (tau * etp_elem sigma gamma st + (st - a) * (st - a) / 2) (a * a / 2) then st else 0
  else 0.

(** Constructor checks of ETP (ETP.py:53-58) and of Geman (Geman.py:50-55). *)
Definition etp_init (sigma gamma : R) : result unit :=
  if Rltb sigma 0 then Err ValueError else if Rleb gamma 0 then Err ValueError else Ok tt.
Definition geman_init (sigma gamma : R) : result unit :=
  if Rltb sigma 0 then Err ValueError else if Rleb gamma 0 then Err ValueError else Ok tt.

(** ** Geman (proximal/Geman.py:62-90) *)
Definition geman_elem (sigma gamma a : R) : R := sigma * Rabs a / (Rabs a + gamma).
Definition geman_pr (sigma gamma tau a : R) : R :=
  let b := 2 * gamma - Rabs a in
  let c := gamma * gamma - 2 * gamma * Rabs a in
  let d := gamma * sigma * tau - gamma * gamma * Rabs a in
  let f := - ((c - b * b / 3) ^ 3) / 27 in
  let g := (2 * b ^ 3 - 9 * b * c + 27 * d) / 27 in
  if Rleb (g * g / 4 - f) 0 then
    let sqrtf := sqrt f in
    let k := acos (- (g / (2 * sqrtf))) in
    let lm := 2 * Rpower sqrtf (1 / 3) * cos (k / 3) - b / 3 in
    if Rltb (tau * geman_elem sigma gamma lm + (lm - Rabs a) * (lm - Rabs a) / 2) (Rabs a * Rabs a / 2)
    then sgn a * lm else 0
  else 0.
