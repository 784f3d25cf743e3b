(** * Log1 on complex arrays (proximal/Log.py:167-178); the real branch is [log1_pr] of M_Pen.v *)
From Verif Require Import Base Space M_ProxOp M_L1 M_Pen.
Open Scope result_scope.

(** One complex entry z: exp(1j*angle(z)) is z/|z| for z <> 0 and 1 for z = 0.  Line 175 takes the modulus
    of the complex number z + delta, not |z| + delta.  A negative argument of the square root is NaN (None). *)
Definition log1c_pr (sigma delta tau : R) (z : C_IPS) : option C_IPS :=
  let tau1 := sigma * tau in
  let thresh := sqrt (2 * tau1) - delta in
  if Rltb thresh (norm z) then
    let rad := norm2 (z [+] ((delta, 0) : C_IPS)) - 2 * tau1 in
    if Rltb rad 0 then None else
    let m := / 2 * (norm z - delta + sqrt rad) in
    Some (if Reqb (norm z) 0 then (m, 0) else (m / norm z) [*] z)
  else Some (0, 0).
