(** * Total variation (proximal/TV.py)

    Arrays are flat lists in C order; an axis of length n and stride s (the product of the later dimensions) makes
    entry i the (i / s) mod n -th along that axis.  The dual variables r, s, k, u of the code (one array per axis, views
    of one reshaped vector) are one flat list of length ndim * size, axis by axis.  Real arrays of floating dtype only;
    dims is a python int or tuple (line 71 adds it to a tuple). *)
From Coq Require Import ZArith.
From Verif Require Import Base Space M_ProxOp M_Loop VSum M_Bilin.
Open Scope result_scope.
Open Scope R_scope.

Definition nprod (dims : list nat) : nat := fold_right Nat.mul 1%nat dims.
Definition alen (dims : list nat) (a : nat) : nat := nth a dims 0%nat.
Definition astride (dims : list nat) (a : nat) : nat := nprod (skipn (S a) dims).
Definition coord (dims : list nat) (a i : nat) : nat := (i / astride dims a) mod alen dims a.

(** pylops FirstDerivative / Gradient with kind="forward", edge=False, sampling 1: the difference with the next entry
    along the axis, zero at the last one (TV.py:61-65, 69-71). *)
Definition fdiff (dims : list nat) (x : list R) (a i : nat) : R :=
  if Nat.ltb (S (coord dims a i)) (alen dims a) then nth (i + astride dims a) x 0 - nth i x 0 else 0.
Definition tv_grad (dims : list nat) (x : list R) : list R := tab (length dims) (nprod dims) (fdiff dims x).

(** np.abs(r) in 1-D, np.sqrt(|r|^2 + |s|^2 + ...) otherwise (TV.py:66, 72-74, 319-356), at entry i *)
Definition magn (dims : list nat) (r : list R) (i : nat) : R :=
  match length dims with
  | 1%nat => Rabs (ent (nprod dims) r 0 i)
  | d => sqrt (RS d (fun a => ent (nprod dims) r a i * ent (nprod dims) r a i))
  end.

(** TV.py:59-75; [dims] is [(0,)] when None was given.  With no axes [y] is never bound. *)
Definition tv_call (sigma : R) (dims : list nat) (x : list R) : result R :=
  if negb (Nat.eqb (length x) (nprod dims)) then Err ValueError
  else match dims with
       | [] => Err UnboundLocalError
       | _ => Ok (sigma * Rsum (map (magn dims (tv_grad dims x)) (seq 0 (nprod dims))))
       end.

(** TV.py:188-298: the "divergence" along axis a: first entry r[0], then r[j] - r[j-1], last entry -r[-2] *)
Definition div_entry (dims : list nat) (r : list R) (a i : nat) : R :=
  let c := coord dims a i in
  let v j := ent (nprod dims) r a j in
  if Nat.eqb c 0 then v i
  else if Nat.eqb (S c) (alen dims a) then - v (i - astride dims a)%nat
  else v i - v (i - astride dims a)%nat.
Definition tv_div (dims : list nat) (r : list R) : list R := map (fun i => RS (length dims) (fun a => div_entry dims r a i)) (seq 0 (nprod dims)).

(** np.linalg.norm of a flattened array, squared *)
Definition sumsq (x : list R) : R := Rsum (map (fun v => v * v) x).

(** The weights wx, wy, wz, wt (TV.py:133-183): the keyword arguments given, 1.0 when missing.  They multiply [rr] once,
    while it is still zero, and enter the step through their maximum. *)
Definition tv_mt (ws : list R) : R := match ws with [] => 1 | w :: l => fold_left Rmax l w end.

(** Variables of the loop: r (extrapolated dual), pold, told, prev_obj, sol. *)
Record TVst := mkTVst { tr : list R; tpold : list R; ttold : R; tprev : R; tsol : list R }.

(** One pass of the loop (TV.py:186-383); the initial [pold] is the array [r] itself, modified in place by the first [r -= ...]:
    this has no effect because it is multiplied by told - 1 = 0. *)
Definition tv_body (sigma gamma rtol mt : R) (dims : list nat) (x : list R) (s : TVst) : result (TVst * bool) :=
  if negb (forallb (Nat.leb 2) dims) then Err IndexError                         (* rr[-2] of an axis of length 1 *)
  else
    let sol := map2 (fun a b => a - gamma * b) x (tv_div dims (tr s)) in         (* 299 *)
    tv <- tv_call sigma dims sol ;;
    let obj := / 2 * sumsq (map2 Rminus x sol) + gamma * tv in                   (* 302-304 *)
    let rel_obj := if Rltb (/ 10 ^ 10) obj then Rabs (obj - tprev s) / obj else 2 * rtol in
    if Rltb rel_obj rtol then Ok (mkTVst (tr s) (tpold s) (ttold s) obj sol, true)
    else
      let c := INR (4 * length dims) * gamma * (mt * mt) in
      if Reqb c 0 then Err ZeroDivisionError       (* 1-D: python floats; for more axes numpy goes on with inf and nan *)
      else
        let r1 := map2 (fun a b => a - 1 / c * b) (tr s) (tv_grad dims sol) in   (* 316-356 *)
        let w i := Rmax 1 (magn dims r1 i) in
        let t := (1 + sqrt (4 * (ttold s * ttold s))) / 2 in                     (* 359 *)
        let p := tab (length dims) (nprod dims) (fun a i => ent (nprod dims) r1 a i / w i) in
        let r2 := map2 (fun a b => a + (ttold s - 1) / t * (a - b)) p (tpold s) in
        Ok (mkTVst r2 p t obj sol, false).

(** TV.py:96-385 after the tau check, for a given number of iterations.  [while iter <= niter] makes niter + 1 passes. *)
Definition tv_run (sigma rtol : R) (ws : list R) (dims : list nat) (niter : Z) (x : list R) (tau : R) : result (list R) :=
  let gamma := sigma * tau in
  if negb (Nat.eqb (length x) (nprod dims)) then Err ValueError
  else if Nat.ltb 4 (length dims) then Err UnboundLocalError                     (* r is bound for 1 to 4 axes only *)
  else if andb (Nat.eqb (length dims) 0) (Z.leb 0 niter) then Err UnboundLocalError
  else
    let z := repeat 0 (length dims * nprod dims) in
    st <- for_loop (fun _ => tv_body sigma gamma rtol (tv_mt ws) dims x) (Z.to_nat (niter + 1)) 0 (mkTVst z z 1 0 x) ;;
    Ok (tsol (fst st)).

(** The object (TV.py:42-57).  niter is an int or a function of the call counter. *)
Record TV := mkTV { tv_dims : list nat; tv_sigma : R; tv_niter : Z + (nat -> Z); tv_rtol : R; tv_ws : list R; tv_count : nat }.
(** TV.py:77-94: [prox] with its two decorators, the counter outside the tau check.  Result and object after the call. *)
Definition tv_prox (o : TV) (x : list R) (tau : R) : result (list R) * TV :=
  let o' := mkTV (tv_dims o) (tv_sigma o) (tv_niter o) (tv_rtol o) (tv_ws o) (S (tv_count o)) in
  (check_tau tau
     (tv_run (tv_sigma o') (tv_rtol o') (tv_ws o') (tv_dims o') (match tv_niter o' with inl n => n | inr f => f (tv_count o') end) x tau), o').
