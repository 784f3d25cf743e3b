(** * Specification vocabulary used by the statements proved in P_TV3.v *)
From Coq Require Import Psatz ZArith.
From Verif Require Import Base Space Spec VSum MatFacts M_TV S_TV2.
Open Scope result_scope.
Open Scope R_scope.

(** x(i + 1 along axis a) - x(i), zero at the last sample of the axis; i is a flat index in C order *)
Definition forward_diff (dims : list nat) (x : nat -> R) (a i : nat) : R :=
  let s := nprod (skipn (S a) dims) in if Nat.ltb (S ((i / s) mod nth a dims 0%nat)) (nth a dims 0%nat) then x (i + s)%nat - x i else 0.
(** isotropic total variation: sum over the samples of the Euclidean norm of the forward differences *)
Definition variation (dims : list nat) (x : nat -> R) : R :=
  RS (nprod dims) (fun i => sqrt (RS (length dims) (fun a => forward_diff dims x a i * forward_diff dims x a i))).
(** the exact proximal point wanted from TV(dims, sigma).prox(x, tau) *)
Definition tv_exact (sigma : R) (dims : list nat) (tau : R) (x p : Vec (nprod dims)) : Prop :=
  is_prox (etot (fun v : Vec (nprod dims) => sigma * variation dims (get v))) tau x p.
(** the input of the counterexample *)
Definition stop_x : Vec (nprod [2%nat]) := ofl (nprod [2%nat]) [0; 1 / 2].

Section Main.
Variable dims : list nat.
Variables (sigma tau : R).
Variable x : Vec (nprod dims).
(** the quantity whose relative change is tested: sigma is counted twice in it *)
Definition tested_obj (v : Vec (nprod dims)) : R := / 2 * norm2 (x [-] v) + sigma * tau * (sigma * variation dims (get v)).
(** the stopping test on two successive values *)
Definition below (rtol obj prev : R) : Prop := (if Rltb (/ 10 ^ 10) obj then Rabs (obj - prev) / obj else 2 * rtol) < rtol.
End Main.
