(** * Specification vocabulary used by the statements proved in P_PGB.v *)
From Coq Require Import String Psatz.
From Verif Require Import Base Space Spec M_ProxOp S_PG2 M_Bilin S_Bilin S_Bilin2.
Open Scope result_scope.
Open Scope R_scope.

(** acceleration switched off *)
Definition no_accel (a : option string) : Prop := a = None \/ a = Some "None"%string.
(** [ideal F dF]: the operator whose call is F and whose grad is dF, whatever happened before. *)
Definition ideal {E : IPS} (F : E -> R) (dF : E -> E) : Op E :=
  mkOp (fun x => Ok (VNum (F x))) (fun _ _ => Err NotImplementedError) (fun _ _ => Err NotImplementedError) (fun x => Ok (Some (dF x))) true.
(** the result without the final state of the operator *)
Definition drop {E : IPS} {St} (r : result (E * list E * St)) : result (E * list E) := r <- r ;; Ok (fst r).
(** data of the counterexamples: two factors with one entry each *)
Definition vv (a b : R) : Vec (1 * 1 + 1 * 1) := exist _ [a; b] eq_refl.
Definition lr11 (a b d : R) : LR := mkLR 1 1 1 [a] [b] [d] None.

(** The fit 1/2 |d - Op(XY)|^2 as a function of the concatenated factors. *)
Definition fit {n k m p} (A : linop (Vec (n * m)) (Vec p)) (d : Vec p) (v : Vec (n * k + k * m)) : R :=
  lr_fun A d (vfst v : Vec (n * k)) (vsnd v : Vec (k * m)).
(** The line search at x, starting with step tau, tried n steps and none passed its test. *)
Definition search_failed {E : IPS} (f : E -> R) (df : E -> E) (g : efun E) (e beta : R) (n : nat) (tau : R) (x : E) : Prop :=
  forall i, (i < n)%nat -> exists w, trial df g e (tau * beta ^ i) x w /\ ~ test_ok f df (tau * beta ^ i) x w.
