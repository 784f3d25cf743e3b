(** * Specification vocabulary used by the statements proved in P_L1.v *)
From Coq Require Import Psatz.
From Verif Require Import Base Space M_L1.
Open Scope result_scope.

(** Weighted l1 norm sum_i w_i |x_i - g_i|. *)
Definition wl1 {n} (w : nlist R n) (g x : Vec n) : R :=
  Rsum (map2 (fun s a => s * Rabs a) (proj1_sig w) (proj1_sig (x [-] g : nlist R n))).
(** non-negative weights *)
Definition nonneg_list {n} (w : nlist R n) : Prop := Forall (fun s => 0 <= s) (proj1_sig w).
(** {x : lower_i <= x_i <= upper_i}; None = no bound. *)
Definition within (lu : bounds) (a : R) : Prop :=
  (forall l, fst lu = Some l -> l <= a) /\ (forall u, snd lu = Some u -> a <= u).
(** all entries within their bounds *)
Definition box_set {n} (lu : nlist bounds n) (x : Vec n) : Prop :=
  Forall2 within (proj1_sig lu) (proj1_sig (x : nlist R n)).
(** the lower bound does not exceed the upper one *)
Definition bounds_ok (lu : bounds) : Prop := forall l u, lu = (Some l, Some u) -> l <= u.
(** the offset g, zero when not given *)
Definition gvec {n} (g : option (Vec n)) : Vec n := match g with Some g => g | None => vzero end.
(** how much one call advances the counter *)
Definition counted {n} (g : option (Vec n)) (a : l1_action (n:=n)) : nat :=
  match a with
  | L1Prox _ _ => 1
  | L1Dual _ tau => match g with Some _ => if Rleb tau 0 then 0 else 1 | None => 0 end
  | L1Call _ => 0
  end.
(** 1 for a prox call with a positive step, 0 otherwise *)
Definition is_success {n} (a : l1_action (n:=n)) : nat :=
  match a with L1Prox _ tau => if Rleb tau 0 then 0%nat else 1%nat | _ => 0%nat end.
(** the sum of f over a history of calls *)
Definition total {A} (f : A -> nat) (l : list A) : nat := fold_right (fun a s => (f a + s)%nat) 0%nat l.
