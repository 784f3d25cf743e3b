(** * Specification vocabulary used by the statements proved in P_Anderson2.v *)
From Coq Require Import Psatz String.
From Verif Require Import Base Space Spec VSum S_Anderson.
Open Scope result_scope.
Open Scope R_scope.

(** sum_i alpha_i G_i *)
Definition wsum {E : IPS} (alpha : list R) (G : list E) : E := VS (length G) (fun i => nthr alpha i [*] nthv G i).

(** [xs], [ys]: the main and auxiliary variables; [Rh], [Gh]: the two histories,
    most recent entry first, limited to nh entries; [vs]: the value of f the
    next candidate is compared with.  Both histories start with their entry swapped. *)
Definition anderson {E : IPS} (f : E -> R) (df : E -> E) (g : efun E) (eps : nat -> R) (tau : R) (nh : nat) (safeguard : bool) (x0 : E)
  (xs ys : nat -> E) (Rh Gh : nat -> list E) (vs : nat -> R) (n : nat) : Prop :=
  ys 0%nat = x0 [-] tau [*] df x0 /\ is_prox g (eps 0%nat * tau) (ys 0%nat) (xs 0%nat) /\
  Rh 0%nat = [ys 0%nat] /\ Gh 0%nat = [ys 0%nat [-] x0] /\ vs 0%nat = f (xs 0%nat) /\
  forall j, (j < n)%nat ->
    let gj := xs j [-] tau [*] df (xs j) in
    Rh (S j) = firstn nh ((gj [-] ys j) :: Rh j) /\ Gh (S j) = firstn nh (gj :: Gh j) /\
    (exists r, In r (Rh (S j)) /\ r <> vzero) /\
    exists alpha cx, best_weights (Rh (S j)) alpha /\ is_prox g (eps j * tau) (wsum alpha (Gh (S j))) cx /\
      ((safeguard = true -> f cx <= vs j - tau * norm2 (df (xs j)) / 2) -> xs (S j) = cx /\ ys (S j) = wsum alpha (Gh (S j))) /\
      (safeguard = true -> vs j - tau * norm2 (df (xs j)) / 2 < f cx -> is_prox g (eps j * tau) gj (xs (S j)) /\ ys (S j) = gj) /\
      vs (S j) = (if safeguard then f cx else vs j).
