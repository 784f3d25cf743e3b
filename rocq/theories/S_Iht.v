(** * Specification vocabulary used by the statements proved in P_Iht.v *)
From Coq Require Import ZArith.
From Verif Require Import Base Space Spec VSum MatFacts M_ProxOp M_L0 S_L0.
Open Scope result_scope.
Open Scope R_scope.

(** at most k entries of v are different from zero: some k positions cover them *)
Definition sparse {n} (k : nat) (v : Vec n) : Prop := exists l, (length l <= k)%nat /\ forall i, (i < n)%nat -> get v i <> 0 -> In i l.
(** restricted isometry: on vectors with at most k non-zeros, sqrt(c) A preserves squared lengths up to the factor 1 +- delta *)
Definition rip {n} {F : IPS} (A : linop (Vec n) F) (k : nat) (c delta : R) : Prop :=
  forall v, sparse k v -> (1 - delta) * norm2 v <= c * norm2 (A v) <= (1 + delta) * norm2 v.
(** an object L10Ball(ndim=r, radius=k): k is a constant, so the counter has no effect *)
Definition l10ball_op (argsort : list R -> list nat) {r c} (k : Z) : Op (Vec (r * c)) :=
  mkOp (fun x => Ok (VBool (l10ball_call (fun _ => k) 0 x))) (fun x tau => snd (l10ball_prox argsort (fun _ => k) 0 x tau))
    (fun _ _ => Err NotImplementedError) (fun _ => Err NotImplementedError) false.
(** m measurements of m + 1 unknowns: x_i + w x_m for i < m, and the adjoint *)
Definition wide_app {m} (w : R) (x : Vec (S m)) : Vec m := vtab m (fun i => get x i + w * get x m).
Definition wide_adj {m} (w : R) (y : Vec m) : Vec (S m) := vtab (S m) (fun i => if Nat.ltb i m then get y i else w * RS m (get y)).
