(** * Specification vocabulary used by the statements proved in P_Low.v *)
From Verif Require Import Base Space VSum MatFacts SVD.
Open Scope R_scope.

(** r is the nuclear norm of X: the sum of the singular values in some (hence every) singular value decomposition *)
Definition is_nuclear {m n} (X : Vec (m * n)) (r : R) : Prop := exists s, sing_vals X s /\ r = RS (Nat.min m n) s.
(** v is the value at X of the completion objective s/2 |A X - b|^2 + lam |X|_nuclear *)
Definition is_completion {m n} {F : IPS} (A : linop (Vec (m * n)) F) (b : F) (s lam : R) (X : Vec (m * n)) (v : R) : Prop :=
  exists r, is_nuclear X r /\ v = s / 2 * norm2 (A X [-] b) + lam * r.
(** X minimises it *)
Definition completes {m n} {F : IPS} (A : linop (Vec (m * n)) F) (b : F) (s lam : R) (X : Vec (m * n)) : Prop :=
  forall Y v w, is_completion A b s lam X v -> is_completion A b s lam Y w -> v <= w.
(** the largest singular value of G is at most c *)
Definition spectral_le {m n} (G : Vec (m * n)) (c : R) : Prop := forall (a : Vec m) (b : Vec n), << outer a b, G >> <= c * (norm a * norm b).
(** the entries with p = true are observed: x -> the array that keeps them and is 0 elsewhere *)
Definition masked {n} (p : nat -> bool) (x : Vec n) : Vec n := vtab n (fun i => if p i then get x i else 0).
(** the 2 x 2 matrix [[a, 0], [0, b]] *)
Definition dg (a b : R) : Vec (2 * 2) := vtab (2 * 2) (fun q => nth q [a; 0; 0; b] 0).
