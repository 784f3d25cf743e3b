(** * Specification vocabulary used by the statements proved in P_Sparse.v *)
From Verif Require Import Base Space Spec VSum MatFacts M_ProxOp M_Norms M_L1 S_L1 M_Objs S_Lasso.
Open Scope R_scope.

(** o is an object AffineSet(A, b) whose inner solver returns a solution of (A A^T) v = A x - b *)
Definition is_affine {E F : IPS} (o : Op E) (A : linop E F) (b : F) : Prop :=
  exists close cg, (forall x, A (ladj A (cg (fun v => A (ladj A v)) (A x [-] b))) = A x [-] b) /\ o = obj 2 (affine_body close cg A b).
(** o is an object EuclideanBall(b, r) *)
Definition is_ball {F : IPS} (o : Op F) (b : F) (r : R) : Prop := o = obj 2 (ball_body b r).
(** o is an object Box(lower, upper) *)
Definition is_box {n} (o : Op (Vec n)) (lu : nlist bounds n) : Prop := o = obj 2 (box_body lu).

(** sum_i |x_i| *)
Definition sum_abs {n} (x : Vec n) : R := RS n (fun i => Rabs (get x i)).
(** the part of it with i in S, and the rest *)
Definition sum_in {n} (S : nat -> bool) (x : Vec n) : R := RS n (fun i => if S i then Rabs (get x i) else 0).
Definition sum_out {n} (S : nat -> bool) (x : Vec n) : R := RS n (fun i => if S i then 0 else Rabs (get x i)).
(** x is zero outside S *)
Definition supported {n} (S : nat -> bool) (x : Vec n) : Prop := forall i, (i < n)%nat -> S i = false -> get x i = 0.

(** basis pursuit: minimise sum_i |x_i| subject to A x = b *)
Definition basis_pursuit {n} {F : IPS} (A : linop (Vec n) F) (b : F) : efun (Vec n) := mkEfun (fun x => A x = b) sum_abs.
(** with noise: minimise sum_i |x_i| subject to |A x - b| <= r *)
Definition basis_pursuit_noise {n} {F : IPS} (A : linop (Vec n) F) (b : F) (r : R) : efun (Vec n) := mkEfun (fun x => norm (A x [-] b) <= r) sum_abs.

(** the null space property of A on S: a vector that A maps to zero has less than half of its absolute sum in S *)
Definition null_space {n} {F : IPS} (A : linop (Vec n) F) (S : nat -> bool) : Prop :=
  forall h, A h = vzero -> h <> vzero -> sum_in S h < sum_out S h.
(** its quantitative version, with a bound also for vectors A does not map to zero *)
Definition robust_null_space {n} {F : IPS} (A : linop (Vec n) F) (S : nat -> bool) (rho gamma : R) : Prop :=
  forall h, sum_in S h <= rho * sum_out S h + gamma * norm (A h).

(** the bounds of entry i, None = no bound *)
Definition lower_of {n} (lu : nlist bounds n) (i : nat) : option R := fst (nth i (proj1_sig lu) (None, None)).
Definition upper_of {n} (lu : nlist bounds n) (i : nat) : option R := snd (nth i (proj1_sig lu) (None, None)).
(** least squares with bounds: minimise s/2 |A x - b|^2 subject to lower_i <= x_i <= upper_i *)
Definition bounded_ls {n} {F : IPS} (A : linop (Vec n) F) (b : F) (s : R) (lu : nlist bounds n) : efun (Vec n) :=
  mkEfun (fun x => forall i, (i < n)%nat -> (forall l, lower_of lu i = Some l -> l <= get x i) /\ (forall u, upper_of lu i = Some u -> get x i <= u)) (fun x => s / 2 * norm2 (A x [-] b)).
