(** * Specification vocabulary used by the statements proved in P_Growth.v *)
From Verif Require Import Base Space Spec VSum MatFacts.
Open Scope R_scope.

(** every point of the domain has a nearest minimiser, and f grows at least like mu/2 times the squared distance from it *)
Definition quad_growth {E : IPS} (f : efun E) (mu : R) : Prop :=
  forall y, edom f y -> exists z, is_min f z /\ (forall z', is_min f z' -> norm (y [-] z) <= norm (y [-] z')) /\ eval f z + mu / 2 * norm2 (y [-] z) <= eval f y.
(** every vector splits into a part with A n = 0 and a part orthogonal to all of these, on which |A w|^2 >= m |w|^2: the squares of the non-zero singular values of A are at least m *)
Definition bounded_off_kernel {E F : IPS} (A : linop E F) (m : R) : Prop :=
  forall v, exists n w, v = n [+] w /\ A n = vzero /\ (forall u, A u = vzero -> << w, u >> = 0) /\ m * norm2 w <= norm2 (A w).
(** the operator on vectors of two entries that keeps the first entry and sets the second one to 0 *)
Definition first_only (x : Vec 2) : Vec 2 := vtab 2 (fun i => if Nat.eqb i 0 then get x 0 else 0).
Definition keep_first : linop (Vec 2) (Vec 2).
Proof.
  refine (mkLinop (Vec 2) (Vec 2) first_only first_only _ _ _).
  - intros x y. apply vec_ext. intros i Hi. rewrite (get_add 2 (first_only x) (first_only y) i) by auto. unfold first_only. rewrite !get_vtab by auto. destruct (Nat.eqb i 0); [rewrite get_add by lia; reflexivity|ring].
  - intros a x. apply vec_ext. intros i Hi. rewrite (get_scal 2 a (first_only x) i) by auto. unfold first_only. rewrite !get_vtab by auto. destruct (Nat.eqb i 0); [rewrite get_scal by lia; reflexivity|ring].
  - intros x y. rewrite !vec_inner. unfold first_only. cbn [RS]. rewrite !get_vtab by lia. cbn [Nat.eqb]. ring.
Defined.
