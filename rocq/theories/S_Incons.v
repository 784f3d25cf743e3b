(** * Specification vocabulary used by the statements proved in P_Incons.v *)
From Verif Require Import Base Space Spec VSum Sep M_ProxOp M_Split M_L1 S_Seq.
Open Scope result_scope.
Open Scope R_scope.

(** a in A and b in B are as close to each other as points of A and B can be (a = b when the sets meet) *)
Definition closest {E : IPS} (A B : E -> Prop) (a b : E) : Prop :=
  A a /\ B b /\ forall a' b', A a' -> B b' -> norm (a [-] b) <= norm (a' [-] b').
(** x has the least weighted sum of squared distances to the sets C_0, ..., C_(m-1), and a_i is the point of C_i nearest to x *)
Definition compromise {E : IPS} (m : nat) (w : nat -> R) (C : nat -> E -> Prop) (x : E) (a : nat -> E) : Prop :=
  (forall i, (i < m)%nat -> C i (a i)) /\
  forall y c, (forall i, (i < m)%nat -> C i (c i)) -> RS m (fun i => w i * norm2 (x [-] a i)) <= RS m (fun i => w i * norm2 (y [-] c i)).
(** the set A fits in a ball *)
Definition bounded_set {E : IPS} (A : E -> Prop) : Prop := exists M, forall x, A x -> norm x <= M.
(** the norms of the vectors tend to infinity *)
Definition escapes {E : IPS} (u : nat -> E) : Prop := forall M, exists N, forall n, (N <= n)%nat -> M < norm (u n).
(** both bounds are given and in order *)
Definition finite_bounds (lu : bounds) : Prop := exists l u, lu = (Some l, Some u) /\ l <= u.
(** from every start, for every tau > 0 and in either order: ADMM and HQS never raise and their x and z converge to a closest pair of A and B;
    DouglasRachfordSplitting (0 < eta < 2) never raises and its x converges to a member of one *)
Definition finds_closest {E : IPS} (proxf proxg : Op E) (A B : E -> Prop) : Prop := forall x0 z0 x z tau eta (gfirst : bool), x0z0_init x0 z0 = Ok (x, z) -> 0 < tau -> 0 < eta < 2 ->
  (exists xs zs a b, (forall n, exists tr, ADMM proxf proxg x0 tau n z0 gfirst = Ok (xs n, zs n, tr)) /\ closest A B a b /\ vcv xs a /\ vcv zs b) /\
  (exists xs zs a b, (forall n, exists tr, HQS proxf proxg x0 [tau] n z0 gfirst = Ok (xs n, zs n, tr)) /\ closest A B a b /\ vcv xs a /\ vcv zs b) /\
  (exists xs ys a b, (forall n, exists tr, DouglasRachford proxf proxg x tau eta (S n) gfirst = Ok (xs n, ys n, tr)) /\ closest A B a b /\ vcv xs (if gfirst then b else a)).
(** the intervals [0, 1] and [2, 3], as boxes of arrays with one entry, and the array with entry a *)
Definition lo_box : nlist bounds 1 := nl [(Some 0, Some 1)].
Definition hi_box : nlist bounds 1 := nl [(Some 2, Some 3)].
Definition pt (a : R) : Vec 1 := nl [a].
(** a user operator for f(x) = x on the real line *)
Definition lin1 : Op R_IPS := mkOp (E:=R_IPS) (fun x => Ok (VNum x)) (fun x tau => Ok (x - tau)) (fun _ _ => Err NotImplementedError) (fun _ => Ok (Some 1)) true.
