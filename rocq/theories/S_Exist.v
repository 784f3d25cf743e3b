(** * Specification vocabulary used by the statements proved in P_Exist*.v *)
From Verif Require Import Base Space Spec.
Open Scope R_scope.

(** nested non-empty sets whose diameters tend to 0 close in on a point *)
Definition complete (E : IPS) : Prop := forall D : nat -> E -> Prop,
  (forall k, exists x, D k x) -> (forall k x, D (S k) x -> D k x) ->
  (forall eps, 0 < eps -> exists k, forall x y, D k x -> D k y -> norm (x [-] y) < eps) ->
  exists l, forall k eps, 0 < eps -> exists x, D k x /\ norm (x [-] l) < eps.
(** a sequence can be built from descriptions of its terms, each satisfied by exactly one vector *)
Definition described (E : IPS) : Prop := forall P : nat -> E -> Prop,
  (forall k, exists x, P k x /\ forall y, P k y -> y = x) -> exists u, forall k, P k (u k).

(** f is closed (lower semicontinuous): a point that has points of {f <= c} arbitrarily close to it is in {f <= c} *)
Definition closed {E : IPS} (f : efun E) : Prop := forall l c,
  (forall eps, 0 < eps -> exists x, norm (x [-] l) < eps /\ edom f x /\ eval f x <= c) -> edom f l /\ eval f l <= c.
(** a closed set *)
Definition closed_set {E : IPS} (C : E -> Prop) : Prop := forall l, (forall eps, 0 < eps -> exists x, norm (x [-] l) < eps /\ C x) -> C l.
(** f is above an affine function *)
Definition minorised {E : IPS} (f : efun E) : Prop := exists v c, forall x, edom f x -> << v, x >> - c <= eval f x.
(** f is bounded below *)
Definition bounded_below {E : IPS} (f : efun E) : Prop := exists c, forall x, edom f x -> c <= eval f x.
(** the sets {f <= c} are bounded *)
Definition level_bounded {E : IPS} (f : efun E) : Prop := forall c, exists M, forall x, edom f x -> eval f x <= c -> norm x <= M.
(** f grows faster than every multiple of the norm *)
Definition fast_growing {E : IPS} (f : efun E) : Prop := forall k c, exists M, forall x, edom f x -> eval f x <= k * norm x + c -> norm x <= M.
(** f is strongly convex: f - s/2 |.|^2 is convex *)
Definition strongly_convex {E : IPS} (s : R) (f : efun E) : Prop := convex (mkEfun (edom f) (fun x => eval f x - s / 2 * norm2 x)).
