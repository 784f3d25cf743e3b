(** * Specification vocabulary

    Textbook definitions used to *state* the properties.  They are independent
    of every model file: nothing here mentions how PyProximal computes. *)
From Verif Require Import Base Space.

(** An extended-real valued function: where it is finite, and its value there. *)
Record efun (E : IPS) : Type := mkEfun { edom : E -> Prop; eval : E -> R }.
Arguments mkEfun {E} _ _.
Arguments edom {E} _ _.
Arguments eval {E} _ _.

(** A finite function, and the indicator of a set. *)
Definition etot {E : IPS} (f : E -> R) : efun E := mkEfun (fun _ => True) f.
Definition indic {E : IPS} (C : E -> Prop) : efun E := mkEfun C (fun _ => 0).

Definition eadd {E : IPS} (f g : efun E) : efun E :=
  mkEfun (fun x => edom f x /\ edom g x) (fun x => eval f x + eval g x).
Definition escal {E : IPS} (s : R) (f : efun E) : efun E :=
  mkEfun (edom f) (fun x => s * eval f x).
Definition elin {E : IPS} (f : efun E) (v : E) : efun E :=
  mkEfun (edom f) (fun x => eval f x + << v, x >>).
Definition epre {E F : IPS} (f : efun F) (T : E -> F) : efun E :=
  mkEfun (fun x => edom f (T x)) (fun x => eval f (T x)).

(** p is a global minimiser of f. *)
Definition is_min {E : IPS} (f : efun E) (p : E) : Prop :=
  edom f p /\ forall y, edom f y -> eval f p <= eval f y.

(** p is a proximal point of f at x with step tau:
    p in argmin_y f(y) + |y-x|^2/(2 tau). *)
Definition is_prox {E : IPS} (f : efun E) (tau : R) (x p : E) : Prop :=
  edom f p /\
  forall y, edom f y ->
    eval f p + / (2 * tau) * norm2 (p [-] x) <= eval f y + / (2 * tau) * norm2 (y [-] x).

(** p is a nearest point of the set C to x. *)
Definition is_proj {E : IPS} (C : E -> Prop) (x p : E) : Prop :=
  C p /\ forall y, C y -> norm (p [-] x) <= norm (y [-] x).

Definition convex {E : IPS} (f : efun E) : Prop :=
  forall x y t, edom f x -> edom f y -> 0 <= t <= 1 ->
    edom f ((1 - t) [*] x [+] t [*] y) /\
    eval f ((1 - t) [*] x [+] t [*] y) <= (1 - t) * eval f x + t * eval f y.

Definition convex_set {E : IPS} (C : E -> Prop) : Prop :=
  forall x y t, C x -> C y -> 0 <= t <= 1 -> C ((1 - t) [*] x [+] t [*] y).

(** g is a subgradient of f at x. *)
Definition is_subgrad {E : IPS} (f : efun E) (x g : E) : Prop :=
  edom f x /\ forall y, edom f y -> eval f x + << g, y [-] x >> <= eval f y.

(** fs is the convex (Fenchel) conjugate of f: fs(z) = sup_y <z,y> - f(y). *)
Definition is_conj {E : IPS} (f fs : efun E) : Prop :=
  (exists y, edom f y) /\
  forall z,
    (edom fs z <-> exists M, forall y, edom f y -> << z, y >> - eval f y <= M) /\
    (edom fs z -> is_lub (fun r => exists y, edom f y /\ r = << z, y >> - eval f y) (eval fs z)).

(** Frechet gradient. *)
Definition is_grad {E : IPS} (f : E -> R) (x g : E) : Prop :=
  forall eps, 0 < eps -> exists delta, 0 < delta /\
    forall h, norm h <= delta -> Rabs (f (x [+] h) - f x - << g, h >>) <= eps * norm h.

(** f is convex and differentiable with gradient map df, and df is such that
    the quadratic upper bound with constant L holds (implied by df being
    L-Lipschitz). *)
Definition smooth_convex {E : IPS} (f : E -> R) (df : E -> E) (L : R) : Prop :=
  (forall x y, f x + << df x, y [-] x >> <= f y) /\
  (forall x y, f y <= f x + << df x, y [-] x >> + L / 2 * norm2 (y [-] x)).

Definition lipschitz {E F : IPS} (L : R) (T : E -> F) : Prop :=
  forall x y, norm (T x [-] T y) <= L * norm (x [-] y).

(** f is differentiable with gradient map df, and df is L-Lipschitz. *)
Definition L_smooth {E : IPS} (f : E -> R) (df : E -> E) (L : R) : Prop :=
  (forall x, is_grad f x (df x)) /\ lipschitz L df.
