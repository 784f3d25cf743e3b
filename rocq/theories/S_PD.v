(** * Specification vocabulary used by the statements proved in P_PD.v *)
From Coq Require Import Psatz.
From Verif Require Import Base Space Spec VSum M_PD.
Open Scope result_scope.
Open Scope R_scope.

(** the mean of h 0 .. h (N-1) *)
Definition avg {E : IPS} (N : nat) (h : nat -> E) : E := / INR N [*] VS N h.
(** the vector z, zero when not given *)
Definition zvec {E : IPS} (z : option E) : E := match z with None => vzero | Some z => z end.
(** the initial dual vector, zero when not given *)
Definition y0vec {F : IPS} (y0 : option F) : F := match y0 with None => vzero | Some y => y end.
(** step used at iteration j; positive steps available for n iterations *)
Definition step_at (s : steps) (j : nat) : R := match s with Scalar t => t | Arr l => nth j l 0 end.
Definition steps_ok (s : steps) (n : nat) : Prop :=
  match s with Scalar t => 0 < t | Arr l => (n <= List.length l)%nat /\ forall j, (j < n)%nat -> 0 < nth j l 0 end.

Section Math.
Context {E F : IPS} (A : linop E F) (f : efun E) (gs : efun F) (z : E).
Variables (tau mu : R).
(** The Lagrangian <Ax,y> + <z,x> + f(x) - g*(y) *)
Definition lagr (x : E) (y : F) : R := << lapp A x, y >> + << z, x >> + eval f x - eval gs y.
(** (xo, yo) is a saddle point: -(A^T yo + z) is a subgradient of f at xo, A xo one of g* at yo *)
Definition saddle (xo : E) (yo : F) : Prop := is_subgrad f xo (vopp (ladj A yo [+] z)) /\ is_subgrad gs yo (lapp A xo).
(** half the squared distance |a|^2/(2 tau) + |b|^2/(2 mu) *)
Definition pd_dist (tau mu : R) (a : E) (b : F) : R := / (2 * tau) * norm2 a + / (2 * mu) * norm2 b.
(** f first: metric |a|^2/(2tau) + |b|^2/(2mu) - <Aa,b> *)
Definition pd_metric (a : E) (b : F) : R := pd_dist tau mu a b - << lapp A a, b >>.
(** g first: potential with the previous extrapolation *)
Definition pd_pot (xp x : E) (y : F) (u : E) (v : F) : R :=
  pd_dist tau mu (x [-] u) (y [-] v) + << lapp A (x [-] xp), y [-] v >> + / (2 * tau) * norm2 (x [-] xp).
End Math.

Section Run.
Context {E F : IPS} (A : linop E F).
(** The documented recursions; hs is the extrapolated point *)
Definition pd_doc (f : efun E) (gs : efun F) (z : E) (tau mu : nat -> R) (theta : R) (gfirst : bool) (xs hs : nat -> E) (ys : nat -> F) (n : nat) : Prop :=
  forall j, (j < n)%nat -> hs (S j) = xs (S j) [+] theta [*] (xs (S j) [-] xs j) /\
    if gfirst then is_prox gs (mu j) (ys j [+] mu j [*] lapp A (hs j)) (ys (S j)) /\
                   is_prox f (tau j) (xs j [-] tau j [*] (ladj A (ys (S j)) [+] z)) (xs (S j))
    else is_prox f (tau j) (xs j [-] tau j [*] (ladj A (ys j) [+] z)) (xs (S j)) /\
         is_prox gs (mu j) (ys j [+] mu j [*] lapp A (hs (S j))) (ys (S j)).
(** potential of either order *)
Definition pd_potential (tau mu : R) (gfirst : bool) (xs : nat -> E) (ys : nat -> F) (j : nat) (u : E) (v : F) : R :=
  if gfirst then pd_pot A tau mu (xs (j - 1)%nat) (xs j) (ys j) u v else pd_metric A tau mu (xs j [-] u) (ys j [-] v).
End Run.
