(** * Specification vocabulary used by the statements proved in P_PALM.v *)
From Coq Require Import Psatz.
From Verif Require Import Base Space Spec SpecOps M_ProxOp M_PALM.
Open Scope result_scope.

(** quadratic upper model with constant L *)
Definition q_upper {E : IPS} (h : E -> R) (dh : E -> E) (L : R) : Prop :=
  forall x y, h y <= h x + << dh x, y [-] x >> + L / 2 * norm2 (y [-] x).
(** The object H implements the coupling function h with partial gradients gx, gy and
    block constants ly (for the x block) and lx (for the y block). *)
Record bilin_spec {E F : IPS} (H : Bilin E F) (h : E -> F -> R) (gx : E -> F -> E) (gy : E -> F -> F) (lx : E -> R) (ly : F -> R) : Prop := {
  bs_call : forall x y, h_call H x y = Ok (h x y);
  bs_gradx : forall x y, h_gradx H y x = Ok (gx x y);
  bs_grady : forall x y, h_grady H x y = Ok (gy x y);
  bs_lx : forall x, h_lx H x = Ok (lx x) /\ 0 <= lx x;
  bs_ly : forall y, h_ly H y = Ok (ly y) /\ 0 <= ly y;
  bs_upx : forall y, q_upper (fun x => h x y) (fun x => gx x y) (ly y);
  bs_upy : forall x, q_upper (h x) (gy x) (lx x) }.
(** an optional operator: the function it stands for (None: the zero function) *)
Definition opt_impl {E : IPS} (o : option (Op E)) (f : efun E) : Prop :=
  match o with Some o => impl_prox o f | None => forall x, edom f x /\ eval f x = 0 end.
(** what a step mode requires: a constant at least one, or enough backtracking passes for the bound Lmax *)
Definition mode_ok (gamma : option R) (beta Lmax : R) (niterback : nat) (l : R) : Prop :=
  match gamma with
  | Some gm => 1 <= gm
  | None => l <= Lmax /\ Lmax <= 10 ^ 12 /\ (0 < niterback)%nat /\ beta ^ (niterback - 1) * Lmax <= 1
  end.
(** the guaranteed decrease per squared move in each step mode *)
Definition mode_gain (gamma : option R) (l : R) : R := match gamma with Some gm => (gm - 1) * l / 2 | None => 0 end.
(** the step used: 1 / (gamma l), or the result of the backtracking *)
Definition mode_step (gamma : option R) (l tau : R) : Prop := match gamma with Some gm => tau = 1 / (gm * l) | None => 0 < tau <= 1 end.

Section Doc.
Context {E F : IPS} (f : efun E) (g : efun F) (h : E -> F -> R) (gx : E -> F -> E) (gy : E -> F -> F) (lx : E -> R) (ly : F -> R).
(** the documented recursion: a proximal gradient step in x, then one in y at the new x *)
Definition palm_doc (gammaf gammag : option R) (xs : nat -> E) (ys : nat -> F) (n : nat) : Prop :=
  forall j, (j < n)%nat -> exists tf tg, 0 < tf /\ 0 < tg /\ mode_step gammaf (ly (ys j)) tf /\ mode_step gammag (lx (xs (S j))) tg /\
    is_prox f tf (xs j [-] tf [*] gx (xs j) (ys j)) (xs (S j)) /\
    is_prox g tg (ys j [-] tg [*] gy (xs (S j)) (ys j)) (ys (S j)).
(** the objective f(x) + g(y) + H(x, y) *)
Definition palm_obj (x : E) (y : F) : R := eval f x + eval g y + h x y.
End Doc.
