(** * Specification vocabulary used by the statements proved in P_PG2.v *)
From Coq Require Import String Psatz.
From Verif Require Import Base Space Spec M_ProxOp SpecOps M_PG.
Open Scope result_scope.
Open Scope R_scope.

(** t_0 = 1, t_(n+1) = (1 + sqrt(1 + 4 t_n^2)) / 2 *)
Fixpoint fista_t (n : nat) : R :=
  match n with O => 1 | S n => (1 + sqrt (1 + 4 * (fista_t n * fista_t n))) / 2 end.
(** the extrapolation factor of iteration j for each acceleration mode *)
Definition omega_seq (accel : option string) (j : nat) : R :=
  if accel_is accel "vandenberghe" then INR j / (INR j + 3)
  else if accel_is accel "fista" then (fista_t j - 1) / fista_t (S j) else 0.
(** What the smooth operator must provide. *)
Definition smooth_op {E : IPS} (o : Op E) (f : E -> R) (df : E -> E) (L : R) : Prop :=
  impl_call o (etot f) /\ (forall x, o_grad o x = Ok (Some (df x))) /\ convex (etot f) /\ 0 < L /\ L_smooth f df L.

Section BT.
Context {E : IPS}.
(** z is the trial point for step tau; the sufficient decrease test. *)
Definition trial (df : E -> E) (g : efun E) (e tau : R) (x z : E) : Prop :=
  is_prox g (e * tau) (x [-] tau [*] df x) z.
(** the sufficient decrease test for step tau *)
Definition test_ok (f : E -> R) (df : E -> E) (tau : R) (x z : E) : Prop :=
  f z <= f x + << df x, z [-] x >> + / (2 * tau) * norm2 (z [-] x).
End BT.

Section PGrun.
Context {E : IPS}.
Variables (proxf proxg : Op E) (f : E -> R) (df : E -> E) (g : efun E) (gv : E -> R).
(** the argument epsg stands for the factors eps_0, eps_1, ...: one number for all iterations, or one per iteration *)
Definition eps_arg (epsg : list R) (niter : nat) (eps : nat -> R) : Prop :=
  (exists e, epsg = [e] /\ niter <> 0%nat /\ forall j, eps j = e) \/
  (List.length epsg <> 1%nat /\ forall j, (j < niter)%nat -> nth_error epsg j = Some (eps j)).
End PGrun.
