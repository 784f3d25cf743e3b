(** * Specification vocabulary used by the statements proved in P_Denoise.v *)
From Verif Require Import Base Space Spec VSum MatFacts M_ProxOp M_TV S_TV3 S_Exist.
Open Scope result_scope.
Open Scope R_scope.

(** G computes c times the forward differences of an array of shape dims along every axis, one axis after the other
    (pylops.Gradient(dims, sampling = 1 / c, edge=False, kind="forward"), or c * Gradient) *)
Definition is_gradient (dims : list nat) (c : R) (G : linop (Vec (nprod dims)) (Vec (length dims * nprod dims))) : Prop :=
  forall x a i, (a < length dims)%nat -> (i < nprod dims)%nat -> get (G x) (a * nprod dims + i) = c * forward_diff dims (get x) a i.
(** the Euclidean norm of the d entries of a field at pixel i *)
Definition pixel {d N} (p : Vec (d * N)) (i : nat) : R := sqrt (RS d (fun a => get p (a * N + i) * get p (a * N + i))).
(** lam times the sum of these norms; the fields of pixel norms at most lam *)
Definition pixels {d N} (lam : R) (p : Vec (d * N)) : R := lam * RS N (pixel p).
Definition pixels_le {d N} (lam : R) (p : Vec (d * N)) : Prop := forall i, (i < N)%nat -> pixel p i <= lam.
(** anisotropic total variation: the sum over samples and axes of the absolute forward differences *)
Definition variation1 (dims : list nat) (x : nat -> R) : R :=
  RS (length dims) (fun a => RS (nprod dims) (fun i => Rabs (forward_diff dims x a i))).
(** x minimises the data term f plus lam times the total variation *)
Definition denoised (dims : list nat) (f : efun (Vec (nprod dims))) (lam : R) (x : Vec (nprod dims)) : Prop :=
  is_min (eadd f (etot (fun v => lam * variation dims (get v)))) x.
Definition denoised1 (dims : list nat) (f : efun (Vec (nprod dims))) (lam : R) (x : Vec (nprod dims)) : Prop :=
  is_min (eadd f (etot (fun v => lam * variation1 dims (get v)))) x.
(** data terms: s/2 |x - b|^2, s/2 |A x - b|^2 and s |x - b|_1 *)
Definition near2 {n} (b : Vec n) (s : R) : efun (Vec n) := etot (fun x => s / 2 * norm2 (x [-] b)).
Definition near2A {n m} (A : linop (Vec n) (Vec m)) (b : Vec m) (s : R) : efun (Vec n) := etot (fun x => s / 2 * norm2 (A x [-] b)).
Definition near1 {n} (b : Vec n) (s : R) : efun (Vec n) := etot (fun x => s * RS n (fun i => Rabs (get x i - get b i))).
(** a data term that can be used with w times the variation: convex, closed, finite somewhere, bounded level sets of the sum *)
Definition data_term (dims : list nat) (w : R) (f : efun (Vec (nprod dims))) : Prop :=
  convex f /\ closed f /\ (exists x, edom f x) /\ level_bounded (eadd f (etot (fun v => w * variation dims (get v)))).
