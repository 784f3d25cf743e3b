(** * Convergence of sequences of vectors (specification vocabulary) *)
From Verif Require Import Base Space Spec.
Open Scope R_scope.

(** the vectors u_0, u_1, ... converge to l in norm *)
Definition vcv {E : IPS} (u : nat -> E) (l : E) : Prop := forall eps, 0 < eps -> exists N, forall k, (N <= k)%nat -> norm (u k [-] l) < eps.

(** a strictly increasing choice of indices *)
Definition strict_inc (phi : nat -> nat) : Prop := forall k, (phi k < phi (S k))%nat.

(** every bounded sequence has a convergent subsequence: what finite dimension is used for.
    R, R^n, C^n and products of such spaces have this property (C75_arrays). *)
Definition bw (E : IPS) : Prop := forall (u : nat -> E) M, (forall k, norm (u k) <= M) ->
  exists l phi, strict_inc phi /\ vcv (fun k => u (phi k)) l.

(** f is lower semicontinuous: every set {f <= c} contains the limits of its sequences *)
Definition lsc {E : IPS} (f : efun E) : Prop := forall (u : nat -> E) l c, vcv u l -> (forall k, edom f (u k) /\ eval f (u k) <= c) -> edom f l /\ eval f l <= c.
