(** Property theorems for QE6: statements only; every proof is [exact] a lemma of P_QE6.v.
    Generated from the tagged lemmas of that file. *)
From Coq Require Import Permutation Sorting.
From Verif Require Import Base Space Spec SpecOps ConvexFacts Sep M_ProxOp M_L1 M_Pen MatFacts VSum M_Proj P_Proj2 M_L0 P_L0 M_SVD SVD SVD2 P_SVD M_QE P_QE P_QE2 P_QE3 P_QE4 P_QE5.
From Verif Require Import S_QE6.
From Verif Require Import P_QE6.


(** for every shape, 1 <= r0 <= min(m, n), tau > 0, target matrix and input, whatever sorting
    permutation and singular vectors numpy picks, QuadraticEnvelopeRankL2.prox returns (its
    level search always breaks, no IndexError) a global minimiser of Q(u) + |u - M|^2/2 + |u
    - x|^2/(2 tau), Q the quadratic envelope of the indicator of {rank at most r0};
    required: min(m, n) >= 3, or min(m, n) = 2 with r0 = 2 or the two singular values of (M
    + x/tau)/(1 + 1/tau) within a factor 1 + 1/tau *)
Theorem C31_rank_prox : forall argsort, argsort_ok argsort -> forall m n (svd : svdT m n) eig r0 M (Q : efun (Vec (m * n))) fuel (x : Vec (m * n)) tau,
  quad_env (lowrank r0) Q -> (0 < r0 <= Nat.min m n)%nat -> 0 < tau ->
  let Y := / (1 + 1 / tau) [*] (M [+] (1 / tau) [*] x) in svd_at svd Y -> rl_shape (Nat.min m n) r0 (svals Y) (1 / tau) ->
  exists p, o_prox (obj (S fuel) (rl_body argsort svd eig r0 M)) x tau = Ok p /\ is_prox (plus_ls Q M) tau x p.
Proof. exact C31_rank_prox_l. Qed.
Print Assumptions C31_rank_prox.

(** when min(m, n) = 1, and when min(m, n) = 2 with r0 = 1 and the first singular value of (M +
    x/tau)/(1 + 1/tau) exceeds (1 + 1/tau) times the second, QuadraticEnvelopeRankL2.prox
    raises IndexError: the level search reads one entry past the end of the breakpoints *)
Theorem C31_rank_index_refuted : forall argsort, argsort_ok argsort -> forall m n (svd : svdT m n) eig M fuel (x : Vec (m * n)) tau, 0 < tau ->
  let Y := / (1 + 1 / tau) [*] (M [+] (1 / tau) [*] x) in svd_at svd Y ->
  (Nat.min m n = 1%nat \/ (Nat.min m n = 2%nat /\ (1 + 1 / tau) * svals Y 1 < svals Y 0)) ->
  o_prox (obj (S fuel) (rl_body argsort svd eig 1 M)) x tau = Err IndexError.
Proof. exact C31_rank_index_refuted_l. Qed.
Print Assumptions C31_rank_index_refuted.

(** r0 above the number of singular values (r0 = 3, min(m, n) = 2): the rank bound is void, so
    the minimiser at x = M is M, but whenever M has singular values 3 and 1 and tau = 1,
    QuadraticEnvelopeRankL2.prox returns another matrix *)
Theorem C31_rank_bound_refuted : forall argsort, argsort_ok argsort -> forall m n (svd : svdT m n) eig M (Q : efun (Vec (m * n))) fuel, Nat.min m n = 2%nat -> quad_env (lowrank 3) Q ->
  svd_at svd M -> svals M 0 = 3 -> svals M 1 = 1 ->
  exists p, o_prox (obj (S fuel) (rl_body argsort svd eig 3 M)) M 1 = Ok p /\ ~ is_prox (plus_ls Q M) 1 M p.
Proof. exact C31_rank_bound_refuted_l. Qed.
Print Assumptions C31_rank_bound_refuted.

(** evaluating QuadraticEnvelopeRankL2 at a matrix of rank at most r0, where the envelope is
    zero, returns |x - M|/2; the documented function (the one its prox minimises) has the
    value |x - M|^2/2 there, a different number when |x - M| > 1 *)
Theorem C31_rank_call_refuted : forall argsort m n (svd : svdT m n) eig r0 M (Q : efun (Vec (m * n))) fuel (x : Vec (m * n)),
  quad_env (lowrank r0) Q -> eig_at eig (gram x) -> lowrank r0 x -> 1 < norm (x [-] M) ->
  eval (plus_ls Q M) x = / 2 * norm2 (x [-] M) /\
  exists v, o_call (obj fuel (rl_body argsort svd eig r0 M)) x = Ok (VNum v) /\ v = / 2 * norm (x [-] M) /\ v <> eval (plus_ls Q M) x.
Proof. exact C31_rank_call_refuted_l. Qed.
Print Assumptions C31_rank_call_refuted.

(** an envelope of the rank bound exists for every shape and 1 <= r0 <= min(m, n), a function
    returning factorizations exists, and every shape with min(m, n) >= 3 meets the
    conditions of the prox theorem *)
Example C31_rank_example : (forall m n r0, (0 < r0 <= Nat.min m n)%nat -> exists Q : efun (Vec (m * n)), quad_env (lowrank r0) Q) /\
  (forall m n (X : Vec (m * n)), exists svd, svd_at svd X) /\ argsort_ok isort /\ forall r0 s rho, rl_shape (Nat.min 3 4) r0 s rho.
Proof. exact C31_rank_example_l. Qed.
