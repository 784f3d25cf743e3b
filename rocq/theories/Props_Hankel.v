(** Property theorems for Hankel: statements only; every proof is [exact] a lemma of P_Hankel.v.
    Generated from the tagged lemmas of that file. *)
From Coq Require Import ZArith Psatz.
From Verif Require Import Base Space Spec SpecOps ConvexFacts M_ProxOp MatFacts VSum M_Proj M_L0 P_Proj.
From Verif Require Import S_Hankel.
From Verif Require Import P_Hankel.
Open Scope result_scope.


(** every matrix shape, matrix and positive tau: Hankel.prox returns the Euclidean projection on
    the Hankel matrices (antidiagonal means), independent of tau; applying it again changes
    nothing, a Hankel input is returned as is, the map is 1-Lipschitz, and Hankel.__call__
    accepts the result and every Hankel matrix *)
Theorem C26_prox : forall m n (x : Vec (m * n)) tau, 0 < tau -> exists p, hankel_prox x tau = Ok p /\ is_proj hankel_mat x p /\
  (forall tau', 0 < tau' -> hankel_prox p tau' = Ok p) /\ hankel_call p = true /\
  (hankel_mat x -> p = x /\ hankel_call x = true) /\
  (forall x' tau' p', 0 < tau' -> hankel_prox x' tau' = Ok p' -> norm (p [-] p') <= norm (x [-] x')).
Proof. exact C26_prox_l. Qed.
Print Assumptions C26_prox.

(** every entry of the result is the arithmetic mean of the input over its antidiagonal *)
Theorem C26_means : forall m n (x : Vec (m * n)) tau p i j, 0 < tau -> hankel_prox x tau = Ok p -> (i < m)%nat -> (j < n)%nat ->
  let onanti i' j' v := if Nat.eqb (i' + j') (i + j) then v else 0 in
  0 < RS m (fun i' => RS n (fun j' => onanti i' j' 1)) /\
  get p (i * n + j) * RS m (fun i' => RS n (fun j' => onanti i' j' 1)) = RS m (fun i' => RS n (fun j' => onanti i' j' (get x (i' * n + j')))).
Proof. exact C26_means_l. Qed.
Print Assumptions C26_means.

(** Hankel.__call__ is not a membership test: it accepts the 2x2 matrix with antidiagonal
    entries 1000000 and 1000001, which is not Hankel and which prox changes *)
Theorem C26_call_refuted : hankel_call hk_x = true /\ ~ hankel_mat hk_x /\ forall tau p, hankel_prox hk_x tau = Ok p -> p <> hk_x.
Proof. exact C26_call_refuted_l. Qed.
Print Assumptions C26_call_refuted.

(** the 2x2 matrix [[1,2],[4,3]] projects to [[1,3],[3,3]] *)
Example C26_example : hankel_prox (m:=2) (n:=2) (vtab (2 * 2) (fun p => nth p [1; 2; 4; 3] 0)) 1 = Ok (vtab (2 * 2) (fun p => nth p [1; 3; 3; 3] 0)).
Proof. exact C26_example_l. Qed.
