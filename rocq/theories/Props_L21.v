(** Property theorems for L21: statements only; every proof is [exact] a lemma of P_L21.v.
    Generated from the tagged lemmas of that file. *)
From Verif Require Import Base Space Spec ConvexFacts Sep M_ProxOp SpecOps P_ProxOp M_Norms P_Norms M_L1 P_L1.
From Coq Require Import Psatz.
From Verif Require Import S_L21.
From Verif Require Import P_L21.
Open Scope result_scope.



(** L21 (sigma > 0): call is sigma times the sum of the column norms, prox is the exact proximal
    point of that function and proxdual the exact proximal point of its conjugate (the
    indicator of all column norms <= sigma), for every number and size of columns *)
Theorem C19_l21 : forall m k fuel sigma, 0 < sigma ->
  let o := obj (S fuel) (l21_body (m:=m) (k:=k) sigma) in
  impl_call o (etot (group_norm (E:=Vec m) (k:=k) sigma)) /\
  impl_prox o (etot (group_norm (E:=Vec m) (k:=k) sigma)) /\
  is_conj (etot (group_norm (E:=Vec m) (k:=k) sigma)) (indic (group_ball sigma)) /\
  impl_proxdual o (indic (group_ball (E:=Vec m) (k:=k) sigma)).
Proof. exact C19_l21_l. Qed.
Print Assumptions C19_l21.

(** L21_plus_L1 with 0 <= rho < 1: prox is the exact proximal point of the function evaluated by
    call, rho*sigma*|x|_1 + (1-rho)*sigma*sum of column norms, for every number and size of
    columns *)
Theorem C19_l21l1 : forall m k sigma rho tau (x : Pow (Vec m) k),
  0 < sigma -> 0 <= rho < 1 -> 0 < tau ->
  exists p : Pow (Vec m) k,
    l21l1_prox sigma rho (proj1_sig (x : nlist (Vec m) k)) tau = Ok (proj1_sig (p : nlist (Vec m) k)) /\
    is_prox (etot (l21l1_call sigma rho)) tau x p.
Proof. exact C19_l21l1_l. Qed.
Print Assumptions C19_l21l1.

(** with rho = 1 (pure L1, allowed by the documentation) the prox of every zero column is not a
    number (0/0), although the exact proximal point is 0 *)
Theorem C19_rho_one_refuted : forall m sigma tau, 0 < sigma -> 0 < tau ->
  l21l1_prox sigma 1 [vzero : Vec m] tau = Err ZeroDivisionError /\
  is_prox (etot (sparse_group_fun (m:=m) sigma 0)) tau vzero vzero.
Proof. exact C19_rho_one_refuted_l. Qed.
Print Assumptions C19_rho_one_refuted.

(** two columns (3,4) and (0,0), sigma = 1, tau = 1: L21 prox gives (12/5, 16/5) and (0,0) *)
Example C19_example :
  exists p, o_prox (obj 1 (l21_body (m:=2) (k:=2) 1)) (nl [nl [3; 4]; nl [0; 0]]) 1 = Ok p /\
    map (fun c : Vec 2 => proj1_sig (c : nlist R 2)) (proj1_sig (p : nlist (Vec 2) 2)) = [[12/5; 16/5]; [0; 0]].
Proof. exact C19_example_l. Qed.
