(** Property theorems for SR3b: statements only; every proof is [exact] a lemma of P_SR3b.v.
    Generated from the tagged lemmas of that file. *)
From Coq Require Import Psatz.
From Verif Require Import Base Space Spec Sep ConvexFacts Smooth M_ProxOp SpecOps P_ProxOp M_Norms P_Norms M_L1 P_L1 M_Loop LoopFacts LoopFacts2 SeqFacts M_SR3 P_PG2 P_SR3.
From Verif Require Import S_SR3b.
From Verif Require Import P_SR3b.
Open Scope result_scope.
Open Scope R_scope.



(** kappa > 0, eps >= 0, an inner solver that returns a minimiser of 1/2|Ax-b|^2 +
    kappa/2|Lx-v|^2, any start and outer limit. SR3 never raises and returns x_k, where
    x_(j+1) is the inner minimiser for v_j, w_(j+1) the proximal point of (eps/kappa)|.|_1
    at L x_(j+1), v_(j+1) = w_(j+1) + (1 - th_(j+1)) (w_(j+1) - w_j) with th_0 = 1, th_(j+1)
    = 2/(1+sqrt(1+4/th_j^2)); the weights stay in (0,1], strictly decrease and th_j <=
    2/(j+2); it stops after the first j with |v_(j-1) - w_j| / max(1,|w_j|) < 1e-6; and for
    every computed j and every (x', z'): J(x_j, w_j) <= J(x', z') + kappa |v_(j-1) - w_j|
    |L(x' - x_j)|, so an exit by the test is stationary up to 1e-6 *)
Theorem C65_sr3 : forall (E D : IPS) p (A : linop E D) (Reg : linop E (Vec p)) data kappa eps x0 n inner, 0 < kappa -> 0 <= eps ->
  exact_inner A Reg data kappa inner ->
  exists xs vs ws th k, SR3 Reg kappa eps x0 n inner = Ok (Some (xs k)) /\
    xs 0%nat = (match x0 with Some x => x | None => vzero end) /\ vs 0%nat = vzero /\ ws 0%nat = vzero /\ th 0%nat = 1 /\
    (forall j, (j < k)%nat -> is_min (etot (inner_obj A Reg data kappa (vs j))) (xs (S j)) /\
       is_prox (etot (l1n eps)) (/ kappa) (lapp Reg (xs (S j))) (ws (S j))) /\
    (forall j, (S j < k)%nat -> vs (S j) = ws (S j) [+] (1 - th (S j)) [*] (ws (S j) [-] ws j)) /\
    (forall j, th (S j) = 2 / (1 + sqrt (1 + 4 / (th j) ^ 2)) /\ 0 < th (S j) < th j /\ th j <= 1 /\ th j <= 2 / (INR j + 2)) /\
    stops_when (fun j => norm (vs (j - 1)%nat [-] ws j) / Rmax 1 (norm (ws j)) < / 1000000) n k /\
    (forall j, (j < k)%nat -> forall x' z', relaxed A Reg data kappa eps (xs (S j)) (ws (S j)) <=
       relaxed A Reg data kappa eps x' z' + kappa * norm (vs j [-] ws (S j)) * norm (lapp Reg (x' [-] xs (S j)))).
Proof. exact C65_sr3_l. Qed.
Print Assumptions C65_sr3.

(** with the default inner solver, zero data and the default start, SR3 returns NaN for every
    operator, regulariser, kappa > 0, eps and positive iteration limits, although x = 0
    solves the problem *)
Theorem C65_zero_data_refuted : forall (E D : IPS) p (A : linop E D) (Reg : linop E (Vec p)) kappa eps n m, 0 < kappa ->
  SR3_adaptive A Reg vzero kappa eps None (S n) (S m) = Ok None.
Proof. exact C65_zero_data_refuted_l. Qed.
Print Assumptions C65_zero_data_refuted.

(** with the default inner solver SR3 never solves a problem with one unknown: in exact
    arithmetic, for every operator, regulariser, data, kappa > 0, eps, outer limit >= 1 and
    inner limit >= 2 (the default is 100) the result is NaN, because the inner loop does not
    stop when it has reached the exact solution and divides zero by zero *)
Theorem C65_one_unknown_refuted : forall (E D : IPS) p (A : linop E D) (Reg : linop E (Vec p)) data kappa eps x0 n m, 0 < kappa ->
  (forall a b : E, << a, b >> = 0 -> a = vzero \/ b = vzero) ->
  SR3_adaptive A Reg data kappa eps x0 (S n) (S (S m)) = Ok None.
Proof. exact C65_one_unknown_refuted_l. Qed.
Print Assumptions C65_one_unknown_refuted.

(** A = L = identity on one unknown with the closed-form inner solver meets the hypotheses of
    C65_sr3 *)
Example C65_example : 0 < 1 /\ 0 <= 1 /\ exact_inner (id_linop (Vec 1)) (id_linop (Vec 1)) (nl [4] : Vec 1) 1 (inner1 (nl [4])).
Proof. exact C65_example_l. Qed.

(** a start that is not a least-squares solution: B the identity on the line, data 1, x0 = 0 *)
Example C69_example : ladj (id_linop R_IPS) ((1 : R_IPS) [-] lapp (id_linop R_IPS) (0 : R_IPS)) <> vzero /\
  (forall a b : R_IPS, << a, b >> = 0 -> a = vzero \/ b = vzero).
Proof. exact C69_example_l. Qed.

(** the executed recursion is not the documented one (x_(k+1) from y_k, y_(k+1) = prox(L
    x_(k+1))): A = L = identity, data 4, kappa = eps = 1, exact inner solver: the first
    iterate gives y_1 = 1, the second iterate of SR3 is not the minimiser for y_1 *)
Theorem C65_documented_recursion_refuted : let I1 := id_linop (Vec 1) in let data := (nl [4] : Vec 1) in
  exact_inner I1 I1 data 1 (inner1 data) /\
  exists x1 y1 x2, SR3 I1 1 1 None 1 (inner1 data) = Ok (Some x1) /\ is_prox (etot (l1n 1)) (/ 1) (lapp I1 x1) y1 /\
    SR3 I1 1 1 None 2 (inner1 data) = Ok (Some x2) /\ ~ is_min (etot (inner_obj I1 I1 data 1 y1)) x2.
Proof. exact C65_documented_recursion_refuted_l. Qed.
Print Assumptions C65_documented_recursion_refuted.
