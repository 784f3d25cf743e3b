(** Property theorems for Shape: statements only; every proof is [exact] a lemma of P_Shape.v.
    Generated from the tagged lemmas of that file. *)
From Coq Require Import String ZArith Psatz.
From Verif Require Import Base Space Spec ConvexFacts Sep VSum MatFacts M_ProxOp SpecOps P_ProxOp M_Pen S_Pen S_Pen2 S_Pen3 P_Pen P_Pen2 P_Pen3 M_L0 S_L0 P_L0 P_Cx2 S_Noncvx P_Noncvx.
From Verif Require Import S_Shape.
From Verif Require Import P_Shape.
Open Scope result_scope.
Open Scope R_scope.


(** whatever the function g, convex or not, an operator whose prox is exact at step t moves the
    results of two arguments in no direction opposed to that between the arguments: <prox(x)
    - prox(y), x - y> >= 0 *)
Theorem C109_monotone : forall (E : IPS) (o : Op E) (g : efun E) t x y, 0 < t -> prox_at o g t ->
  exists p q, o_prox o x t = Ok p /\ o_prox o y t = Ok q /\ 0 <= << p [-] q, x [-] y >>.
Proof. exact C109_monotone_l. Qed.
Print Assumptions C109_monotone.

(** whatever g, with steps s < t: prox(x, t) is at least as far from x as prox(x, s) and has no
    larger value of g; for x in the domain both have g(prox) + |prox - x|^2/(2 step) <= g(x) *)
Theorem C109_step : forall (E : IPS) (o : Op E) (g : efun E) s t x, 0 < s < t -> prox_at o g s -> prox_at o g t ->
  exists p q, o_prox o x s = Ok p /\ o_prox o x t = Ok q /\ norm (p [-] x) <= norm (q [-] x) /\ eval g q <= eval g p /\
    (edom g x -> eval g p + / (2 * s) * norm2 (p [-] x) <= eval g x /\ eval g q + / (2 * t) * norm2 (q [-] x) <= eval g x).
Proof. exact C109_step_l. Qed.
Print Assumptions C109_step.

(** if g does not increase when an entry gets smaller in absolute value or changes sign, an
    exact prox keeps the sign of every entry and does not enlarge any; if also g does not
    depend on the order of the entries, it keeps their order, and the order of their
    absolute values *)
Theorem C109_entries : forall n (o : Op (Vec n)) g t x, 0 < t -> prox_at o g t -> grows_with_size g ->
  exists p, o_prox o x t = Ok p /\ (forall i, (i < n)%nat -> 0 <= get x i * get p i /\ Rabs (get p i) <= Rabs (get x i)) /\
    (order_free g -> forall i j, (i < n)%nat -> (j < n)%nat -> 0 <= (get x i - get x j) * (get p i - get p j) /\ 0 <= (Rabs (get x i) - Rabs (get x j)) * (Rabs (get p i) - Rabs (get p j))).
Proof. exact C109_entries_l. Qed.
Print Assumptions C109_entries.

(** Log, ETP, Geman, SCAD (t <= a - 1), QuadraticEnvelopeCard (t <= 1), RelaxedMumfordShah, L0
    and L0Ball: prox(., t) never raises for t > 0, is monotone (<prox(x) - prox(y), x - y>
    >= 0), keeps the sign of every entry, enlarges none, and keeps the order of the entries
    and of their absolute values *)
Theorem C109_penalties : forall n t (o : Op (Vec n)) g x y, 0 < t -> penalty t o g ->
  exists p q, o_prox o x t = Ok p /\ o_prox o y t = Ok q /\ 0 <= << p [-] q, x [-] y >> /\
    (forall i, (i < n)%nat -> 0 <= get x i * get p i /\ Rabs (get p i) <= Rabs (get x i)) /\
    (forall i j, (i < n)%nat -> (j < n)%nat -> 0 <= (get x i - get x j) * (get p i - get p j) /\ 0 <= (Rabs (get x i) - Rabs (get x j)) * (Rabs (get p i) - Rabs (get p j))).
Proof. exact C109_penalties_l. Qed.
Print Assumptions C109_penalties.

(** unlike for convex functions, the prox of these penalties does not have to be Lipschitz: for
    L0(sigma) with sigma > 0 and every K there are vectors of one entry with |prox(x) -
    prox(y)| > K |x - y| *)
Theorem C109_lipschitz_refuted : forall sigma t K, 0 < sigma -> 0 < t -> exists (x y p q : Vec 1), let o := obj 1 (sep_body (n:=1) l0_elem (l0_pr sigma)) in
  penalty t o (etot (card_fun (t * sigma * sigma / 2))) /\ o_prox o x t = Ok p /\ o_prox o y t = Ok q /\ K * norm (x [-] y) < norm (p [-] q).
Proof. exact C109_lipschitz_refuted_l. Qed.
Print Assumptions C109_lipschitz_refuted.

(** on vectors of two entries, Log(1, 1), SCAD(1, 3.7) and L0Ball(1) objects with t = 1 are
    among these penalties, and L0.prox with sigma = 1, t = 2 sends (3, 1) to (3, 0) *)
Example C109_example : penalty (n:=2) 1 (obj 1 (sep_body (log_elem 1 1) (log_pr 1 1))) (etot (sumf (fun a => 1 / ln (1 + 1) * ln (1 * Rabs a + 1)))) /\
  penalty (n:=2) 1 (obj 1 (sep_body (scad_elem 1 (37/10)) (scad_pr 1 (37/10)))) (etot (sumf (scad_fun 1 (37/10)))) /\
  (exists argsort, penalty (n:=2) 1 (l0ball_op argsort 1) (indic (l0_ball (Z.to_nat 1)))) /\
  o_prox (obj 1 (sep_body (n:=2) l0_elem (l0_pr 1))) (vtab 2 (fun i => if Nat.eqb i 0 then 3 else 1)) 2 = Ok (vtab 2 (fun i => if Nat.eqb i 0 then 3 else 0)).
Proof. exact C109_example_l. Qed.
