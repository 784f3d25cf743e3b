(** Property theorems for PALM: statements only; every proof is [exact] a lemma of P_PALM.v.
    Generated from the tagged lemmas of that file. *)
From Verif Require Import Base Space Spec SpecOps ConvexFacts Smooth M_ProxOp P_ProxOp M_Norms P_Norms M_Loop LoopFacts M_PALM SeqFacts.
From Coq Require Import Psatz.
From Verif Require Import S_PALM.
From Verif Require Import P_PALM.
Open Scope result_scope.


(** every H with block-Lipschitz partial gradients whose stored y is y0, all f and g (convex or
    not) with correct proximal operators (None: the zero function), every combination of
    fixed steps (gamma >= 1) and backtracking (enough passes for the constants on the
    domains of f and g), where in backtracking mode for y the operator passed for f also
    implements g. Whenever PALM returns, its n callbacks are the documented recursion and
    each iteration decreases f + g + H by at least (gamma-1) L/2 times the squared block
    steps *)
Theorem C60_palm_descent : forall (E F : IPS) (H : Bilin E F) h gx gy lx ly hx0 proxf proxg (f : efun E) (g : efun F) x0 y0 gammaf gammag beta Lmax n nb r,
  bilin_spec H h gx gy lx ly -> 0 < beta < 1 ->
  opt_impl (option_map on_x proxf) f -> opt_impl (match gammag with None => option_map on_y proxf | Some _ => proxg end) g ->
  (forall y, edom g y -> mode_ok gammaf beta Lmax nb (ly y)) -> (forall x, edom f x -> mode_ok gammag beta Lmax nb (lx x)) ->
  edom f x0 -> edom g y0 ->
  PALM H hx0 y0 proxf proxg x0 y0 gammaf gammag beta n nb = Ok r ->
  exists xs ys, r = (xs n, ys n, map (fun j => (xs j, ys j)) (seq 1 n)) /\ xs 0%nat = x0 /\ ys 0%nat = y0 /\
    palm_doc f g gx gy lx ly gammaf gammag xs ys n /\
    (forall j, (j < n)%nat ->
      palm_obj f g h (xs (S j)) (ys (S j)) + mode_gain gammaf (ly (ys j)) * norm2 (xs (S j) [-] xs j) +
        mode_gain gammag (lx (xs (S j))) * norm2 (ys (S j) [-] ys j) <= palm_obj f g h (xs j) (ys j)) /\
    palm_obj f g h (xs n) (ys n) <= palm_obj f g h x0 y0.
Proof. exact C60_palm_descent_l. Qed.
Print Assumptions C60_palm_descent.
