(** * Specification vocabulary used by the statements proved in P_VStack.v *)
From Coq Require Import Psatz Permutation.
From Verif Require Import Base VSum M_VStack.
Open Scope result_scope.
Open Scope R_scope.

(** an extended-real function of arrays of any size *)
Record lfun := mkLfun { ldom : list R -> Prop; lval : list R -> R }.
(** sums over pairs of entries; squared distance; inner product *)
Definition pairsum (h : R -> R -> R) (x y : list R) : R := Rsum (map2 h x y).
Definition dist2 (x y : list R) : R := pairsum (fun a b => (a - b) * (a - b)) x y.
Definition ldot (x y : list R) : R := pairsum Rmult x y.
(** p minimises f + |. - x|^2 / (2 tau) over the arrays of the size of x *)
Definition is_lprox (f : lfun) (tau : R) (x p : list R) : Prop :=
  length p = length x /\ ldom f p /\ forall y, length y = length x -> ldom f y -> lval f p + / (2 * tau) * dist2 p x <= lval f y + / (2 * tau) * dist2 y x.
(** g is the gradient of h at x *)
Definition is_lgrad (h : list R -> R) (x g : list R) : Prop :=
  length g = length x /\ forall eps, 0 < eps -> exists d, 0 < d /\ forall y, length y = length x -> dist2 y x < d * d ->
    Rabs (h y - h x - (ldot g y - ldot g x)) <= eps * sqrt (dist2 y x).
(** sum of f_0 .. f_(m-1), f_i applied to the part B_i of the array *)
Definition stacked (m : nat) (f : nat -> lfun) (B : nat -> list R -> list R) : lfun :=
  mkLfun (fun x => forall i, (i < m)%nat -> ldom (f i) (B i x)) (fun x => RS m (fun i => lval (f i) (B i x))).
(** consecutive parts of sizes nn, and parts given by index lists *)
Definition part_nn (nn : list nat) (i : nat) (x : list R) : list R := firstn (nth i nn 0%nat) (skipn (nsum (firstn i nn)) x).
(** the entries at the positions of list i *)
Definition part_ix (iavas : list (list nat)) (i : nat) (x : list R) : list R := map (fun j => nth j x 0) (nth i iavas []).
(** every position is in exactly one list *)
Definition partition (n : nat) (iavas : list (list nat)) : Prop := Permutation (concat iavas) (seq 0 n).
(** the operator returns the proximal point, the value, the gradient of f on arrays of n entries *)
Definition limpl_prox (op : LOp) (f : lfun) (n : nat) : Prop := forall x tau, length x = n -> 0 < tau -> exists p, l_prox op x tau = Ok p /\ is_lprox f tau x p.
Definition limpl_num (op : LOp) (f : lfun) (n : nat) : Prop := forall x, length x = n -> l_call op x = Ok (VNum (lval f x)).
Definition limpl_grad (op : LOp) (f : lfun) (n : nat) : Prop := forall x, length x = n -> exists g, l_grad op x = Ok (Some g) /\ is_lgrad (lval f) x g.
(** user operators on arrays: value 0 with prox the identity, and the indicator of the non-negative arrays *)
Definition lzero : LOp := mkLOp (fun _ => Ok (VNum 0)) (fun x _ => Ok x) (fun x => Ok (Some (map (fun _ => 0) x))) true.
Definition lnonneg : LOp := mkLOp (fun x => Ok (VBool (forallb (fun a => Rleb 0 a) x))) (fun x _ => Ok (map (Rmax 0) x)) (fun x => Ok (Some (map (fun a => (a - Rmax 0 a) / 1) x))) false.
Definition nonneg_fun : lfun := mkLfun (fun x => forall a, In a x -> 0 <= a) (fun _ => 0).
(** the l1 norm: no gradient of its own, so [grad] is the base class's (x - prox(x, sigmame)) / sigmame with sigmame = 1 *)
Definition lsoft (t a : R) : R := a - Rmax (- t) (Rmin t a).
Definition labs : LOp := mkLOp (fun x => Ok (VNum (Rsum (map Rabs x)))) (fun x tau => Ok (map (lsoft tau) x)) (fun x => Ok (Some (map (fun a => (a - lsoft 1 a) / 1) x))) false.
