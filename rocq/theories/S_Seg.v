(** * Specification vocabulary used by the statements proved in P_Seg.v *)
From Coq Require Import Psatz.
From Verif Require Import Base Space Spec VSum MatFacts M_Proj S_Proj M_TV S_TV3.
Open Scope result_scope.
Open Scope R_scope.

(** the one-vector projection is exact *)
Definition exact_simplex {n} (P : Vec n -> result (Vec n)) : Prop := forall v, exists p, P v = Ok p /\ is_proj (simplex_set 1) v p.
(** G computes the forward differences of an array of shape dims, axis by axis *)
Definition forward_gradient (dims : list nat) (G : linop (Vec (nprod dims)) (Vec (length dims * nprod dims))) : Prop :=
  forall x a i, (a < length dims)%nat -> (i < nprod dims)%nat -> get (G x) (a * nprod dims + i) = forward_diff dims (get x) a i.
(** admissible class standard deviations, and that of class c *)
Definition sds_ok (ncl : nat) (clsigmas : option (list R)) : Prop := match clsigmas with None => True | Some s => length s = ncl /\ forall a, In a s -> a <> 0 end.
Definition sd (clsigmas : option (list R)) (c : nat) : R := match clsigmas with None => 1 | Some s => nth c s 0 end.
(** sigma/2 sum_c sum_i x_ci (y_i - cl_c)^2 / sd_c + sum x_ci z_ci + alpha/2 sum_c (total variation of x_c) *)
Definition seg_obj (dims : list nat) (y : Vec (nprod dims)) (cl : list R) (sigma alpha : R) (clsigmas : option (list R)) (z : option (Vec (length cl * nprod dims))) (x : Vec (length cl * nprod dims)) : R :=
  let N := nprod dims in
  sigma / 2 * RS (length cl) (fun c => RS N (fun i => get x (c * N + i) * ((get y i - nth c cl 0) * (get y i - nth c cl 0) / sd clsigmas c))) +
  match z with None => 0 | Some z => << x, z >> end +
  alpha / 2 * RS (length cl) (fun c => variation dims (get (rowv x c))).
(** every pixel has a probability vector over the classes *)
Definition probabilities {ncl N} (x : Vec (ncl * N)) : Prop :=
  forall i, (i < N)%nat -> RS ncl (fun c => get x (c * N + i)) = 1 /\ forall c, (c < ncl)%nat -> 0 <= get x (c * N + i).
