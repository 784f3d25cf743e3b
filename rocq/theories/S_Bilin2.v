(** * Specification vocabulary used by the statements proved in P_Bilin2.v *)
From Coq Require Import Psatz.
From Verif Require Import Base Space MatFacts M_Bilin M_PALM.
Open Scope result_scope.

(** the first a entries *)
Definition vfst {a b} (v : Vec (a + b)) : Vec a := vtab a (get v).
(** the last b entries *)
Definition vsnd {a b} (v : Vec (a + b)) : Vec b := vtab b (fun i => get v (a + i)).
(** a list seen as an array of n entries *)
Definition to_vec (n : nat) (l : list R) : result (Vec n) :=
  match Nat.eq_dec (length l) n with left e => Ok (exist _ l e : Vec n) | right _ => Err ValueError end.
(** LowRankFactorizedMatrix through the interface PALM uses *)
Definition lr_bilin (H : LR) (n k m : nat) : Bilin (Vec (n * k)) (Vec (k * m)) := mkBilin
  (fun x y => fst (lr_call H (lst x) (Some (lst y))))
  (fun y x => g <- lr_gradx (updatey H (lst y)) (lst x) ;; to_vec (n * k) g)
  (fun x y => g <- lr_grady (updatex H (lst x)) (lst y) ;; to_vec (k * m) g)
  (fun x => lr_lx H (lst x)) (fun y => lr_ly H (lst y)).
