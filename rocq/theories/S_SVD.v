(** * Specification vocabulary used by the statements proved in P_SVD.v *)
From Coq Require Import Psatz.
From Verif Require Import Base Space MatFacts VSum M_Proj S_Proj2 SVD SVD2 M_SVD.
Open Scope result_scope.

(** numpy's svd returned a singular value decomposition of this matrix *)
Definition svd_at {m n} (svd : svdT m n) (X : Vec (m * n)) : Prop :=
  is_svd X (get (snd (fst (svd X)))) (colv (fst (fst (svd X)))) (rowv (snd (svd X))).
(** numpy's eigvalsh returned the eigenvalues of this matrix in ascending order *)
Definition eig_at {n} (eig : eigT n) (A : Vec (n * n)) : Prop :=
  (forall i j, (i <= j)%nat -> (j < n)%nat -> get (eig A) i <= get (eig A) j) /\
  exists w : nat -> Vec n, orthonormal n w /\ forall j, (j < n)%nat -> mv A (w j) = get (eig A) j [*] w j.
(** the nuclear norm ball *)
Definition nuclear_ball {m n} (r : R) (X : Vec (m * n)) : Prop := exists s, sing_vals X s /\ RS (Nat.min m n) s <= r.
(** 2 x 2: swapping the two terms *)
Definition pr2 {A} (a b : A) (i : nat) : A := if Nat.eqb i 0 then a else b.
(** an entrywise penalty: phi is even and smallest at 0, and pr is a proximal map of phi for this tau *)
Definition even_penalty (phi : R -> R) : Prop := forall z, phi (- z) = phi z /\ phi 0 <= phi z.
