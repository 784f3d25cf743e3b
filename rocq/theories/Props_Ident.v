(** Property theorems for Ident: statements only; every proof is [exact] a lemma of P_Ident.v.
    Generated from the tagged lemmas of that file. *)
From Coq Require Import String Psatz.
From Verif Require Import Base Space Spec ConvexFacts Smooth VSum MatFacts Sep M_ProxOp SpecOps P_ProxOp M_Norms P_Norms M_L1 M_L2 P_L1 P_L2 P_L21 M_Objs S_L1 S_Lasso P_Lasso M_Loop LoopFacts SeqFacts M_PG SplitMath P_PG P_PG2 P_PG3 S_PG2 S_Seq Compact Fejer CountMath S_Iter P_Iter P_Iter2 P_Iter3 M_Proj P_Proj P_Count P_Pnp S_Sparse P_Sparse P_Denoise.
From Verif Require Import S_Ident.
From Verif Require Import P_Ident.
Open Scope result_scope.
Open Scope R_scope.


(** ProximalGradient with a smooth convex f (L-Lipschitz gradient), g = L1(sigma=lam), epsg = e,
    0 < tau <= 2/L, no relaxation or acceleration: for a solution xo and d > 0, the number
    of iterations whose result is not exactly 0 at some entry i with |grad f(xo)_i| <= e lam
    - d is at most |x0 - xo|^2/(tau d)^2, for any number of iterations; and from some
    iteration on every entry with |grad f(xo)_i| < e lam is exactly 0, as it is in xo *)
Theorem C108_l1 : forall n (of og : Op (Vec n)) f df L lam e x0 tau beta niterback accel,
  smooth_op of f df L -> is_L1 og lam -> 0 < lam -> 0 < e -> 0 < tau -> tau * L <= 2 -> accel = None \/ accel = Some "None"%string ->
  exists xs, xs 0%nat = x0 /\ (forall k, ProximalGradient of og x0 [e] (Some tau) false beta 1 (S k) niterback accel None = Ok (xs (S k), map xs (seq 1 (S k)))) /\
    forall xo, is_min (etot (fun x => f x + e * lam * sum_abs x)) xo ->
      (forall d (mark : nat -> bool), 0 < d -> (forall j, mark j = true -> exists i, (i < n)%nat /\ Rabs (get (df xo) i) <= e * lam - d /\ get (xs (S j)) i <> 0) ->
         forall k, RS k (fun j => if mark j then 1 else 0) * ((tau * d) * (tau * d)) <= norm2 (x0 [-] xo)) /\
      (exists N, forall j i, (N <= j)%nat -> (i < n)%nat -> Rabs (get (df xo) i) < e * lam -> get xo i = 0 /\ get (xs (S j)) i = 0).
Proof. exact C108_l1_l. Qed.
Print Assumptions C108_l1.

(** the same with g = Box(lower, upper), lower <= upper: for a solution xo of min f subject to
    the bounds and d > 0, the number of iterations whose result differs from xo at some
    entry i where xo is at its lower bound with grad f(xo)_i >= d or at its upper bound with
    grad f(xo)_i <= -d is at most |x0 - xo|^2/(tau d)^2; and from some iteration on, all
    entries of xo at a bound with a non-zero gradient pointing outwards are found exactly *)
Theorem C108_box : forall n (of og : Op (Vec n)) f df L (lu : nlist bounds n) e x0 tau beta niterback accel,
  smooth_op of f df L -> is_box og lu -> Forall bounds_ok (proj1_sig lu) -> 0 < e -> 0 < tau -> tau * L <= 2 -> accel = None \/ accel = Some "None"%string ->
  exists xs, xs 0%nat = x0 /\ (forall k, ProximalGradient of og x0 [e] (Some tau) false beta 1 (S k) niterback accel None = Ok (xs (S k), map xs (seq 1 (S k)))) /\
    forall xo, is_min (mkEfun (fun x => forall i, (i < n)%nat -> (forall l, lower_of lu i = Some l -> l <= get x i) /\ (forall u, upper_of lu i = Some u -> get x i <= u)) f) xo ->
      let strict d i := lower_of lu i = Some (get xo i) /\ d <= get (df xo) i \/ upper_of lu i = Some (get xo i) /\ get (df xo) i <= - d in
      (forall d (mark : nat -> bool), 0 < d -> (forall j, mark j = true -> exists i, (i < n)%nat /\ strict d i /\ get (xs (S j)) i <> get xo i) ->
         forall k, RS k (fun j => if mark j then 1 else 0) * ((tau * d) * (tau * d)) <= norm2 (x0 [-] xo)) /\
      (forall d, 0 < d -> exists N, forall j i, (N <= j)%nat -> (i < n)%nat -> strict d i -> get (xs (S j)) i = get xo i).
Proof. exact C108_box_l. Qed.
Print Assumptions C108_box.

(** the LASSO problem with the objects of the library: f = L2(Op=A, b=b, sigma=s), g =
    L1(sigma=lam), epsg = e, s |A v|^2 <= L |v|^2, 0 < tau <= 2/L, no acceleration: for a
    solution xo and d > 0, at most |x0 - xo|^2/(tau d)^2 iterations return a vector that is
    not exactly 0 at some entry i with |s A^T(b - A xo)|_i <= e lam - d; from some iteration
    on all entries with |s A^T(b - A xo)|_i < e lam are exactly 0 *)
Theorem C108_lasso : forall n (F : IPS) (of og : Op (Vec n)) (A : linop (Vec n) F) b s L lam e x0 tau beta niterback accel,
  is_L2 of A b s -> is_L1 og lam -> 0 < s -> 0 < lam -> 0 < e -> 0 < L -> (forall v, s * norm2 (A v) <= L * norm2 v) -> 0 < tau -> tau * L <= 2 -> accel = None \/ accel = Some "None"%string ->
  exists xs, xs 0%nat = x0 /\ (forall k, ProximalGradient of og x0 [e] (Some tau) false beta 1 (S k) niterback accel None = Ok (xs (S k), map xs (seq 1 (S k)))) /\
    forall xo, is_min (etot (lasso A b s (e * lam))) xo -> let c i := Rabs (s * get (ladj A (b [-] A xo)) i) in
      (forall d (mark : nat -> bool), 0 < d -> (forall j, mark j = true -> exists i, (i < n)%nat /\ c i <= e * lam - d /\ get (xs (S j)) i <> 0) ->
         forall k, RS k (fun j => if mark j then 1 else 0) * ((tau * d) * (tau * d)) <= norm2 (x0 [-] xo)) /\
      (exists N, forall j i, (N <= j)%nat -> (i < n)%nat -> c i < e * lam -> get xo i = 0 /\ get (xs (S j)) i = 0).
Proof. exact C108_lasso_l. Qed.
Print Assumptions C108_lasso.

(** the strict inequality is needed: f = 1/2 (x - 1)^2 and g = |x| on vectors of one entry, tau
    = 1/2, x0 = 1: the solution is 0, with |A^T(b - A xo)| = lam, and the iterates are
    (1/2)^k, never exactly 0 *)
Theorem C108_strict_refuted : forall (of og : Op (Vec 1)) beta niterback, let b : Vec 1 := vtab 1 (fun _ => 1) in is_L2 of (same_op 1) b 1 -> is_L1 og 1 ->
  is_min (etot (lasso (same_op 1) b 1 1)) vzero /\ Rabs (1 * get (ladj (same_op 1) (b [-] same_op 1 vzero)) 0) = 1 /\
  forall k, exists x tr, ProximalGradient of og b [1] (Some (1/2)) false beta 1 (S k) niterback None None = Ok (x, tr) /\ get x 0 = (1/2) ^ (S k).
Proof. exact C108_strict_refuted_l. Qed.
Print Assumptions C108_strict_refuted.

(** A the identity on vectors of two entries, b = (3, 1/2), s = lam = e = tau = L = 1: objects
    L2 and L1 exist, the solution is (2, 0) and |A^T(b - A xo)| is 1/2 < 1 at the second
    entry; from x0 = 0 at most 16 of the iterations have a non-zero second entry, however
    many are made *)
Example C108_example : let b : Vec 2 := vtab 2 (fun i => if Nat.eqb i 0 then 3 else 1/2) in let xo : Vec 2 := vtab 2 (fun i => if Nat.eqb i 0 then 2 else 0) in
  exists of og : Op (Vec 2), is_L2 of (same_op 2) b 1 /\ is_L1 og 1 /\ (forall v : Vec 2, 1 * norm2 (same_op 2 v) <= 1 * norm2 v) /\ is_min (etot (lasso (same_op 2) b 1 (1 * 1))) xo /\
    exists xs, (forall k, ProximalGradient of og vzero [1] (Some 1) false (1/2) 1 (S k) 10 None None = Ok (xs (S k), map xs (seq 1 (S k)))) /\
      forall mark : nat -> bool, (forall j, mark j = true -> get (xs (S j)) 1 <> 0) -> forall k, RS k (fun j => if mark j then 1 else 0) <= 16.
Proof. exact C108_example_l. Qed.
