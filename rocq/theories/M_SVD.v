(** * Operators on the singular values: Nuclear, NuclearBall, SingularValuePenalty

    A matrix with m rows and n columns is a [Vec (m * n)] (C order, as given by
    x.reshape(dim) and X.ravel()).  numpy's factorizations are arguments of the
    model: [svd] stands for np.linalg.svd(X, full_matrices=False), which returns
    U (m x k), S (k), Vh (k x n) with k = min(m, n), and [eigvalsh] for
    np.linalg.eigvalsh on an n x n matrix.  Simplification: real matrices (the
    code also transposes without conjugation in X.T @ X). *)
From Verif Require Import Base Space M_ProxOp M_L1 MatFacts VSum M_Proj.
Open Scope result_scope.

Definition svdT (m n : nat) : Type := Vec (m * n) -> Vec (m * Nat.min m n) * Vec (Nat.min m n) * Vec (Nat.min m n * n).
Definition eigT (n : nat) : Type := Vec (n * n) -> Vec n.

(** np.dot(U * p, Vh) (Nuclear.py:79, SingularValuePenalty.py:58) and U @ np.diag(p) @ Vh (projection/Nuclear.py:51) *)
Definition usv {m n k} (U : Vec (m * k)) (p : Vec k) (V : Vec (k * n)) : Vec (m * n) :=
  vtab (m * n) (fun q => RS k (fun l => get U ((q / n) * k + l) * get p l * get V (l * n + q mod n))).
(** X.T @ X (Nuclear.py:65, SingularValuePenalty.py:50) *)
Definition gram {m n} (X : Vec (m * n)) : Vec (n * n) :=
  vtab (n * n) (fun q => RS m (fun i => get X (i * n + q / n) * get X (i * n + q mod n))).
(** np.sqrt(eigs) after eigs[eigs < 0] = 0 (Nuclear.py:66-67, SingularValuePenalty.py:51-52) *)
Definition sqrt_eigs {n} (e : Vec n) : Vec n := vtab n (fun i => sqrt (if Rltb (get e i) 0 then 0 else get e i)).

(** numpy broadcasting of two 1-D arrays in a product *)
Definition bmul (a b : list R) : result (list R) :=
  if Nat.eqb (length a) (length b) then Ok (map2 Rmult a b)
  else match a, b with
       | [s], _ => Ok (map (fun t => s * t) b)
       | _, [t] => Ok (map (fun s => s * t) a)
       | _, _ => Err ValueError
       end.

(** ** Nuclear (proximal/Nuclear.py:58-80); sigma is a number or an array *)
Inductive weight := WNum (s : R) | WArr (l : list R).

Section Nuclear.
Context {m n : nat}.
Notation k := (Nat.min m n).

(** 63-67; np.flip of a number is the number *)
Definition nuclear_call (eigvalsh : eigT n) (sigma : weight) (x : Vec (m * n)) : result R :=
  let r := lst (sqrt_eigs (eigvalsh (gram x))) in
  match sigma with
  | WNum s => Ok (Rsum (map (fun t => s * t) r))
  | WArr l => p <- bmul (rev l) r ;; Ok (Rsum p)
  end.

(** 69-80: the thresholds tau * sigma, broadcast against S by _softthreshold *)
Definition nuclear_weights (sigma : weight) : result (nat -> R) :=
  match sigma with
  | WNum s => Ok (fun _ => s)
  | WArr l =>
      let l := if Nat.ltb 1 (length l) then firstn k l else l in
      if Nat.eqb (length l) k then Ok (nthr l)
      else match l with [s] => Ok (fun _ => s) | _ => Err ValueError end
  end.
Definition nuclear_prox (svd : svdT m n) (sigma : weight) (x : Vec (m * n)) (tau : R) : result (Vec (m * n)) :=
  if Rleb tau 0 then Err ValueError else
  let '(U, Sv, Vh) := svd x in
  w <- nuclear_weights sigma ;;
  Ok (usv U (vtab k (fun i => soft (tau * w i) (get Sv i))) Vh).

(** ** NuclearBall (proximal/Nuclear.py:120-130, projection/Nuclear.py:48-51); np.linalg.norm(X, ord="nuc") sums the singular values *)
Definition nball_call (svd : svdT m n) (radius tol : R) (x : Vec (m * n)) : bool :=
  let '(_, Sv, _) := svd x in Rltb (RS k (get Sv) - radius) tol.
Definition nball_prox (svd : svdT m n) (radius : R) (maxiter : nat) (xtol : R) (fuel : nat) (x : Vec (m * n)) (tau : R) : result (Vec (m * n)) :=
  if Rleb tau 0 then Err ValueError else
  let '(U, Sv, Vh) := svd x in
  p <- l1_ball_proj radius maxiter xtol fuel Sv ;;
  Ok (usv U p Vh).

(** ** SingularValuePenalty (proximal/SingularValuePenalty.py:48-59); the penalty object is given by its call, which receives
    n numbers, and its prox, which receives k numbers *)
Definition svp_call (eigvalsh : eigT n) (pcall : Vec n -> result R) (x : Vec (m * n)) : result R :=
  pcall (sqrt_eigs (eigvalsh (gram x))).
Definition svp_prox (svd : svdT m n) (pprox : Vec k -> R -> result (Vec k)) (x : Vec (m * n)) (tau : R) : result (Vec (m * n)) :=
  if Rleb tau 0 then Err ValueError else
  let '(U, Sv, Vh) := svd x in
  p <- pprox Sv tau ;;
  Ok (usv U p Vh).
End Nuclear.
