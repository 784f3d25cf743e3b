(** * Quadratic envelopes of a cardinality and of a rank bound

    proximal/QuadraticEnvelope.py: QuadraticEnvelopeCardIndicator (166-232) and
    QuadraticEnvelopeRankL2 (276-331).  [argsort] stands for np.argsort, assumed to
    return some sorting permutation (P_L0.v); np.sort(l) is l[np.argsort(l)].
    [svd] and [eigvalsh] are numpy's factorizations, as in M_SVD.v.
    Simplifications: real arrays; r0 is a non-negative int (the annotation of
    the constructor also allows an int array). *)
From Verif Require Import Base Space Sep M_ProxOp M_L1 M_Pen MatFacts VSum M_Proj M_L0 M_SVD.
Open Scope result_scope.

(** l[idx] and l[a:b] for 0 <= a, b *)
Definition take (l : list R) (idx : list nat) : list R := map (fun i => nth i l 0) idx.
Definition slice (a b : nat) (l : list R) : list R := firstn (b - a) (skipn a l).
(** l[r0 - 1], where index -1 is the last entry *)
Definition at_prev (r0 : nat) (l : list R) : R := nth (match r0 with O => length l - 1 | S k => k end) l 0.
(** np.min(np.where(c(l))[0]) and np.max(np.where(c(l))[0]): numpy refuses an empty reduction *)
Fixpoint where_min (c : R -> bool) (l : list R) : result nat :=
  match l with
  | [] => Err ValueError
  | a :: l => if c a then Ok 0%nat else i <- where_min c l ;; Ok (S i)
  end.
Fixpoint where_max (c : R -> bool) (l : list R) : result nat :=
  match l with
  | [] => Err ValueError
  | a :: l => match where_max c l with Ok i => Ok (S i) | Err e => if c a then Ok 0%nat else Err e end
  end.
(** np.cumsum, np.diff(l) > 0, np.argmax of a boolean array (first True, 0 if there is none) *)
Fixpoint cumsum (acc : R) (l : list R) : list R :=
  match l with [] => [] | a :: l => (acc + a) :: cumsum (acc + a) l end.
Fixpoint increases (l : list R) : list bool :=
  match l with a :: ((b :: _) as l') => Rltb 0 (b - a) :: increases l' | _ => [] end.
Fixpoint first_true (l : list bool) : option nat :=
  match l with [] => None | true :: _ => Some 0%nat | false :: l => option_map S (first_true l) end.
Definition argmax (l : list bool) : result nat :=
  match l with [] => Err ValueError | _ => Ok (match first_true l with Some i => i | None => 0%nat end) end.
(** the position of i in a permutation: idinv[id] = np.arange(n) (QuadraticEnvelope.py:200-201) *)
Fixpoint index_of (i : nat) (l : list nat) : nat :=
  match l with [] => 0%nat | j :: l => if Nat.eqb i j then 0%nat else S (index_of i l) end.

Section CardIndicator.
Context (argsort : list R -> list nat).
Definition np_sort (l : list R) : list R := take l (argsort l).

(** QuadraticEnvelopeCardIndicator.__call__ (QuadraticEnvelope.py:170-186).  For
    r0 = 0 line 175 divides by an empty array (or line 177 takes the argmax of
    an empty one): ValueError in both cases. *)
Definition ci_call {n} (r0 : nat) (x : Vec n) : result pyval :=
  if (n <=? r0)%nat || (nnz x <=? r0)%nat then Ok (VNum 0) else
  if Nat.eqb r0 0 then Err ValueError else
  let xs := rev (np_sort (map Rabs (lst x))) in
  let sums := cumsum 0 (rev xs) in
  let sums := map2 Rdiv (skipn (length sums - r0) sums) (map INR (seq 1 r0)) in
  let tmp := increases sums in
  k <- argmax tmp ;;
  let k := if Nat.eqb k 0 && negb (nth k tmp false) then (r0 - 1)%nat else k in
  Ok (VNum (1 / 2 * ((INR k + 1) * (nth k sums 0 * nth k sums 0) - Rsum (map (fun a => a * a) (skipn (r0 - k - 1) xs))))).

(** line 202: the r0 largest values, and rho times the others *)
Definition ci_scale (rho : R) (r0 : nat) (rsort : list R) : list R := firstn r0 rsort ++ map (Rmult rho) (skipn r0 rsort).
(** lines 214-219: the level sI of the candidate s *)
Definition ci_level (rho : R) (r0 : nat) (rsort rnew : list R) (s : R) : result R :=
  i1 <- where_min (fun a => Rleb a s) rnew ;;
  i2 <- where_max (fun a => Rleb s a) rnew ;;
  Ok (rho * Rsum (slice i1 (i2 + 1) rsort) / ((INR r0 - INR i1) * rho + (INR i2 + 1 - INR r0) * 1)).
(** lines 221-226 *)
Definition ci_clip (r0 : nat) (rnew : list R) (sI : R) : list R :=
  map (fun a => Rmax a sI) (firstn r0 rnew) ++ map (fun a => Rmin a sI) (skipn r0 rnew).
(** lines 213-230; when the loop ends without break, x is not bound at line 232 *)
Fixpoint ci_search (rho : R) (r0 : nat) (rsort rnew : list R) (z1 : R) (zs : list R) : result (list R) :=
  match zs with
  | [] => Err UnboundLocalError
  | z2 :: zs =>
      sI <- ci_level rho r0 rsort rnew ((z1 + z2) / 2) ;;
      if Rleb z2 sI && Rleb sI z1 then Ok (ci_clip r0 rnew sI) else ci_search rho r0 rsort rnew z2 zs
  end.
(** lines 202-230 on the sorted magnitudes, before the inverse permutation and the signs *)
Definition ci_core (rho : R) (r0 : nat) (rsort : list R) : result (list R) :=
  let rnew := ci_scale rho r0 rsort in
  if Rltb (rho * nth r0 rsort 0) (at_prev r0 rsort) then Ok rnew else
  istart <- where_min (fun a => Rleb a (nth r0 rnew 0)) rnew ;;
  iend <- where_max (fun a => Rleb (at_prev r0 rnew) a) rnew ;;
  match rev (np_sort (slice istart (iend + 1) rnew)) with
  | [] => Err IndexError
  | z1 :: zs => ci_search rho r0 rsort rnew z1 zs
  end.
(** QuadraticEnvelopeCardIndicator.prox (QuadraticEnvelope.py:188-232) *)
Definition ci_prox {n} (r0 : nat) (y : Vec n) (tau : R) : result (Vec n) :=
  let rho := 1 / tau in
  if Rleb rho 1 then Ok (vmap (hard tau) y) else
  if (n <=? r0)%nat then Ok y else
  let r := map Rabs (lst y) in
  let id := argsort (map Ropp r) in
  x <- ci_core rho r0 (take r id) ;;
  let x : Vec n := vtab n (fun i => nth (index_of i id) x 0 * sgn (get y i)) in
  Ok (/ (rho - 1) [*] (rho [*] y [-] x)).
Definition ci_body {n} (r0 : nat) : Body (Vec n) :=
  mkBody (Some (ci_call r0)) (Some (ci_prox r0)) None None false 1.

(** ** QuadraticEnvelopeRankL2 (QuadraticEnvelope.py:276-331) *)
(** lines 283-290; np.sum of the float returned by the penalty is that float *)
Definition rl_call {m n} (eigvalsh : eigT n) (r0 : nat) (M x : Vec (m * n)) : result pyval :=
  pen <- ci_call r0 (sqrt_eigs (eigvalsh (gram x))) ;;
  Ok (VNum (as_num pen + 1 / 2 * norm (x [-] M))).

(** lines 311-327: Some s when the loop breaks, None when it runs to the end.
    p[k + 1] is only looked up when p[k] <= s. *)
Fixpoint rl_loop (rho : R) (r0 : nat) (yk p : list R) (ind : list nat) (k : nat) (a b : R) : result (option R) :=
  match ind with
  | [] => Ok None
  | ii :: ind =>
      let a := if (ii <? r0)%nat then a + (rho + 1) / rho else a - 1 / rho in
      let b := if (ii <? r0)%nat then b + (rho + 1) / rho * nth ii yk 0 else b - (rho + 1) / rho * nth ii yk 0 in
      if Reqb a 0 then rl_loop rho r0 yk p ind (S k) a b else
      let s := b / a in
      if Rleb (nth k p 0) s then
        match nth_error p (S k) with
        | None => Err IndexError
        | Some q => if Rleb s q then Ok (Some s) else rl_loop rho r0 yk p ind (S k) a b
        end
      else rl_loop rho r0 yk p ind (S k) a b
  end.
(** lines 299-327: from the singular values of Y to those of Z *)
Definition rl_core (rho : R) (r0 : nat) (yk : list R) : result (list R) :=
  let n := length yk in
  let r := firstn r0 yk ++ map (Rmult (1 + rho)) (skipn r0 yk) in
  let ind := argsort r in
  let p := take r ind in
  let a := (INR n - INR r0) / rho in
  let b := (rho + 1) / rho * Rsum (skipn r0 yk) in
  o <- rl_loop rho r0 yk p ind 0 a b ;;
  Ok (match o with
      | None => r
      | Some s => map (fun t => Rmax s t) (firstn r0 yk) ++ map (fun t => Rmin s ((1 + rho) * t)) (skipn r0 yk)
      end).
(** lines 292-331 *)
Definition rl_prox {m n} (svd : svdT m n) (r0 : nat) (M x : Vec (m * n)) (tau : R) : result (Vec (m * n)) :=
  let rho := 1 / tau in
  let Y := / (1 + rho) [*] (M [+] rho [*] x) in
  let '(U, yk, Vh) := svd Y in
  zk <- rl_core rho r0 (lst yk) ;;
  Ok (x [+] / rho [*] (M [-] usv U (vtab _ (nthr zk)) Vh)).
Definition rl_body {m n} (svd : svdT m n) (eigvalsh : eigT n) (r0 : nat) (M : Vec (m * n)) : Body (Vec (m * n)) :=
  mkBody (Some (rl_call eigvalsh r0 M)) (Some (rl_prox svd r0 M)) None None false 1.
End CardIndicator.
