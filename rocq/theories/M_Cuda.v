(** * Model of the GPU engine of the Simplex operator
    proximal/_Simplex_cuda.py and class _Simplex_cuda in proximal/Simplex.py (155-205). *)
From Coq Require Import ZArith.
From Verif Require Import Base Space MatFacts VSum M_Opts.
From Verif Require Export M_Proj.
Open Scope result_scope.

(** _Simplex_cuda.py:6-12, fun_jit_cuda: [k] is coeffs.shape[0], [co] the coefficients, [x] one row; the
    sum is accumulated from 0 in increasing order, min(max(v, lower), upper) as written. *)
Definition fun_jit_cuda (k : nat) (co x : nat -> R) (scalar lower upper mu : R) : R :=
  RS k (fun i => co i * Rmin (Rmax (x i - mu * co i) lower) upper) - scalar.

(** _Simplex_cuda.py:28, v/abs(v) on the device: division by zero raises nothing there and gives NaN (None);
    comparing anything with NaN is False. *)
Definition dev_sign (v : R) : option R := if Reqb v 0 then None else Some (v / Rabs v).
Definition dev_eq (a b : option R) : bool :=
  match a, b with Some a, Some b => Reqb a b | _, _ => false end.

(** _Simplex_cuda.py:14-33, bisect_jit_cuda *)
Fixpoint bisect_cuda_loop (f : R -> R) (ftol xtol : R) (n : nat) (a b fa : R) (c : option R) : result R :=
  match n with
  | O => match c with Some c => Ok c | None => Err UnboundLocalError end
  | S n' =>
      let c := (a + b) / 2 in
      if Rltb ((b - a) / 2) xtol then Ok c
      else let fc := f c in
      if Rltb (Rabs fc) ftol then Ok c
      else if dev_eq (dev_sign fc) (dev_sign fa) then bisect_cuda_loop f ftol xtol n' c b fc (Some c)
      else bisect_cuda_loop f ftol xtol n' a c fa (Some c)
  end.
Definition bisect_jit_cuda (f : R -> R) (lo hi : R) (maxiter : nat) (ftol xtol : R) : result R :=
  bisect_cuda_loop f ftol xtol maxiter lo hi (f lo) None.

(** One store y[i][j] = v into the output array. *)
Record store := mkStore { st_row : nat; st_col : nat; st_val : R }.
(** The output array in device memory. *)
Definition dmem := nat -> nat -> R.
Definition dwrite (m : dmem) (w : store) : dmem :=
  fun i j => if (Nat.eqb i (st_row w) && Nat.eqb j (st_col w))%bool then st_val w else m i j.

(** _Simplex_cuda.py:36-86, simplex_jit_cuda: what thread [i] does on an input of [rows] rows: the guard of
    line 64, the bracket (65-70), the bisection (72-83) and the stores (85-86).  A thread reads x and coeffs
    only, which no thread writes, so its computation is given as a value: the stores it issues, in program
    order.  [fuel] bounds the two doubling loops. *)
Definition cuda_thread (rows k : nat) (co : nat -> R) (x : nat -> nat -> R) (scalar lower upper : R)
    (maxiter : nat) (ftol xtol : R) (fuel : nat) (i : nat) : result (list store) :=
  if Nat.ltb i rows then
    let f := fun_jit_cuda k co (x i) scalar lower upper in
    b <- hp_bracket f fuel ;;
    c <- bisect_jit_cuda f (fst b) (snd b) maxiter ftol xtol ;;
    Ok (map (fun j => mkStore i j (Rmin (Rmax (x i j - c * co j) lower) upper)) (seq 0 k))
  else Ok [].

(** Simplex.py:189-191, the number of blocks; with t threads each, thread numbers threadIdx.x + blockIdx.x * blockDim.x
    (_Simplex_cuda.py:62) range over 0 .. blocks * t - 1. *)
Definition cuda_blocks (rows t : nat) : nat := (rows + t - 1) / t.
Definition cuda_thread_ids (rows t : nat) : list nat :=
  flat_map (fun blk => map (fun th => (th + blk * t)%nat) (seq 0 t)) (seq 0 (cuda_blocks rows t)).

(** The kernel launched on the device: any thread with a pending store may go next; the run ends when no
    thread has one left. *)
Fixpoint set_nth {A} (l : list A) (i : nat) (a : A) : list A :=
  match l, i with
  | [], _ => []
  | _ :: l, O => a :: l
  | b :: l, S i => b :: set_nth l i a
  end.
Inductive cuda_run : list (list store) -> dmem -> dmem -> Prop :=
| cuda_end : forall ps m, (forall p, In p ps -> p = []) -> cuda_run ps m m
| cuda_next : forall ps m m' t w ws, nth_error ps t = Some (w :: ws) ->
    cuda_run (set_nth ps t ws) (dwrite m w) m' -> cuda_run ps m m'.

(** Simplex.py:188-202 on a matrix of p rows of length q: y starts as whatever the memory holds (188,
    empty_like), the kernel is launched with coefficients one (176), bounds 0 and 1e10; [y0], [y] are the
    matrix before and after.  With more coefficients than columns the threads read beyond the rows. *)
Definition cuda_launch {p q} (t k : nat) (radius : R) (maxiter : nat) (ftol xtol : R) (fuel : nat)
    (x : Vec (p * q)) (y0 : dmem) (y : Vec (p * q)) : Prop :=
  (k <= q)%nat /\
  exists ps m,
    mapM (cuda_thread p k (fun _ => 1) (fun i j => get x (i * q + j)) radius 0 (10 ^ 10) maxiter ftol xtol fuel) (cuda_thread_ids p t) = Ok ps /\
    cuda_run ps y0 m /\ y = vtab (p * q) (fun s => m (s / q)%nat (s mod q)%nat).

(** _Simplex_cuda.prox (Simplex.py:179-205) with dims = (r, c): [y] is a possible result.  Without dims the class has no
    branch of its own for vectors and is not modelled; t = num_threads_per_blocks. *)
Definition cuda_prox {r c} (axis : Z) (t : nat) (radius : R) (maxiter : nat) (ftol xtol : R) (fuel : nat)
    (x : Vec (r * c)) (tau : R) (y0 : dmem) (y : Vec (r * c)) : Prop :=
  0 < tau /\
  exists k, simplex_init (r * c) (Some [r; c]) axis = Ok k /\
    if (axis =? 0)%Z
    then exists z, cuda_launch (p:=c) (q:=r) t k radius maxiter ftol xtol fuel (transp x) y0 z /\ y = transp z
    else cuda_launch (p:=r) (q:=c) t k radius maxiter ftol xtol fuel x y0 y.
