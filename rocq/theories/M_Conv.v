(** * L2Convolve (proximal/L2.py:309-420), one-dimensional arrays (dims=None) and the [dims] branch

    Arrays are complex (real arrays are those with zero imaginary parts; numpy's fft returns complex arrays in
    either case).  numpy's fft is modelled by its defining sum.  sigma is a number, b and h are arrays. *)
From Verif Require Import Base Space Cplx.
Open Scope result_scope.

(** np.fft.fft(x, N): x cut or padded with zeros to N samples; np.fft.ifft(g) over all samples of g. *)
Definition fft (N : nat) (x : list C) : list C :=
  map (fun k => csum N (fun j => cmul (nth j x C0) (cis (- (2 * PI * (INR j * INR k) / INR N))))) (seq 0 N).
Definition ifft (g : list C) : list C :=
  let N := length g in
  map (fun j => cscal (/ INR N) (csum N (fun k => cmul (nth k g C0) (cis (2 * PI * (INR j * INR k) / INR N))))) (seq 0 N).

Record ConvCfg := mkConv {
  cv_N : nat; cv_sigma : R; cv_bf : list C; cv_hf : list C;
  cv_hbf : list C;    (* np.conj(hf) * bf *)
  cv_h2f : list R     (* np.abs(hf) ** 2 *)
}.
(** L2.py:345-386 with dims=None; a transform of length 0 raises. *)
Definition conv_init (h b : list C) (N : nat) (sigma : R) : result ConvCfg :=
  if Nat.eqb N 0 then Err ValueError else
  let bf := fft N b in
  let hf := fft N h in
  Ok (mkConv N sigma bf hf (map2 (fun h b => cmul (cconj h) b) hf bf) (map cabs2 hf)).

(** L2.py:388-395, [__call__], dims=None. *)
Definition conv_call (c : ConvCfg) (x : list C) : R :=
  let xf := fft (cv_N c) x in
  let r := ifft (map2 csub (cv_bf c) (map2 cmul (cv_hf c) xf)) in
  let nrm := sqrt (fold_right (fun z s => cabs2 z + s) 0 r) in
  cv_sigma c / 2 * (nrm * nrm).

(** L2.py:398-409, [prox], dims=None: the result is cut to len(x) samples (a slice: no error when it is shorter). *)
Definition conv_prox (c : ConvCfg) (x : list C) (tau : R) : result (list C) :=
  if Rleb tau 0 then Err ValueError else
  let xf := fft (cv_N c) x in
  let num := map2 (fun a hb => cadd a (cscal (cv_sigma c * tau) hb)) xf (cv_hbf c) in
  let yf := map2 (fun a h2 => cscal (/ (1 + cv_sigma c * tau * h2)) a) num (cv_h2f c) in
  Ok (firstn (length x) (ifft yf)).

(** L2.py:411-420, [grad], dims=None: np.take raises IndexError when len(x) > nfft. *)
Definition conv_grad (c : ConvCfg) (x : list C) : result (list C) :=
  let xf := fft (cv_N c) x in
  let g := map (cscal (cv_sigma c))
             (ifft (map2 (fun h r => cmul (cconj h) r) (cv_hf c) (map2 csub (map2 cmul (cv_hf c) xf) (cv_bf c)))) in
  if Nat.ltb (length g) (length x) then Err IndexError else Ok (firstn (length x) g).

(** ** [dims]: arrays of shape (o, n, i) in C order, n being the direction [dir]

    An array is the list of its entries; [fibre n i x a c] is the line along [dir] at position (a, c) and
    [unfibre o n i f] the raveled array with the given lines.  h is one-dimensional (the same for every line) or
    has a line for each position: in both cases a function of the position. *)
Definition fibre (n i : nat) (x : list C) (a c : nat) : list C :=
  map (fun k => nth ((a * n + k) * i + c)%nat x C0) (seq 0 n).
Definition unfibre (o n i : nat) (f : nat -> nat -> list C) : list C :=
  map (fun t => nth ((t / i) mod n)%nat (f (t / (n * i)) (t mod i))%nat C0) (seq 0 (o * (n * i))).
(** The transforms along one axis act line by line; the norm in [__call__] is over the whole array. *)
Definition nd_call (o n i : nat) (h b : nat -> nat -> list C) (N : nat) (sigma : R) (x : list C) : result R :=
  if negb (Nat.eqb (length x) (o * (n * i))) then Err ValueError       (* reshape *)
  else if Nat.eqb N 0 then Err ValueError else
  let r := fun a c => ifft (map2 csub (fft N (b a c)) (map2 cmul (fft N (h a c)) (fft N (fibre n i x a c)))) in
  let all := concat (map (fun a => concat (map (fun c => r a c) (seq 0 i))) (seq 0 o)) in
  let nrm := sqrt (fold_right (fun z s => cabs2 z + s) 0 all) in
  Ok (sigma / 2 * (nrm * nrm)).
(** With dims, np.take(y, range(n)) raises IndexError when nfft < n. *)
Definition nd_prox (o n i : nat) (h b : nat -> nat -> list C) (N : nat) (sigma : R) (x : list C) (tau : R) : result (list C) :=
  if Rleb tau 0 then Err ValueError else
  if negb (Nat.eqb (length x) (o * (n * i))) then Err ValueError
  else if Nat.eqb N 0 then Err ValueError else
  let y := fun a c =>
    let hf := fft N (h a c) in
    let num := map2 (fun u hb => cadd u (cscal (sigma * tau) hb)) (fft N (fibre n i x a c))
                 (map2 (fun h b => cmul (cconj h) b) hf (fft N (b a c))) in
    ifft (map2 (fun u h2 => cscal (/ (1 + sigma * tau * h2)) u) num (map cabs2 hf)) in
  if Nat.ltb N n then Err IndexError else Ok (unfibre o n i y).
Definition nd_grad (o n i : nat) (h b : nat -> nat -> list C) (N : nat) (sigma : R) (x : list C) : result (list C) :=
  if negb (Nat.eqb (length x) (o * (n * i))) then Err ValueError
  else if Nat.eqb N 0 then Err ValueError else
  let g := fun a c =>
    let hf := fft N (h a c) in
    map (cscal sigma) (ifft (map2 (fun h r => cmul (cconj h) r) hf (map2 csub (map2 cmul hf (fft N (fibre n i x a c))) (fft N (b a c))))) in
  if Nat.ltb N n then Err IndexError else Ok (unfibre o n i g).
