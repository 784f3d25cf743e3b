(** Property theorems for Opts: statements only; every proof is [exact] a lemma of P_Opts.v.
    Generated from the tagged lemmas of that file. *)
From Coq Require Import Psatz String ZArith.
From Verif Require Import Base Space Spec SpecOps ConvexFacts M_ProxOp M_Norms P_Norms MatFacts VSum M_L1 M_Proj P_Proj P_Proj2 P_Proj3 P_Seg P_Seg2 M_Pen M_Loop M_PG M_Multi M_Opts.
From Verif Require Import P_Opts.
Open Scope result_scope.


(** L2 accepts exactly the solver strings 'legacy', 'cg' and 'cgls' and raises ValueError for
    every other value, None included (whether or not an operator is given) *)
Theorem C68_l2_solver : forall solver : option string,
  (In solver [Some "legacy"; Some "cg"; Some "cgls"]%string -> exists normaleqs, l2_new solver = Ok normaleqs /\ (normaleqs = false <-> solver = Some "cgls"%string)) /\
  (~ In solver [Some "legacy"; Some "cg"; Some "cgls"]%string -> l2_new solver = Err ValueError).
Proof. exact C68_l2_solver_l. Qed.
Print Assumptions C68_l2_solver.

(** Simplex raises KeyError exactly for engines other than 'numpy', 'numba' and 'cuda',
    ValueError exactly for an accepted engine with dims that are not a pair, IndexError
    exactly when the axis of a pair is not -2, -1, 0 or 1, and is built otherwise; without
    numba every accepted engine gives the numpy class *)
Theorem C68_simplex : forall jit engine n dims axis,
  (~ In engine ["numpy"; "numba"; "cuda"]%string <-> simplex_new jit engine n dims axis = Err KeyError) /\
  (In engine ["numpy"; "numba"; "cuda"]%string ->
     (simplex_new jit engine n dims axis = Err ValueError <-> exists d, dims = Some d /\ List.length d <> 2%nat) /\
     (simplex_new jit engine n dims axis = Err IndexError <-> exists d, dims = Some d /\ List.length d = 2%nat /\ ~ (-2 <= axis <= 1)%Z) /\
     (dims = None -> exists e, simplex_new jit engine n dims axis = Ok (e, n)) /\
     (forall r c, dims = Some [r; c] -> (-2 <= axis <= 1)%Z ->
        exists e, simplex_new jit engine n dims axis = Ok (e, if (Z.even axis) then r else c)) /\
     (forall e k, simplex_new jit engine n dims axis = Ok (e, k) ->
        (e = SxNumba <-> engine = "numba"%string /\ jit = true) /\ (e = SxCuda <-> engine = "cuda"%string /\ jit = true))).
Proof. exact C68_simplex_l. Qed.
Print Assumptions C68_simplex.

(** GeneralizedProximalGradient with valid weights raises NotImplementedError for every
    acceleration string other than 'None', 'vandenberghe' and 'fista', before anything is
    computed *)
Theorem C68_acceleration_gpg : forall (E : IPS) (proxfs proxgs : list (Op E)) x0 tau epsg weights eta niter s,
  match weights with None => proxgs <> [] | Some w => List.length w = List.length proxgs /\ Rsum w = 1 end ->
  s <> "None"%string -> s <> "vandenberghe"%string -> s <> "fista"%string ->
  GeneralizedProximalGradient proxfs proxgs x0 tau epsg weights eta niter (Some s) = Err NotImplementedError.
Proof. exact C68_acceleration_gpg_l. Qed.
Print Assumptions C68_acceleration_gpg.

(** SCAD raises ValueError exactly when sigma <= 0 or a <= 2, Log exactly when sigma < 0 or
    gamma < 0, Log1 exactly when delta < 0, Quadratic exactly when Op is not square *)
Theorem C68_penalties :
  (forall sigma a, (scad_init sigma a = Err ValueError <-> sigma <= 0 \/ a <= 2) /\ (scad_init sigma a = Ok tt <-> 0 < sigma /\ 2 < a)) /\
  (forall sigma gamma, (log_new sigma gamma = Err ValueError <-> sigma < 0 \/ gamma < 0) /\ (log_new sigma gamma = Ok tt <-> 0 <= sigma /\ 0 <= gamma)) /\
  (forall delta, (log1_new delta = Err ValueError <-> delta < 0) /\ (log1_new delta = Ok tt <-> 0 <= delta)) /\
  (forall m n, (quadratic_new (Some (m, n)) = Err ValueError <-> m <> n) /\ (quadratic_new (Some (m, n)) = Ok tt <-> m = n)) /\
  quadratic_new None = Ok tt.
Proof. exact C68_penalties_l. Qed.
Print Assumptions C68_penalties.

(** the check of Log lets gamma = 0 through although its message says gamma must be positive;
    the object is then useless: no value is a number. For gamma > 0 every value is a number:
    sigma * log(gamma |a| + 1) / log(gamma + 1) *)
Theorem C68_log_zero_refuted : forall sigma a, 0 <= sigma ->
  (log_new sigma 0 = Ok tt /\ log_value sigma 0 a = Err ZeroDivisionError) /\
  (forall gamma, 0 < gamma -> log_value sigma gamma a = Ok (sigma * ln (gamma * Rabs a + 1) / ln (gamma + 1))).
Proof. exact C68_log_zero_refuted_l. Qed.
Print Assumptions C68_log_zero_refuted.

(** Simplex with dims = (r, c), tau > 0: axis = 0 projects the columns, axis = 1 and axis = -1
    project the rows, and axes outside -2..1 raise IndexError *)
Theorem C23_axis : forall r c P (x y : Vec (r * c)) tau, 0 < tau ->
  (simplex_prox_axis P 0 x tau = Ok y <-> forall j, (j < c)%nat -> P r (colv x j) = Ok (colv y j)) /\
  (forall axis, axis = 1%Z \/ axis = (-1)%Z -> (simplex_prox_axis P axis x tau = Ok y <-> forall i, (i < r)%nat -> P c (rowv x i) = Ok (rowv y i))) /\
  (forall axis, ~ (-2 <= axis <= 1)%Z -> simplex_prox_axis P axis x tau = Err IndexError).
Proof. exact C23_axis_l. Qed.
Print Assumptions C23_axis.

(** axis = -2, which python accepts as another name of axis 0, does not project the columns: on
    every square matrix it projects the rows like axis = 1, so that on the matrix with rows
    (1, 0), (1, 0) with radius 1 nothing changes although its columns are not on the
    simplex; on every matrix that is not square it raises ValueError *)
Theorem C23_axis_refuted :
  (forall n P (x : Vec (n * n)) tau, 0 < tau -> simplex_prox_axis P (-2) x tau = simplex_prox_axis P 1 x tau) /\
  (forall r c P (x : Vec (r * c)) tau, r <> c -> simplex_prox_axis P (-2) x tau = Err ValueError) /\
  (forall P, exact_simplex (P 2%nat) -> let x : Vec (2 * 2) := vtab 4 (fun p => match p with 0%nat | 2%nat => 1 | _ => 0 end) in
     simplex_prox_axis P (-2) x 1 = Ok x /\ ~ simplex_set 1 (colv x 0)).
Proof. exact C23_axis_refuted_l. Qed.
Print Assumptions C23_axis_refuted.

(** a solver string and a Simplex engine that are refused, and a pair of dims that is accepted;
    an exact projection on the simplex of two-entry vectors exists *)
Example C68_example : l2_new (Some "lsqr"%string) = Err ValueError /\ simplex_new true "jax" 4 None (-1) = Err KeyError /\
  simplex_new true "numba" 6 (Some [2; 3]%nat) (-1) = Ok (SxNumba, 3%nat) /\
  exists P : forall k, Vec k -> result (Vec k), exact_simplex (P 2%nat).
Proof. exact C68_example_l. Qed.
