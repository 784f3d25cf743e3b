(** * The operators of total-variation denoising on flat arrays (tutorials/denoising.py, adaptivepd.py, brainmri.py)

    L21(ndim, sigma) acts on the output of a gradient: ndim * N entries, axis by axis. *)
From Coq Require Import ZArith.
From Verif Require Import Base Space M_ProxOp VSum M_Bilin MatFacts M_TV M_Seg.
Open Scope result_scope.
Open Scope R_scope.

(** the entries of a result, as an array of the same size (every method of L21 and TV returns an array of the size of x) *)
Definition sized {n} (r : result (list R)) : result (Vec n) := l <- r ;; as_vec n l.

(** L21 (proximal/L21.py:61-85): __call__ (66-69), prox (71-77) and proxdual (79-85) without their tau check,
    which [obj] adds; hasgrad is False (62) and grad is the base class's *)
Definition l21_flat {n} (ndim : nat) (sigma : R) : Body (Vec n) :=
  mkBody (Some (fun x : Vec n => resh ndim (lst x) (fun k => Ok (VNum (sigma * RS k (colnorm ndim k (lst x)))))))
    (Some (fun (x : Vec n) tau => sized (resh ndim (lst x) (fun k =>
       Ok (tab ndim k (fun a i => (1 - tau * sigma / Rmax (colnorm ndim k (lst x) i) (tau * sigma)) * ent k (lst x) a i))))))
    (Some (fun (x : Vec n) tau => sized (resh ndim (lst x) (fun k =>
       Ok (tab ndim k (fun a i => sigma * ent k (lst x) a i / Rmax (colnorm ndim k (lst x) i) sigma))))))
    None false 1.

(** TV (proximal/TV.py:42-385) used as an operator on arrays of nprod dims entries.  [ch x tau] is the number of iterations in force when
    prox is called with x and tau: self.niter, or self.niter(self.count) (TV.py:90-93).  hasgrad is True (TV.py:50) although TV defines no grad. *)
Definition tv_flat (dims : list nat) (sigma rtol : R) (ws : list R) (ch : Vec (nprod dims) -> R -> Z) : Body (Vec (nprod dims)) :=
  mkBody (Some (fun x => c <- tv_call sigma dims (lst x) ;; Ok (VNum c)))
    (Some (fun x tau => sized (tv_run sigma rtol ws dims (ch x tau) (lst x) tau)))
    None None true 1.
