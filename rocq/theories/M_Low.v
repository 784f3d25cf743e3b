(** * Objects of the classes Nuclear, NuclearBall, L1Ball and Hankel

    Each class passes (None, False) to ProxOperator.__init__ and defines __call__ and
    prox only, so proxdual, grad and the algebra are inherited (ProxOperator.py). *)
From Verif Require Import Base Space M_ProxOp M_Proj M_L0 SVD M_SVD.
Open Scope result_scope.

(** Nuclear (proximal/Nuclear.py:58-80); __call__ returns a float *)
Definition nuclear_body {m n} (svd : svdT m n) (eigvalsh : eigT n) (sigma : weight) : Body (Vec (m * n)) :=
  mkBody (Some (fun x => v <- nuclear_call eigvalsh sigma x ;; Ok (VNum v))) (Some (nuclear_prox svd sigma)) None None false 1.
(** NuclearBall (proximal/Nuclear.py:108-130); __call__ returns a bool, tol keeps its default 1e-5 *)
Definition nball_body {m n} (svd : svdT m n) (radius : R) (maxiter : nat) (xtol : R) (fuel : nat) : Body (Vec (m * n)) :=
  mkBody (Some (fun x => Ok (VBool (nball_call svd radius (1 / 10 ^ 5) x)))) (Some (nball_prox svd radius maxiter xtol fuel)) None None false 1.
(** L1Ball (proximal/L1.py:182-201) on arrays with n entries; tol keeps its default 1e-4 *)
Definition l1ball_body {n} (radius : R) (maxiter : nat) (xtol : R) (fuel : nat) : Body (Vec n) :=
  mkBody (Some (fun x => Ok (VBool (l1ball_call radius (1 / 10 ^ 4) x)))) (Some (l1ball_prox radius maxiter xtol fuel)) None None false 1.
(** Hankel (proximal/Hankel.py:26-38); __call__ returns a bool *)
Definition hankel_body {m n} : Body (Vec (m * n)) :=
  mkBody (Some (fun x => Ok (VBool (hankel_call x)))) (Some hankel_prox) None None false 1.
