(** * Specification vocabulary used by the statements proved in P_Lasso.v *)
From Verif Require Import Base Space Spec VSum MatFacts M_ProxOp M_L1 M_L2 S_L2 M_Objs.
Open Scope R_scope.

(** the states an L2 object built with this sigma and initial guess can be in: after any sequence of prox calls *)
Inductive l2_reached {E F : IPS} (ext : L2Ext E F) (cfg : L2Cfg E F) (sigma : R) (x0 : option E) : L2St ext -> Prop :=
| reached_init : l2_reached ext cfg sigma x0 (l2_init ext cfg sigma x0)
| reached_prox : forall st x tau, l2_reached ext cfg sigma x0 st -> l2_reached ext cfg sigma x0 (fst (fst (l2_prox ext cfg st x tau))).
(** o is an object L2(Op=A, b=b, sigma=s), with any inner-solver options (the inner solvers being exact), in
    whatever states its methods happen to be called *)
Definition is_L2 {E F : IPS} (o : Op E) (A : linop E F) (b : F) (s : R) : Prop :=
  exists ext cfg x0 st0 ch explicit, l2_exact ext /\ l2_d cfg = WithOp A explicit b /\ l2_q cfg = None /\
    l2_reached ext cfg s x0 st0 /\ (forall x tau, l2_reached ext cfg s x0 (ch x tau)) /\ o = obj 2 (l2_body ext cfg st0 ch).
(** o is an object L2(b=b, sigma=s) *)
Definition is_L2b {F : IPS} (o : Op F) (b : F) (s : R) : Prop :=
  exists (ext : L2Ext F F) cfg x0 st0 ch, l2_exact ext /\ l2_d cfg = OnlyB b /\ l2_q cfg = None /\
    l2_reached ext cfg s x0 st0 /\ (forall x tau, l2_reached ext cfg s x0 (ch x tau)) /\ o = obj 2 (l2_body ext cfg st0 ch).
(** o is an object L1(sigma=lam), whatever its call counter *)
Definition is_L1 {n} (o : Op (Vec n)) (lam : R) : Prop :=
  exists c0 ch, o = obj 2 (l1_body (fun _ => const_sigma n lam) None c0 ch).
(** the LASSO objective s/2 |A x - b|^2 + lam sum_i |x_i| *)
Definition lasso {n} {F : IPS} (A : linop (Vec n) F) (b : F) (s lam : R) (x : Vec n) : R :=
  s / 2 * norm2 (A x [-] b) + lam * RS n (fun i => Rabs (get x i)).
