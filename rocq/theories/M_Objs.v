(** * The L2 and L1 objects as the solvers see them
    Class bodies (which methods are overridden) of proximal/L2.py:137-306 and proximal/L1.py:107-154. *)
From Verif Require Import Base Space MatFacts M_ProxOp M_L1 M_L2.
Open Scope result_scope.

(** L2 overrides __call__ (L2.py:194), prox (216) and grad (297) and inherits proxdual (ProxOperator.py:136-158);
    hasgrad is True (152).  prox changes attributes of the object (call counter, warm start, cached factor):
    [st0] is the state seen by __call__ and grad, [ch x tau] the state in which prox(x, tau) happens to be called. *)
Definition l2_body {E F : IPS} (ext : L2Ext E F) (cfg : L2Cfg E F) (st0 : L2St ext) (ch : E -> R -> L2St ext) : Body E :=
  mkBody (Some (fun x => Ok (VNum (l2_call ext cfg st0 x))))
         (Some (fun x tau => snd (l2_prox ext cfg (ch x tau) x tau)))
         None
         (Some (fun x => Ok (Some (l2_grad ext cfg st0 x))))
         true 1.

(** L1 overrides __call__ (L1.py:122), prox (139) and proxdual (149); hasgrad is False (112).  [c0], [ch x tau]: the
    values of the call counter. *)
Definition l1_body {n} (sig : nat -> nlist R n) (g : option (Vec n)) (c0 : nat) (ch : Vec n -> R -> nat) : Body (Vec n) :=
  mkBody (Some (fun x => Ok (VNum (l1_call sig g c0 x))))
         (Some (fun x tau => snd (l1_prox sig g (ch x tau) x tau)))
         (Some (fun x tau => snd (l1_proxdual sig g (ch x tau) x tau)))
         None false 1.
(** one number sigma for all entries *)
Definition const_sigma n (s : R) : nlist R n := exist _ (repeat s n) (repeat_length s n).
