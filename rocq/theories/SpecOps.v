(** * What it means for an operator object to implement a function

    [impl_prox o f]: for every x and every positive step, o.prox(x, tau) returns
    the proximal point of f.  Likewise for proxdual, call and grad. *)
From Verif Require Import Base Space Spec M_ProxOp.

Definition impl_prox {E : IPS} (o : Op E) (f : efun E) : Prop :=
  forall x tau, 0 < tau -> exists p, o_prox o x tau = Ok p /\ is_prox f tau x p.
Definition impl_proxdual {E : IPS} (o : Op E) (fs : efun E) : Prop :=
  forall x tau, 0 < tau -> exists p, o_proxdual o x tau = Ok p /\ is_prox fs tau x p.
Definition impl_call {E : IPS} (o : Op E) (f : efun E) : Prop :=
  forall x, edom f x -> o_call o x = Ok (VNum (eval f x)).
Definition impl_grad {E : IPS} (o : Op E) (f : E -> R) : Prop :=
  forall x, exists g, o_grad o x = Ok (Some g) /\ is_grad f x g.
