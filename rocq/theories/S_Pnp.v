(** * Specification vocabulary used by the statements proved in P_Pnp.v *)
From Verif Require Import Base Space Spec MatFacts.
Open Scope R_scope.

(** D is firmly non-expansive *)
Definition firm {E : IPS} (D : E -> E) : Prop := forall x y, norm2 (D x [-] D y) <= << D x [-] D y, x [-] y >>.
(** the residual x - D(x), the noise that the denoiser D removes, is Lipschitz with constant e *)
Definition residual_lip {E : IPS} (e : R) (D : E -> E) : Prop := lipschitz e (fun x => x [-] D x).
(** x is left unchanged by the data step started from x - u and by the denoiser started from x + u *)
Definition balanced {E : IPS} (f : efun E) (tau : R) (D : E -> E) (x u : E) : Prop :=
  is_prox f tau (x [-] u) x /\ D (x [+] u) = x.
(** the denoiser returns D(x) for every x when called with the parameter t, and the dims given match the size of x *)
Definition denoises {m : nat} (den : Vec m -> R -> result (Vec m)) (dims : list nat) (t : R) (D : Vec m -> Vec m) : Prop :=
  fold_right Nat.mul 1%nat dims = m /\ forall x, den x t = Ok (D x).
(** a turn of the plane by 45 degrees that divides lengths by sqrt 2 *)
Definition turn2 (x : Vec 2) : Vec 2 := vtab 2 (fun i => match i with O => (get x 0 - get x 1) / 2 | _ => (get x 0 + get x 1) / 2 end).
(** every entry clipped to [0, 1] *)
Definition clip01 {n : nat} (x : Vec n) : Vec n := vtab n (fun i => Rmax 0 (Rmin 1 (get x i))).
