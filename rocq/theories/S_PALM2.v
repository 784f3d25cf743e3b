(** * Specification vocabulary used by the statements proved in P_PALM2.v *)
From Coq Require Import Psatz.
From Verif Require Import Base Space Spec M_ProxOp M_PALM.
Open Scope result_scope.

(** H(x,y) = (d - x y)^2 / 2 on the reals: the 1 x 1 x 1 low-rank factorisation *)
Definition lr1 (d : R) : Bilin R_IPS R_IPS := mkBilin (E:=R_IPS) (F:=R_IPS)
  (fun x y => Ok ((d - x * y) * (d - x * y) / 2)) (fun y x => Ok (- (d - x * y) * y : R_IPS)) (fun x y => Ok (- (d - x * y) * x : R_IPS))
  (fun x => Ok (x * x)) (fun y => Ok (y * y)).
(** projection on the non-negative reals *)
Definition nonneg1 : Op R_IPS := mkOp (E:=R_IPS) (fun x => Ok (VBool (Rleb 0 x))) (fun x tau => if Rltb 0 tau then Ok (Rmax x 0 : R_IPS) else Err ValueError) (fun x tau => Err NotImplementedError) (fun _ => Ok None) false.
(** quadratic lower model with constant L *)
Definition q_lower {E : IPS} (h : E -> R) (dh : E -> E) (L : R) : Prop :=
  forall x y, h x + << dh x, y [-] x >> - L / 2 * norm2 (y [-] x) <= h y.
(** x^(k+1) = prox(z - grad H(z, y)/c_k), z = x^k + a (x^k - x^(k-1)); same for y *)
Definition ipalm_doc {E F : IPS} (f : efun E) (g : efun F) (gx : E -> F -> E) (gy : E -> F -> F) (lx : E -> R) (ly : F -> R) (gf gg ax ay : R)
  (xs : nat -> E) (ys : nat -> F) (n : nat) : Prop :=
  forall j, (j < n)%nat ->
    let zx := xs j [+] ax [*] (xs j [-] xs (pred j)) in let tf := 1 / (gf * ly (ys j)) in
    let zy := ys j [+] ay [*] (ys j [-] ys (pred j)) in let tg := 1 / (gg * lx (xs (S j))) in
    0 < ly (ys j) /\ 0 < lx (xs (S j)) /\
    is_prox f tf (zx [-] tf [*] gx zx (ys j)) (xs (S j)) /\ is_prox g tg (zy [-] tg [*] gy (xs (S j)) zy) (ys (S j)).
