(** * Specification vocabulary used by the statements proved in P_Cx*.v *)
From Verif Require Import Base Space Spec VSum MatFacts Cplx.
Open Scope R_scope.

(** the modulus of a complex number, the array of moduli *)
Definition cmod (z : C) : R := sqrt (cabs2 z).
Definition cmodulus {n} (z : CArr n) : Vec n := vtab n (fun i => cmod (cg z i)).
(** a function of n real numbers that does not see their signs *)
Definition sign_free {n} (F : efun (Vec n)) : Prop := forall x y : Vec n, (forall i, (i < n)%nat -> Rabs (get x i) = Rabs (get y i)) ->
  (edom F x <-> edom F y) /\ (edom F x -> eval F x = eval F y).
(** the same function of the moduli of n complex numbers *)
Definition on_moduli {n} (F : efun (Vec n)) : efun (CArr n) :=
  mkEfun (E:=CArr n) (fun z => edom F (cmodulus z)) (fun z => eval F (cmodulus z)).
(** w has the moduli |p_i| and, where p_i > 0 and z_i <> 0, the phase of z_i (the opposite one where p_i < 0) *)
Definition turned {n} (z : CArr n) (p : Vec n) (w : CArr n) : Prop := forall i, (i < n)%nat ->
  cscal (cmod (cg z i)) (cg w i) = cscal (get p i) (cg z i) /\ cmod (cg w i) = Rabs (get p i).
(** phi(|z_1|) + ... + phi(|z_n|) *)
Definition csumf {n} (phi : R -> R) (z : CArr n) : R := RS n (fun i => phi (cmod (cg z i))).
(** {z : |z_1| + ... + |z_n| <= r} *)
Definition cl1_ball {n} (r : R) (z : CArr n) : Prop := RS n (fun i => cmod (cg z i)) <= r.
(** the number of non-zero entries is at most r *)
Definition ccount {n} (z : CArr n) : nat := length (filter (fun i => if Req_EM_T (cmod (cg z i)) 0 then false else true) (seq 0 n)).
Definition cl0_ball {n} (r : nat) (z : CArr n) : Prop := (ccount z <= r)%nat.
(** Re <v, x> with conjugation: sum_i Re(conj(v_i) x_i) *)
Definition cre {n} (v x : CArr n) : R := RS n (fun i => fst (cmul (cconj (cg v i)) (cg x i))).
(** all imaginary parts are zero *)
Definition is_real {n} (x : CArr n) : Prop := forall i, (i < n)%nat -> snd (cg x i) = 0.
