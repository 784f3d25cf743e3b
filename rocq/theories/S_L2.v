(** * Specification vocabulary used by the statements proved in P_L2.v *)
From Coq Require Import Psatz.
From Verif Require Import Base Space M_L2.
Open Scope result_scope.

(** The documented function sigma/2 |Op x - b|^2 + alpha <q,x>. *)
Definition l2_fun {E F : IPS} (d : l2_data E F) (q : option E) (sigma alpha : R) (x : E) : R :=
  match d with
  | WithOp A _ b => sigma / 2 * norm2 (A x [-] b)
  | OnlyB b => sigma / 2 * norm2 (x [-] b)
  | NoB _ => sigma / 2 * norm2 x
  end + match q with Some q => alpha * << q, x >> | None => 0 end.
(** Every external solver returns an exact solution of the system it is given:
    (I + s A'A) v = y for s >= 0, and the regularised least-squares system. *)
Definition l2_exact {E F : IPS} (ext : L2Ext E F) : Prop :=
  (forall (A : linop E F) s y, 0 <= s ->
     let M := fun v => v [+] s [*] ladj A (A v) in
     M (x_div ext M y) = y /\
     M (x_cho_solve ext (x_cho_factor ext M) y) = y /\
     forall n w, M (x_iter ext M y n w) = y) /\
  (forall (B : linop E F) c y n w,
     let r := x_reginv ext B c y n w in ladj B (B r [-] c) [+] (r [-] y) = vzero).
(** The states in which the constructor-time product OpTb is up to date and the
    cached factor is that of the recorded tausigma. *)
Definition l2_fresh {E F : IPS} {ext : L2Ext E F} (cfg : L2Cfg E F) (sigma : R) (st : L2St ext) : Prop :=
  st_sigma st = sigma /\
  forall A e b, l2_d cfg = WithOp A e b ->
    st_OpTb st = sigma [*] ladj A b /\
    (st_tausigma st <> 0 -> st_cl st =
       Some (x_cho_factor ext (fun v => v [+] st_tausigma st [*] ladj A (A v)))).
(** Replace the dense solver option of a configuration. *)
Definition with_dense {E F : IPS} (cfg : L2Cfg E F) (d : l2_dense) : L2Cfg E F :=
  mkL2 (l2_d cfg) (l2_q cfg) (l2_alpha cfg) (l2_qgrad cfg) (l2_niter cfg) (l2_warm cfg) (l2_solv cfg) d.
(** Exact solvers on the real line. *)
Definition R_ext : L2Ext R_IPS R_IPS :=
  mkL2Ext (E:=R_IPS) (F:=R_IPS)
    (fun M (y : R) => y / M 1) R (fun M => M 1) (fun (c : R) (y : R) => y / c)
    (fun M (y : R) _ _ => y / M 1)
    (fun B (c : R) (y : R) _ _ => ((ladj B c : R) + y) / (1 + (ladj B (B 1) : R))).
