(** * Model of proximal/L2.py, class L2 (lines 137-306) *)
From Verif Require Import Base Space M_ProxOp.
Open Scope result_scope.

(** The data term: which of Op and b were given (L2.py:152-153).  With Op but no
    b every method falls through to the branch that ignores Op. *)
Inductive l2_data (E F : IPS) :=
| WithOp (A : linop E F) (explicit : bool) (b : F)
| OnlyB (b : E)
| NoB (ignoredOp : option (linop E F)).
Arguments WithOp {E F} _ _ _.
Arguments OnlyB {E F} _.
Arguments NoB {E F} _.

(** Accepted values of [solver] (168-177) and the three behaviours of
    [densesolver] (230-247). *)
Inductive l2_solver := Legacy | Cg | Cgls.
Inductive l2_dense := DenseDefault | DenseNamed | Factorize.

Record L2Cfg (E F : IPS) := mkL2 {
  l2_d : l2_data E F;
  l2_q : option E;
  l2_alpha : R;
  l2_qgrad : bool;
  l2_niter : nat -> nat;       (* int niter = constant function *)
  l2_warm : bool;
  l2_solv : l2_solver;
  l2_dns : l2_dense
}.
Arguments mkL2 {E F} _ _ _ _ _ _ _ _.
Arguments l2_d {E F} _.
Arguments l2_q {E F} _.
Arguments l2_alpha {E F} _.
Arguments l2_qgrad {E F} _.
Arguments l2_niter {E F} _ _.
Arguments l2_warm {E F} _.
Arguments l2_solv {E F} _.
Arguments l2_dns {E F} _.

(** External numerical code: MatrixMult.div, scipy cho_factor/cho_solve,
    lsqr/cg, and pylops regularized_inversion with an identity regulariser. *)
Record L2Ext (E F : IPS) := mkL2Ext {
  x_div : (E -> E) -> E -> E;
  x_fac : Type;
  x_cho_factor : (E -> E) -> x_fac;
  x_cho_solve : x_fac -> E -> E;
  x_iter : (E -> E) -> E -> nat -> option E -> E;
  x_reginv : linop E F -> F -> E -> nat -> option E -> E
}.
Arguments mkL2Ext {E F} _ _ _ _ _ _.
Arguments x_div {E F} _ _ _.
Arguments x_fac {E F} _.
Arguments x_cho_factor {E F} _ _.
Arguments x_cho_solve {E F} _ _ _.
Arguments x_iter {E F} _ _ _ _ _.
Arguments x_reginv {E F} _ _ _ _ _ _.

Section L2.
Context {E F : IPS} (ext : L2Ext E F).

(** The mutable attributes: count, x0, sigma (a public attribute), tausigma,
    cl, and OpTb which is computed once in the constructor. *)
Record L2St := mkL2St {
  st_count : nat;
  st_x0 : option E;
  st_sigma : R;
  st_tausigma : R;
  st_cl : option (x_fac ext);
  st_OpTb : E
}.

(** Constructor, L2.py:152-192. *)
Definition l2_init (cfg : L2Cfg E F) (sigma : R) (x0 : option E) : L2St :=
  mkL2St 0 x0 sigma 0 None
    (match l2_d cfg with
     | WithOp A _ b => sigma [*] ladj A b
     | _ => vzero
     end).

(** L2.py:194-203. *)
Definition l2_call (cfg : L2Cfg E F) (st : L2St) (x : E) : R :=
  let sigma := st_sigma st in
  let f :=
    match l2_d cfg with
    | WithOp A _ b => sigma / 2 * norm (A x [-] b) ^ 2
    | OnlyB b => sigma / 2 * norm (x [-] b) ^ 2
    | NoB _ => sigma / 2 * norm x ^ 2
    end in
  match l2_q cfg with Some q => f + l2_alpha cfg * << q, x >> | None => f end.

(** x - tau*alpha*q, the effect of lines 227-228, 267-268, 287-288, 292-293. *)
Definition sub_q (cfg : L2Cfg E F) (tau : R) (y : E) : E :=
  match l2_q cfg with Some q => y [-] (tau * l2_alpha cfg) [*] q | None => y end.

(** L2.py:205-295.  Returns the new attribute values, the content of the
    *caller's* array x after the call (lines 266-268 and 291-293 bind y/num to
    x itself and then use [-=]), and the result. *)
Definition l2_prox (cfg : L2Cfg E F) (st0 : L2St) (x : E) (tau : R) : L2St * E * result E :=
  let st := mkL2St (S (st_count st0)) (st_x0 st0) (st_sigma st0) (st_tausigma st0)
                   (st_cl st0) (st_OpTb st0) in                            (* 205-212 *)
  if Rleb tau 0 then (st, x, Err ValueError)                               (* 215 *)
  else
    let sigma := st_sigma st in
    let niter := l2_niter cfg (st_count st) in                             (* 218-221 *)
    let warmed (st : L2St) (r : E) :=
      mkL2St (st_count st) (if l2_warm cfg then Some r else st_x0 st) (st_sigma st)
             (st_tausigma st) (st_cl st) (st_OpTb st) in                   (* 283-284 *)
    match l2_d cfg with
    | WithOp A explicit b =>
        let ATA := fun v => ladj A (A v) in
        let y := sub_q cfg tau (x [+] tau [*] st_OpTb st) in               (* 225-228 *)
        if explicit then
          match l2_dns cfg with
          | Factorize =>                                                   (* 242-247 *)
              let st1 :=
                if Reqb (st_tausigma st) (tau * sigma) then st
                else mkL2St (st_count st) (st_x0 st) sigma (tau * sigma)
                       (Some (x_cho_factor ext (fun v => v [+] (tau * sigma) [*] ATA v)))
                       (st_OpTb st) in
              match st_cl st1 with
              | Some cl => let r := x_cho_solve ext cl y in (warmed st1 r, x, Ok r)
              | None => (st1, x, Err AttributeError)
              end
          | _ =>                                                           (* 230-240 *)
              let r := x_div ext (fun v => v [+] (tau * sigma) [*] ATA v) y in
              (warmed st r, x, Ok r)
          end
        else
          match l2_solv cfg with
          | Legacy | Cg =>                                                 (* 248-264 *)
              let r := x_iter ext (fun v => v [+] (tau * sigma) [*] ATA v) y niter (st_x0 st) in
              (warmed st r, x, Ok r)
          | Cgls =>                                                        (* 265-282 *)
              let y := sub_q cfg tau x in
              let k := sqrt (tau * sigma) in
              let r := x_reginv ext (comp_linop (scal_linop F k) A) (k [*] b) y niter (st_x0 st) in
              (warmed st r, y, Ok r)
          end
    | OnlyB b =>                                                           (* 285-289 *)
        let num := sub_q cfg tau (x [+] (tau * sigma) [*] b) in
        (st, x, Ok (/ (1 + tau * sigma) [*] num))
    | NoB _ =>                                                             (* 290-294 *)
        let num := sub_q cfg tau x in
        (st, num, Ok (/ (1 + tau * sigma) [*] num))
    end.

(** L2.py:297-306. *)
Definition l2_grad (cfg : L2Cfg E F) (st : L2St) (x : E) : E :=
  let sigma := st_sigma st in
  let g :=
    match l2_d cfg with
    | WithOp A _ b => sigma [*] ladj A (A x [-] b)
    | OnlyB b => sigma [*] (x [-] b)
    | NoB _ => sigma [*] x
    end in
  match l2_q cfg with
  | Some q => if l2_qgrad cfg then g [+] l2_alpha cfg [*] q else g
  | None => g
  end.

(** A user session with one L2 object: prox calls, and assignments to the
    public attribute sigma.  The outcomes of the prox calls are collected. *)
Inductive l2_action := ActProx (x : E) (tau : R) | ActSigma (s : R).
Fixpoint l2_session (cfg : L2Cfg E F) (st : L2St) (h : list l2_action) : list (result E) :=
  match h with
  | [] => []
  | ActProx x tau :: h' =>
      let '(st', _, r) := l2_prox cfg st x tau in r :: l2_session cfg st' h'
  | ActSigma s :: h' =>
      l2_session cfg (mkL2St (st_count st) (st_x0 st) s (st_tausigma st) (st_cl st) (st_OpTb st)) h'
  end.

End L2.
Arguments mkL2St {E F ext} _ _ _ _ _ _.
Arguments st_count {E F ext} _.
Arguments st_x0 {E F ext} _.
Arguments st_sigma {E F ext} _.
Arguments st_tausigma {E F ext} _.
Arguments st_cl {E F ext} _.
Arguments st_OpTb {E F ext} _.
Arguments ActProx {E} _ _.
Arguments ActSigma {E} _.
