(** Property theorems for L2: statements only; every proof is [exact] a lemma of P_L2.v.
    Generated from the tagged lemmas of that file. *)
From Verif Require Import Base Space Spec ConvexFacts M_ProxOp SpecOps P_ProxOp M_L2.
From Coq Require Import Psatz.
From Verif Require Import S_L2.
From Verif Require Import P_L2.
Open Scope result_scope.



(** call evaluates sigma/2|Op x - b|^2 + alpha<q,x>, in every state; when b is missing Op is
    silently ignored: the function is sigma/2|x|^2 + alpha<q,x> *)
Theorem C13_l2_call : forall (E F : IPS) (ext : L2Ext E F) cfg (st : L2St ext) (x : E),
  l2_call ext cfg st x = l2_fun (l2_d cfg) (l2_q cfg) (st_sigma st) (l2_alpha cfg) x /\
  forall op, l2_d cfg = NoB op ->
    l2_call ext cfg st x =
    st_sigma st / 2 * norm2 x + match l2_q cfg with Some q => l2_alpha cfg * << q, x >> | None => 0 end.
Proof. exact l2_call_spec. Qed.
Print Assumptions C13_l2_call.

(** with exact inner solvers, every prox call in every sequence of calls on one L2 object
    returns the exact proximal point of sigma/2|Op x - b|^2 + alpha<q,x>, for every
    configuration: Op explicit (default or named dense solver, or cached factorisation), Op
    with an iterative solver (normal equations or cgls), b only, or neither; with or without
    q; whatever the warm-start state and call counter *)
Theorem C13_l2_prox : forall (E F : IPS) (ext : L2Ext E F) (cfg : L2Cfg E F) sigma x0 (calls : list (E * R)),
  l2_exact ext -> 0 < sigma -> Forall (fun c => 0 < snd c) calls ->
  Forall2 (fun c r => exists p, r = Ok p /\
      is_prox (etot (l2_fun (l2_d cfg) (l2_q cfg) sigma (l2_alpha cfg))) (snd c) (fst c) p)
    calls
    (l2_session ext cfg (l2_init ext cfg sigma x0) (map (fun c => ActProx (fst c) (snd c)) calls)).
Proof. exact l2_prox_correct. Qed.
Print Assumptions C13_l2_prox.

(** no assumption on the iterative solver: whatever it returns, the error of prox to the true
    proximal point is at most the norm of the residual M p - y the solver left in the linear
    system it was handed, so the iteration budget only costs accuracy through that residual *)
Theorem C13_l2_inexact : forall (E F : IPS) (ext : L2Ext E F) (cfg : L2Cfg E F) (st : L2St ext) A b sigma x pstar tau,
  0 <= sigma -> 0 < tau -> l2_fresh cfg sigma st ->
  l2_d cfg = WithOp A false b -> l2_solv cfg <> Cgls ->
  is_prox (etot (l2_fun (l2_d cfg) (l2_q cfg) sigma (l2_alpha cfg))) tau x pstar ->
  exists M y p,
    p = x_iter ext M y (l2_niter cfg (S (st_count st))) (st_x0 st) /\
    snd (l2_prox ext cfg st x tau) = Ok p /\
    norm (p [-] pstar) <= norm (M p [-] y).
Proof. exact l2_inexact. Qed.
Print Assumptions C13_l2_inexact.

(** grad is the gradient of call when qgrad is True (or there is no q), and of call without the
    q-term when qgrad is False; Op is any bounded linear operator *)
Theorem C13_l2_grad : forall (E F : IPS) (ext : L2Ext E F) (cfg : L2Cfg E F) (st : L2St ext) (C : R),
  (forall A e b, l2_d cfg = WithOp A e b -> forall v, norm2 (A v) <= C * norm2 v) ->
  forall x, is_grad (l2_fun (l2_d cfg) (if l2_qgrad cfg then l2_q cfg else None) (st_sigma st) (l2_alpha cfg))
              x (l2_grad ext cfg st x).
Proof. exact l2_grad_correct. Qed.
Print Assumptions C13_l2_grad.

(** for every session (any sequence of prox calls with any steps, rejected ones included,
    interleaved with assignments of positive values to the public attribute sigma), the
    object using the cached Cholesky factor and the object solving afresh every time return
    exactly the same results *)
Theorem C14_cache_coherent : forall (E F : IPS) (ext : L2Ext E F) (cfg : L2Cfg E F) sigma x0 (h : list l2_action),
  l2_exact ext -> 0 < sigma ->
  Forall (fun a => match a with ActSigma s => 0 < s | _ => True end) h ->
  l2_session ext (with_dense cfg Factorize) (l2_init ext (with_dense cfg Factorize) sigma x0) h =
  l2_session ext (with_dense cfg DenseDefault) (l2_init ext (with_dense cfg DenseDefault) sigma x0) h.
Proof. exact cache_coherent. Qed.
Print Assumptions C14_cache_coherent.

(** exact solvers exist: on the real line plain division solves all the systems *)
Example C13_example : l2_exact R_ext.
Proof. exact C13_example_l. Qed.

(** assigning a new value to the public attribute sigma between calls is *not* honoured: the
    data term Op'b was scaled with the old sigma in the constructor, so the result is the
    prox of neither the old nor the new function *)
Theorem C14_sigma_change_refuted :
  exists (cfg : L2Cfg R_IPS R_IPS) (p : R),
    l2_session R_ext cfg (l2_init R_ext cfg 1 None) [ActSigma 3; ActProx (0 : R_IPS) 1] = [Ok (p : R_IPS)] /\
    l2_exact R_ext /\
    ~ is_prox (etot (l2_fun (l2_d cfg) (l2_q cfg) 3 (l2_alpha cfg))) 1 (0 : R_IPS) (p : R_IPS) /\
    ~ is_prox (etot (l2_fun (l2_d cfg) (l2_q cfg) 1 (l2_alpha cfg))) 1 (0 : R_IPS) (p : R_IPS).
Proof. exact sigma_change_refuted. Qed.
Print Assumptions C14_sigma_change_refuted.

(** with sigma = 0 the cached mode always fails (no factor was ever computed because the initial
    key 0.0 equals tau*sigma), while the uncached mode returns *)
Theorem C14_sigma_zero_refuted : forall (E F : IPS) (ext : L2Ext E F) (A : linop E F) (b : F) x tau,
  0 < tau ->
  let cfg d := mkL2 (WithOp A true b) None 1 true (fun _ => 10%nat) true Legacy d in
  snd (l2_prox ext (cfg Factorize) (l2_init ext (cfg Factorize) 0 None) x tau) = Err AttributeError /\
  exists p, snd (l2_prox ext (cfg DenseDefault) (l2_init ext (cfg DenseDefault) 0 None) x tau) = Ok p.
Proof. exact sigma_zero_refuted. Qed.
Print Assumptions C14_sigma_zero_refuted.

(** L2 with a q-term overwrites the caller's array x in two configurations (neither Op nor b;
    and the cgls solver): after the call x holds x - tau*alpha*q, which differs from x
    whenever alpha*q is not 0 *)
Theorem C34_l2_mutates_refuted : forall (E F : IPS) (ext : L2Ext E F) (cfg : L2Cfg E F) (st : L2St ext) (q x : E) tau,
  0 < tau -> l2_q cfg = Some q -> l2_alpha cfg <> 0 -> q <> vzero ->
  (exists o, l2_d cfg = NoB o) \/ (exists A b, l2_d cfg = WithOp A false b /\ l2_solv cfg = Cgls) ->
  let x_after := snd (fst (l2_prox ext cfg st x tau)) in
  x_after = x [-] (tau * l2_alpha cfg) [*] q /\ x_after <> x.
Proof. exact l2_mutates. Qed.
Print Assumptions C34_l2_mutates_refuted.

(** in every other configuration, and always when there is no q-term, prox leaves the caller's
    array untouched, also when it raises *)
Theorem C34_l2_preserves : forall (E F : IPS) (ext : L2Ext E F) (cfg : L2Cfg E F) (st : L2St ext) (x : E) tau,
  l2_q cfg = None \/ (exists b, l2_d cfg = OnlyB b) \/ (exists A b, l2_d cfg = WithOp A true b) \/
  (exists A b, l2_d cfg = WithOp A false b /\ l2_solv cfg <> Cgls) ->
  snd (fst (l2_prox ext cfg st x tau)) = x.
Proof. exact l2_preserves. Qed.
Print Assumptions C34_l2_preserves.
