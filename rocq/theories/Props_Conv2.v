(** Property theorems for Conv2: statements only; every proof is [exact] a lemma of P_Conv2.v.
    Generated from the tagged lemmas of that file. *)
From Coq Require Import Psatz.
From Verif Require Import Base Space Spec SpecOps ConvexFacts VSum MatFacts Cplx S_Conv DFT M_Conv M_L2 P_L2 Smooth P_Conv.
From Verif Require Import P_Conv2.
Open Scope R_scope.


(** for every kernel, data, nfft >= 1 and array, of any lengths: call evaluates sigma/2 |h * x -
    b|^2 with the circular convolution of period nfft, the arrays being cut or padded with
    zeros to nfft samples; nfft = 0 is rejected *)
Theorem C74_call : forall (h b : list C) (N : nat) sigma,
  conv_init h b 0 sigma = Err ValueError /\
  ((0 < N)%nat -> exists c, conv_init h b N sigma = Ok c /\
     forall n (x : CArr n), conv_call c (entries x) = conv_fun N sigma h b x).
Proof. exact C74_call_l. Qed.
Print Assumptions C74_call.

(** when nfft is at least len(h) + len(x) - 1 the circular convolution is the ordinary (linear)
    one *)
Theorem C74_linear : forall (h x : list C) (N : nat), (length h + length x <= N + 1)%nat ->
  forall j, (j < N)%nat -> cconv N (seqc h) (seqc x) j = lconv (seqc h) (seqc x) j.
Proof. exact C74_linear_l. Qed.
Print Assumptions C74_linear.

(** for x no longer than nfft, grad is the gradient of the function call evaluates, and for
    sigma >= 0 that function is convex with a sigma*max|F(h)|^2 Lipschitz gradient; for
    longer x grad raises IndexError *)
Theorem C74_grad : forall (h b : list C) (N : nat) sigma, (0 < N)%nat -> exists c, conv_init h b N sigma = Ok c /\
  (forall n, (n <= N)%nat -> exists df : CArr n -> CArr n,
     (forall x, conv_grad c (entries x) = Ok (entries (df x)) /\ is_grad (conv_fun N sigma h b) x (df x)) /\
     forall L, 0 <= sigma -> (forall k, (k < N)%nat -> cabs2 (FF N (seqc h) k) <= L) ->
       L_smooth (conv_fun N sigma h b (n:=n)) df (sigma * L) /\ convex (etot (conv_fun N sigma h b (n:=n)))) /\
  (forall n (x : CArr n), (N < n)%nat -> conv_grad c (entries x) = Err IndexError).
Proof. exact C74_grad_l. Qed.
Print Assumptions C74_grad.

(** for sigma >= 0, tau > 0 and x of exactly nfft samples, prox is the exact proximal point of
    the function call evaluates; a non-positive tau raises ValueError *)
Theorem C74_prox : forall (h b : list C) (N : nat) sigma (x : CArr N) tau, (0 < N)%nat -> 0 <= sigma ->
  exists c, conv_init h b N sigma = Ok c /\
    (tau <= 0 -> conv_prox c (entries x) tau = Err ValueError) /\
    (0 < tau -> exists p : CArr N, conv_prox c (entries x) tau = Ok (entries p) /\ is_prox (etot (conv_fun N sigma h b)) tau x p).
Proof. exact C74_prox_l. Qed.
Print Assumptions C74_prox.

(** for x with at most nfft samples, prox returns the first len(x) samples of the proximal point
    of the padded problem on nfft samples *)
Theorem C74_prox_padded : forall (h b : list C) (N n : nat) sigma (x : CArr n) tau, (0 < N)%nat -> (n <= N)%nat -> 0 <= sigma -> 0 < tau ->
  exists c (xN p : CArr N), conv_init h b N sigma = Ok c /\
    (forall i, cg xN i = cg x i) /\ is_prox (etot (conv_fun N sigma h b)) tau xN p /\
    conv_prox c (entries x) tau = Ok (firstn n (entries p)).
Proof. exact C74_prox_padded_l. Qed.
Print Assumptions C74_prox_padded.

(** nfft smaller than len(x) (the default is 1024, whatever the data): prox returns nfft samples
    instead of len(x), without an error, and call does not depend on the samples beyond nfft *)
Theorem C74_short_refuted : forall (h b : list C) (N n : nat) sigma (x : CArr n) tau, (0 < N)%nat -> (N < n)%nat -> 0 < tau ->
  exists c, conv_init h b N sigma = Ok c /\
    (exists y, conv_prox c (entries x) tau = Ok y /\ length y = N) /\
    (forall z : CArr n, (forall i, (i < N)%nat -> cg z i = cg x i) -> conv_call c (entries z) = conv_call c (entries x)).
Proof. exact C74_short_refuted_l. Qed.
Print Assumptions C74_short_refuted.
