(** Property theorems for Conv4: statements only; every proof is [exact] a lemma of P_Conv4.v.
    Generated from the tagged lemmas of that file. *)
From Coq Require Import Psatz.
From Verif Require Import Base Space Spec SpecOps ConvexFacts VSum MatFacts Sep Cplx S_Conv DFT M_Conv M_L2 P_L2 Smooth P_Conv P_Conv2 P_Conv3.
From Verif Require Import P_Conv4.
Open Scope R_scope.


(** arrays of shape dims: call is the sum over the lines along dir of sigma/2 |h * x - b|^2,
    with one kernel for all lines or one per line; with dims[dir] <= nfft grad is its
    gradient and with dims[dir] = nfft prox its exact proximal point (in general, line by
    line the cut proximal point of the padded problem); with dims[dir] > nfft prox and grad
    raise IndexError; an array with another number of entries is rejected *)
Theorem C74_nd : forall (o n i N : nat) sigma (h b : nat -> nat -> list C), (0 < N)%nat -> 0 <= sigma ->
  (forall x, nd_call o n i h b N sigma (entries x) = Ok (nd_conv_fun o n i N sigma h b x)) /\
  ((n <= N)%nat -> forall x, exists g, nd_grad o n i h b N sigma (entries x) = Ok (entries g) /\ is_grad (nd_conv_fun o n i N sigma h b) x g) /\
  (n = N -> forall x tau, 0 < tau -> exists p, nd_prox o n i h b N sigma (entries x) tau = Ok (entries p) /\
     is_prox (etot (nd_conv_fun o n i N sigma h b)) tau x p) /\
  ((n <= N)%nat -> forall (x : CArr (o * (n * i))) tau, 0 < tau -> exists p : CArr (o * (n * i)), nd_prox o n i h b N sigma (entries x) tau = Ok (entries p) /\
     forall a c, (a < o)%nat -> (c < i)%nat -> exists xl pl : CArr N, is_prox (etot (conv_fun N sigma (h a c) (b a c))) tau xl pl /\
       (forall k, cg xl k = line n i x a c k) /\ (forall k, (k < n)%nat -> line n i p a c k = cg pl k)) /\
  ((N < n)%nat -> forall (x : CArr (o * (n * i))) tau, 0 < tau -> nd_prox o n i h b N sigma (entries x) tau = Err IndexError /\ nd_grad o n i h b N sigma (entries x) = Err IndexError) /\
  (forall x tau, length x <> (o * (n * i))%nat -> nd_call o n i h b N sigma x = Err ValueError /\ nd_prox o n i h b N sigma x tau = Err ValueError /\ nd_grad o n i h b N sigma x = Err ValueError).
Proof. exact C74_nd_l. Qed.
Print Assumptions C74_nd.

(** x = (1, 3) smoothed with h = (1, 1) of period 2 against b = (2, 2): the value is 4; the
    proximal point with tau = 1 is (1, 3) - (4/5)(1, 1) *)
Example C74_example : let h := [1; 1] in let b := [2; 2] in let x := nl [1; 3] : Vec 2 in
  rconv_fun 2 1 h b x = 4 /\ is_prox (etot (rconv_fun 2 1 h b)) 1 x (nl [1 / 5; 11 / 5] : Vec 2).
Proof. exact C74_example_l. Qed.
