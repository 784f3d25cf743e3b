(** Property theorems for Conv3: statements only; every proof is [exact] a lemma of P_Conv3.v.
    Generated from the tagged lemmas of that file. *)
From Coq Require Import Psatz.
From Verif Require Import Base Space Spec SpecOps ConvexFacts VSum MatFacts Sep Cplx S_Conv DFT M_Conv M_L2 P_L2 Smooth P_Conv P_Conv2.
From Verif Require Import P_Conv3.
Open Scope R_scope.


(** nfft larger than len(x), as a linear convolution needs: h = (1,1), nfft = 2, b = 0, sigma =
    tau = 1 and x = (1) give 3/5, while the proximal point of the function call evaluates is
    1/3 *)
Theorem C74_padding_refuted : let h := [(1, 0); (1, 0)] : list C in let x := nl [(1, 0)] : CArr 1 in
  exists c, conv_init h [] 2 1 = Ok c /\ conv_prox c (entries x) 1 = Ok [(3 / 5, 0)] /\
    is_prox (etot (conv_fun 2 1 h [])) 1 x (nl [(1 / 3, 0)] : CArr 1) /\
    ~ is_prox (etot (conv_fun 2 1 h [])) 1 x (nl [(3 / 5, 0)] : CArr 1).
Proof. exact C74_padding_refuted_l. Qed.
Print Assumptions C74_padding_refuted.

(** real kernel, data and array (numpy returns complex arrays): call, gradient and proximal
    point have zero imaginary parts and are those of sigma/2 |h * x - b|^2 over real arrays *)
Theorem C74_real : forall (h b : list R) (N : nat) sigma, (0 < N)%nat -> 0 <= sigma -> exists c, conv_init (map cr h) (map cr b) N sigma = Ok c /\
  (forall n (x : Vec n), conv_call c (map cr (lst x)) = rconv_fun N sigma h b x) /\
  (forall n (x : Vec n), (n <= N)%nat -> exists g : Vec n, conv_grad c (map cr (lst x)) = Ok (map cr (lst g)) /\ is_grad (rconv_fun N sigma h b) x g) /\
  (forall (x : Vec N) tau, 0 < tau -> exists p : Vec N, conv_prox c (map cr (lst x)) tau = Ok (map cr (lst p)) /\ is_prox (etot (rconv_fun N sigma h b)) tau x p).
Proof. exact C74_real_l. Qed.
Print Assumptions C74_real.
