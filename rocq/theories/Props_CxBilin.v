(** Property theorems for CxBilin: statements only; every proof is [exact] a lemma of P_CxBilin.v.
    Generated from the tagged lemmas of that file. *)
From Coq Require Import Psatz.
From Verif Require Import Base Space Spec ConvexFacts Smooth VSum MatFacts Cplx DFT M_L1 P_Conv M_Cx M_CxBilin M_Bilin M_PALM P_PALM P_Bilin.
From Verif Require Import P_CxBilin.
Open Scope R_scope.

(** LowRankFactorizedMatrix on complex factors, any sizes, data and linear operator whose
    rmatvec is the conjugate transpose: call is 1/2 |d - A(XY)|^2 where XY has the entries
    sum_l X_il Y_lj; gradx and grady, which conjugate the other factor, are the gradients
    for the real inner product Re <x, y>; without operator ly(y) and lx(x) are Lipschitz
    constants of them *)
Theorem C80_bilinear : forall n k m p (A : linop (CArr (n * m)) (CArr p)) (d : CArr p) (X : CArr (n * k)) (Y : CArr (k * m)),
  (forall P : CArr (n * m), (forall i j, (i < n)%nat -> (j < m)%nat -> cg P (i * m + j) = csum k (fun l => cmul (cg X (i * k + l)) (cg Y (l * m + j)))) ->
     clr_call A d X Y = norm2 (d [-] A P) / 2) /\
  is_grad (fun x => clr_call A d x Y) X (clr_gradx A (ladj A) d Y X) /\
  is_grad (fun y => clr_call A d X y) Y (clr_grady A (ladj A) d X Y) /\
  (forall e : CArr (n * m), lipschitz (clr_ly Y) (clr_gradx (n:=n) (fun v => v) (fun v => v) e Y) /\
                            lipschitz (clr_lx X) (clr_grady (m:=m) (fun v => v) (fun v => v) e X)).
Proof. exact C80_bilinear_l. Qed.
Print Assumptions C80_bilinear.

(** with 1 x 1 factors X = i, Y = 1 + i, data 2i and no operator: XY = -1 + i, the value is 1
    and the gradient in X is -2 *)
Example C80_bilinear_example :
  let X : CArr (1 * 1) := ct 1 (fun _ => (0, 1)) in let Y : CArr (1 * 1) := ct 1 (fun _ => (1, 1)) in let d : CArr (1 * 1) := ct 1 (fun _ => (0, 2)) in
  clr_call (n:=1) (fun v => v) d X Y = 1 /\ clr_gradx (n:=1) (fun v => v) (fun v => v) d Y X = ct 1 (fun _ => (-2, 0)).
Proof. exact C80_bilinear_example_l. Qed.
