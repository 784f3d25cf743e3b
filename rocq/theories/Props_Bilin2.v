(** Property theorems for Bilin2: statements only; every proof is [exact] a lemma of P_Bilin2.v.
    Generated from the tagged lemmas of that file. *)
From Verif Require Import Base Space Spec SpecOps ConvexFacts Smooth M_ProxOp M_Norms P_Norms M_Loop VSum MatFacts M_Bilin M_PALM P_PALM P_Bilin.
From Coq Require Import Psatz.
From Verif Require Import S_Bilin2.
From Verif Require Import P_Bilin2.
Open Scope result_scope.


(** for all sizes n, k, m, factors, data and linear operators, call(x, y) and call of the
    concatenation return 1/2 |d - Op(XY)|^2 and leave the object exactly as it was *)
Theorem C61_call : forall H n k m p (X : Vec (n * k)) (Y : Vec (k * m)) (d : Vec p) (A : linop (Vec (n * m)) (Vec p)), lr_holds H X Y d A ->
  forall (x : Vec (n * k)) (y : Vec (k * m)),
    lr_call H (lst x) (Some (lst y)) = (Ok (lr_fun A d x y), H) /\ lr_call H (lst x ++ lst y) None = (Ok (lr_fun A d x y), H).
Proof. exact C61_call_l. Qed.
Print Assumptions C61_call.

(** call does not restore the stored factor when it raises: a y of the wrong length raises
    ValueError and leaves x stored in the object *)
Theorem C61_call_failure_refuted : forall H (x y : list R), length y <> (lr_k H * lr_m H)%nat -> lr_call H x (Some y) = (Err ValueError, updatex H x).
Proof. exact C61_call_failure_refuted_l. Qed.
Print Assumptions C61_call_failure_refuted.

(** gradx and grady return the Frechet gradients of call in the first (second) argument, with
    the other factor at its stored value; any sizes and any linear operator *)
Theorem C61_gradients : forall H n k m p (X : Vec (n * k)) (Y : Vec (k * m)) (d : Vec p) (A : linop (Vec (n * m)) (Vec p)), lr_holds H X Y d A ->
  (forall x : Vec (n * k), exists g : Vec (n * k), lr_gradx H (lst x) = Ok (lst g) /\ is_grad (fun x' => lr_fun A d x' Y) x g) /\
  (forall y : Vec (k * m), exists g : Vec (k * m), lr_grady H (lst y) = Ok (lst g) /\ is_grad (fun y' => lr_fun A d X y') y g).
Proof. exact C61_gradients_l. Qed.
Print Assumptions C61_gradients.

(** without a linear operator lx(x) (ly(y)) is a Lipschitz constant of the gradient in y with x
    stored (in x with y stored) *)
Theorem C61_constants : forall H n k m (X : Vec (n * k)) (Y : Vec (k * m)) (d : Vec (n * m)), lr_holds H X Y d (id_linop _) -> lr_op H = None ->
  (forall x : Vec (n * k), exists (L : R) (gy : Vec (k * m) -> Vec (k * m)), lr_lx H (lst x) = Ok L /\ (forall y : Vec (k * m), lr_grady (updatex H (lst x)) (lst y) = Ok (lst (gy y))) /\ lipschitz L gy) /\
  (forall y : Vec (k * m), exists (L : R) (gx : Vec (n * k) -> Vec (n * k)), lr_ly H (lst y) = Ok L /\ (forall x : Vec (n * k), lr_gradx (updatey H (lst y)) (lst x) = Ok (lst (gx x))) /\ lipschitz L gx).
Proof. exact C61_constants_l. Qed.
Print Assumptions C61_constants.

(** with a linear operator lx and ly always raise ValueError *)
Theorem C61_constants_with_op_refuted : forall H o x, lr_op H = Some o -> lr_lx H x = Err ValueError /\ lr_ly H x = Err ValueError.
Proof. exact C61_constants_with_op_refuted_l. Qed.
Print Assumptions C61_constants_with_op_refuted.

(** n <> m and k > 0: an argument of length n k is multiplied as X by the stored Y, one of
    length k m as Y by the stored X, any other length raises ValueError; n = m always raises
    NotImplementedError *)
Theorem C61_matvec : forall H n k m p (X : Vec (n * k)) (Y : Vec (k * m)) (d : Vec p) (A : linop (Vec (n * m)) (Vec p)), lr_holds H X Y d A ->
  (n <> m -> (0 < k)%nat ->
    (forall x : Vec (n * k), lr_matvec H (lst x) = Ok (lst (A (mm n k m x Y)))) /\
    (forall y : Vec (k * m), lr_matvec H (lst y) = Ok (lst (A (mm n k m X y)))) /\
    (forall l, length l <> (n * k)%nat -> length l <> (k * m)%nat -> lr_matvec H l = Err ValueError)) /\
  (n = m -> forall l, lr_matvec H l = Err NotImplementedError).
Proof. exact C61_matvec_l. Qed.
Print Assumptions C61_matvec.

(** right after updatexy(v), grad(v) is the gradient of call at v on the concatenated variable;
    any sizes and any linear operator *)
Theorem C61_grad_updated : forall H n k m p (X : Vec (n * k)) (Y : Vec (k * m)) (d : Vec p) (A : linop (Vec (n * m)) (Vec p)), lr_holds H X Y d A ->
  forall v : Vec (n * k + k * m), exists g, lr_grad (updatexy H (lst v)) (lst v) = Ok (lst g) /\
    (forall u : Vec (n * k + k * m), lr_call H (lst u) None = (Ok (lr_fun A d (vfst u : Vec (n * k)) (vsnd u : Vec (k * m))), H)) /\ is_grad (fun u : Vec (n * k + k * m) => lr_fun A d (vfst u : Vec (n * k)) (vsnd u : Vec (k * m))) v g.
Proof. exact C61_grad_updated_l. Qed.
Print Assumptions C61_grad_updated.

(** without the update grad is not the gradient of call: with n = k = m = 1, d = 0 and stored
    factors 0, call(1,1) is 1/2 and near (1,1) call is half the square of x y, but grad(1,1)
    is 0, which is not its gradient *)
Theorem C61_grad_stale_refuted : let H := mkLR 1 1 1 [0] [0] [0] None in
  (forall x y, lr_call H [x; y] None = (Ok (x * y * (x * y) / 2), H)) /\ lr_grad H [1; 1] = Ok [0; 0] /\
  ~ is_grad (E:=Vec 2) (fun u => get u 0 * get u 1 * (get u 0 * get u 1) / 2) (vtab 2 (fun _ => 1)) (vtab 2 (fun _ => 0)).
Proof. exact C61_grad_stale_refuted_l. Qed.
Print Assumptions C61_grad_stale_refuted.

(** end to end: PALM with fixed steps (gamma >= 1) on the low-rank object with stored y equal to
    y0 and no linear operator, any f and g with correct proximal operators, any sizes,
    starts and iteration count: whenever it returns, no iterate has a larger f(x) + g(y) +
    1/2 |d - XY|^2 than the previous one *)
Theorem C61_palm : forall H n k m (X : Vec (n * k)) (Y : Vec (k * m)) (d : Vec (n * m)), lr_holds H X Y d (id_linop _) -> lr_op H = None ->
  forall (f : efun (Vec (n * k))) (g : efun (Vec (k * m))) proxf proxg x0 gammaf gammag beta niter nb r,
  opt_impl (option_map on_x proxf) f -> opt_impl proxg g -> 1 <= gammaf -> 1 <= gammag -> 0 < beta < 1 -> edom f x0 -> edom g Y ->
  PALM (lr_bilin H n k m) X Y proxf proxg x0 Y (Some gammaf) (Some gammag) beta niter nb = Ok r ->
  exists xs ys, r = (xs niter, ys niter, map (fun j => (xs j, ys j)) (seq 1 niter)) /\ xs 0%nat = x0 /\ ys 0%nat = Y /\
    forall j, (j < niter)%nat ->
      eval f (xs (S j)) + eval g (ys (S j)) + norm2 (d [-] mm n k m (xs (S j)) (ys (S j))) / 2 <= eval f (xs j) + eval g (ys j) + norm2 (d [-] mm n k m (xs j) (ys j)) / 2.
Proof. exact C61_palm_l. Qed.
Print Assumptions C61_palm.

(** with a linear operator fixed-step PALM always raises ValueError *)
Theorem C61_palm_with_op_refuted : forall H o n k m X Y proxf proxg x0 y0 gammaf gammag beta niter nb, lr_op H = Some o -> (0 < niter)%nat ->
  PALM (lr_bilin H n k m) X Y proxf proxg x0 y0 (Some gammaf) gammag beta niter nb = Err ValueError.
Proof. exact C61_palm_with_op_refuted_l. Qed.
Print Assumptions C61_palm_with_op_refuted.

(** the hypotheses hold for a 2 x 1 by 1 x 3 factorisation, with and without a linear operator;
    PALM runs on it for one iteration *)
Example C61_example : lr_holds (ex_lr None) v2 v3 v6 (id_linop (Vec (2 * 3))) /\ lr_holds (ex_lr (Some ex_op)) v2 v3 v6 (scal_linop (Vec (2 * 3)) 2) /\
  exists r, PALM (lr_bilin (ex_lr None) 2 1 3) v2 v3 None None v2 v3 (Some 2) (Some 2) (1 / 2) 1 5 = Ok r.
Proof. exact C61_example_l. Qed.
