(** Property theorems for VStack: statements only; every proof is [exact] a lemma of P_VStack.v.
    Generated from the tagged lemmas of that file. *)
From Coq Require Import Psatz Permutation.
From Verif Require Import Base Space Spec VSum MatFacts M_ProxOp M_VStack P_L0.
From Verif Require Import S_VStack.
From Verif Require Import P_VStack.
Open Scope result_scope.
Open Scope R_scope.


(** VStack over consecutive parts, one size per operator: whenever every operator's prox is the
    exact prox of its function on its part, the result has the size of the input, its parts
    are the operators' results, and it is the prox of the sum of the functions of the parts *)
Theorem C22_prox : forall ops nn f x tau, nn <> [] -> length ops = length nn -> (forall i op, nth_error ops i = Some op -> limpl_prox op (f i) (nth i nn 0%nat)) -> length x = nsum nn -> 0 < tau ->
  exists v p, vstack_init ops (Some nn) None = Ok v /\ vstack_prox v x tau = Ok p /\ is_lprox (stacked (length nn) f (part_nn nn)) tau x p /\
    (forall i op, nth_error ops i = Some op -> l_prox op (part_nn nn i x) tau = Ok (part_nn nn i p)).
Proof. exact C22_prox_l. Qed.
Print Assumptions C22_prox.

(** when all operators' calls return numbers the call of the stack returns the sum of the values
    on the parts *)
Theorem C22_call : forall ops nn f x, nn <> [] -> length ops = length nn -> (forall i op, nth_error ops i = Some op -> limpl_num op (f i) (nth i nn 0%nat)) -> length x = nsum nn ->
  exists v, vstack_init ops (Some nn) None = Ok v /\ vstack_call v x = Ok (lval (stacked (length nn) f (part_nn nn)) x).
Proof. exact C22_call_l. Qed.
Print Assumptions C22_call.

(** when every operator's grad is the gradient of its function on its part, grad of the stack is
    the gradient of the sum *)
Theorem C22_grad : forall ops nn f x, nn <> [] -> length ops = length nn -> (forall i op, nth_error ops i = Some op -> limpl_grad op (f i) (nth i nn 0%nat)) -> length x = nsum nn ->
  exists v g, vstack_init ops (Some nn) None = Ok v /\ vstack_grad v x = Ok (map Some g) /\ is_lgrad (lval (stacked (length nn) f (part_nn nn))) x g.
Proof. exact C22_grad_l. Qed.
Print Assumptions C22_grad.

(** VStack with index lists that use every index exactly once: same statement, the parts being
    the indexed entries *)
Theorem C22_restr : forall ops iavas f x tau, let n := nsum (map (@length nat) iavas) in partition n iavas -> length ops = length iavas ->
  (forall i op, nth_error ops i = Some op -> limpl_prox op (f i) (length (nth i iavas []))) -> length x = n -> 0 < tau ->
  exists v p, vstack_init ops None (Some iavas) = Ok v /\ vstack_prox v x tau = Ok p /\ is_lprox (stacked (length iavas) f (part_ix iavas)) tau x p /\
    (forall i op, nth_error ops i = Some op -> l_prox op (part_ix iavas i x) tau = Ok (part_ix iavas i p)).
Proof. exact C22_restr_l. Qed.
Print Assumptions C22_restr.

(** with index lists that use every index exactly once, and calls that return numbers, the call
    of the stack returns the sum of the values on the indexed entries *)
Theorem C22_restr_call : forall ops iavas f x, let n := nsum (map (@length nat) iavas) in partition n iavas -> length ops = length iavas ->
  (forall i op, nth_error ops i = Some op -> limpl_num op (f i) (length (nth i iavas []))) -> length x = n ->
  exists v, vstack_init ops None (Some iavas) = Ok v /\ vstack_call v x = Ok (lval (stacked (length iavas) f (part_ix iavas)) x).
Proof. exact C22_restr_call_l. Qed.
Print Assumptions C22_restr_call.

(** with index lists that use every index exactly once, and gradients that are those of the
    functions, grad of the stack is the gradient of the sum *)
Theorem C22_restr_grad : forall ops iavas f x, let n := nsum (map (@length nat) iavas) in partition n iavas -> length ops = length iavas ->
  (forall i op, nth_error ops i = Some op -> limpl_grad op (f i) (length (nth i iavas []))) -> length x = n ->
  exists v g, vstack_init ops None (Some iavas) = Ok v /\ vstack_grad v x = Ok (map Some g) /\ is_lgrad (lval (stacked (length iavas) f (part_ix iavas))) x g.
Proof. exact C22_restr_grad_l. Qed.
Print Assumptions C22_restr_grad.

(** neither nn nor restr, and every input of another size than the sum of the parts, raise
    ValueError; so does tau <= 0; fewer sizes than operators raise IndexError *)
Theorem C22_errors : forall ops,
  vstack_init ops None None = Err ValueError /\
  (forall nn restr v x tau, vstack_init ops nn restr = Ok v -> length x <> (match nn, restr with Some l, _ => nsum l | None, Some r => nsum (map (@length nat) r) | None, None => 0%nat end) ->
     vstack_call v x = Err ValueError /\ vstack_prox v x tau = Err ValueError /\ vstack_grad v x = Err ValueError) /\
  (forall v x tau, tau <= 0 -> vstack_prox v x tau = Err ValueError) /\
  (forall nn v x tau f, vstack_init ops (Some nn) None = Ok v -> (length nn < length ops)%nat -> length x = nsum nn -> 0 < tau ->
     (forall i op, nth_error ops i = Some op -> limpl_prox op (f i) (nth i nn 0%nat)) -> vstack_prox v x tau = Err IndexError).
Proof. exact C22_errors_l. Qed.
Print Assumptions C22_errors.

(** with indicator operators the call is not the value of the sum: a satisfied constraint adds 1
    and a violated one adds 0, so an infeasible array gets a smaller, finite value: with the
    indicator of the non-negative numbers, 1 is valued 1 and -1 is valued 0 *)
Theorem C22_indicator_call_refuted : exists v, vstack_init [lnonneg] (Some [1%nat]) None = Ok v /\ limpl_prox lnonneg nonneg_fun 1 /\
  ldom nonneg_fun [1] /\ lval nonneg_fun [1] = 0 /\ vstack_call v [1] = Ok 1 /\ ~ ldom nonneg_fun [-1] /\ vstack_call v [-1] = Ok 0.
Proof. exact C22_indicator_call_refuted_l. Qed.
Print Assumptions C22_indicator_call_refuted.

(** the stack announces a gradient as soon as one operator has one, but for the others grad is
    that of the Moreau envelope: stacking the zero function (with gradient) and the absolute
    value (without), at (a, 1/2) it is (0, 1/2) while the gradient of the sum there is (0,
    1) *)
Theorem C22_hasgrad_refuted : forall a, let h x := Rabs (nth 1 x 0) in
  exists v, vstack_init [lzero; labs] (Some [1%nat; 1%nat]) None = Ok v /\ vs_hasgrad v = true /\
    (forall b c, vstack_call v [b; c] = Ok (h [b; c])) /\
    vstack_grad v [a; 1 / 2] = Ok [Some 0; Some (1 / 2)] /\ is_lgrad h [a; 1 / 2] [0; 1] /\ ~ is_lgrad h [a; 1 / 2] [0; 1 / 2].
Proof. exact C22_hasgrad_refuted_l. Qed.
Print Assumptions C22_hasgrad_refuted.

(** more sizes than operators are accepted: the call ignores the last part and prox returns a
    shorter array, for every array and operator *)
Theorem C22_extra_sizes_refuted : forall n1 n2 x tau, length x = (n1 + n2)%nat -> 0 < tau ->
  exists v, vstack_init [lzero] (Some [n1; n2]) None = Ok v /\ vstack_prox v x tau = Ok (firstn n1 x) /\ length (firstn n1 x) = n1.
Proof. exact C22_extra_sizes_refuted_l. Qed.
Print Assumptions C22_extra_sizes_refuted.

(** index lists that repeat an index and miss another are accepted when their sizes add up: the
    missed entry is set to zero, whatever the operators are meant to do there; here both
    operators have the identity as prox *)
Theorem C22_overlap_refuted : forall a b tau, 0 < tau -> exists v, vstack_init [lzero; lzero] None (Some [[0%nat]; [0%nat]]) = Ok v /\ vstack_prox v [a; b] tau = Ok [a; 0].
Proof. exact C22_overlap_refuted_l. Qed.
Print Assumptions C22_overlap_refuted.

(** the zero function on the entries [2,0] and on the entry [1]: calls and gradients meet the
    hypotheses of C22_restr_call and C22_restr_grad *)
Example C22_restr_example : (forall i op, nth_error [lzero; lzero] i = Some op -> limpl_num op zfun (length (nth i [[2%nat; 0%nat]; [1%nat]] [])) /\ limpl_grad op zfun (length (nth i [[2%nat; 0%nat]; [1%nat]] []))) /\
  exists v, vstack_init [lzero; lzero] None (Some [[2%nat; 0%nat]; [1%nat]]) = Ok v /\ vstack_grad v [1; -2; -3] = Ok (map Some [0; 0; 0]).
Proof. exact C22_restr_example_l. Qed.

(** the zero function on two entries and the non-negativity constraint on one, consecutively and
    through the index lists [2,0] and [1] *)
Example C22_example : (forall i op, nth_error [lzero; lnonneg] i = Some op -> limpl_prox op (match i with O => zfun | _ => nonneg_fun end) (nth i [2%nat; 1%nat] 0%nat)) /\
  partition 3 [[2%nat; 0%nat]; [1%nat]] /\
  (exists v, vstack_init [lzero; lnonneg] (Some [2%nat; 1%nat]) None = Ok v /\ vstack_prox v [1; -2; -3] 1 = Ok [1; -2; Rmax 0 (-3)]) /\
  (exists v, vstack_init [lzero; lnonneg] None (Some [[2%nat; 0%nat]; [1%nat]]) = Ok v /\ vstack_prox v [1; -2; -3] 1 = Ok [1; Rmax 0 (-2); -3]).
Proof. exact C22_example_l. Qed.
