(** * Integer arrays: the values of Huber and SCAD *)
From Coq Require Import String Psatz.
From Verif Require Import Base Space Spec SpecOps Sep VSum MatFacts ConvexFacts M_ProxOp M_L1 M_Pen M_Loop P_Cx2 S_Pen2 M_Int P_Int.
From Verif Require Export S_Int.
Open Scope result_scope.
Open Scope R_scope.

(*! C83_values : called on an array of integers, Huber and SCAD return the sum of the documented terms with the fractional part of every term dropped *)
Lemma C83_values_l : forall n fuel (x : Vec n), int_vec x ->
  (forall alpha, 0 < alpha -> exists t, (forall i, (i < n)%nat -> toward_zero (if Rle_dec (Rabs (get x i)) alpha then get x i * get x i / (2 * alpha) else Rabs (get x i) - alpha / 2) (t i)) /\
     o_call (obj fuel (ihuber_body true alpha)) x = Ok (VNum (RS n t))) /\
  (forall sigma al, exists t, (forall i, (i < n)%nat -> toward_zero (scad_fun sigma al (get x i)) (t i)) /\ o_call (obj fuel (iscad_body true sigma al)) x = Ok (VNum (RS n t))).
Proof.
  intros n fuel x Hx. split.
  - intros alpha Ha. exists (fun i => ihuber_elem true alpha (get x i)). split.
    + intros i Hi. unfold ihuber_elem, store. destruct (Rltb_spec alpha (Rabs (get x i))) as [[H ->]|[H ->]], (Rle_dec (Rabs (get x i)) alpha) as [H'|H']; try lra; [apply trunc_spec|].
      replace (Rabs (get x i) * Rabs (get x i)) with (get x i * get x i); [apply trunc_spec|]. fold (Rsqr (get x i)). fold (Rsqr (Rabs (get x i))). apply Rsqr_abs.
    + cbn [obj o_call]. unfold d_call, ihuber_body, sep_body; cbn. do 2 f_equal. apply (sumf_RS n).
  - intros sigma al. exists (fun i => iscad_elem true sigma al (get x i)). split.
    + intros i Hi. unfold iscad_elem, scad_fun, store. destruct (Rleb_spec (Rabs (get x i)) sigma) as [[H ->]|[H ->]], (Rle_dec (Rabs (get x i)) sigma) as [H'|H']; try lra; [apply trunc_spec|].
      destruct (Rleb_spec (Rabs (get x i)) (al * sigma)) as [[H2 ->]|[H2 ->]], (Rle_dec (Rabs (get x i)) (al * sigma)) as [H3|H3]; try lra; apply trunc_spec.
    + cbn [obj o_call]. unfold d_call, iscad_body, sep_body; cbn. do 2 f_equal. apply (sumf_RS n).
Qed.
