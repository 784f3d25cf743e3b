(** * A direct solver for symmetric positive definite systems on arrays
    Gram-Schmidt on the coordinate vectors for the inner product <u, M v>.  It is not part of the code: it shows that the
    hypothesis "the inner solver is exact" can be met in every dimension. *)
From Coq Require Import Psatz.
From Verif Require Import Base Space Spec VSum MatFacts.
Open Scope R_scope.

Section S.
Context {n : nat} (M : Vec n -> Vec n).
(** directions d_0, ..., d_{k-1}, last first *)
Fixpoint gs_dirs (k : nat) : list (Vec n) :=
  match k with
  | O => []
  | S j => let ds := gs_dirs j in
      fold_right (fun d v => v [-] (<< basis n j, M d >> / << d, M d >>) [*] d) (basis n j) ds :: ds
  end.
Definition gs_solve (y : Vec n) : Vec n :=
  fold_right (fun d v => v [+] (<< y, d >> / << d, M d >>) [*] d) vzero (gs_dirs n).
End S.

Section Spec.
Context {n : nat} (M : Vec n -> Vec n).
Hypothesis Madd : forall u v, M (u [+] v) = M u [+] M v.
Hypothesis Mscal : forall a v, M (a [*] v) = a [*] M v.
Hypothesis Msym : forall u v, << u, M v >> = << M u, v >>.
Hypothesis Mpos : forall v, norm2 v <= << v, M v >>.

Lemma Mzero : M vzero = vzero.
Proof. replace (vzero : Vec n) with (0 [*] (vzero : Vec n)) at 1 by vring. rewrite Mscal. vring. Qed.
Lemma Msub u v : M (u [-] v) = M u [-] M v.
Proof. replace (u [-] v) with (u [+] (-1) [*] v) by vring. rewrite Madd, Mscal. vring. Qed.

(** ds: pairwise M-orthogonal, none of them null *)
Fixpoint mortho (ds : list (Vec n)) : Prop :=
  match ds with
  | [] => True
  | d :: ds => << d, M d >> <> 0 /\ (forall e, In e ds -> << e, M d >> = 0) /\ mortho ds
  end.
Lemma fold_proj (v : Vec n) ds : mortho ds -> forall e, In e ds ->
  << fold_right (fun d w => w [-] (<< v, M d >> / << d, M d >>) [*] d) v ds, M e >> = 0.
Proof.
  revert ds. assert (Hgen : forall ds e, (forall d, In d ds -> << d, M e >> = 0) -> << fold_right (fun d w => w [-] (<< v, M d >> / << d, M d >>) [*] d) v ds, M e >> = << v, M e >>).
  { induction ds as [|d ds IH]; intros e He; [reflexivity|]. cbn [fold_right]. rewrite inner_sub_l, inner_scal_l, (He d (or_introl eq_refl)), IH; [ring|]. intros d' Hd'. apply He. right. exact Hd'. }
  induction ds as [|d ds IH]; intros Ho e He; [destruct He|]. destruct Ho as (Hd & Hod & Ho). cbn [fold_right]. rewrite inner_sub_l, inner_scal_l. destruct He as [<-|He].
  - rewrite Hgen by exact Hod. field. exact Hd.
  - rewrite (IH Ho e He), (Msym d e), (inner_sym (M d) e), (Hod e He). ring.
Qed.
Lemma gs_shape k : (k <= n)%nat -> mortho (gs_dirs M k) /\ (forall d i, In d (gs_dirs M k) -> (k <= i < n)%nat -> get d i = 0).
Proof.
  induction k as [|k IH]; intro Hk; [split; [exact I|intros d i []]|]. destruct (IH ltac:(lia)) as [Ho Hz]. cbn [gs_dirs].
  set (ds := gs_dirs M k) in *. set (dk := fold_right _ _ ds).
  assert (Hc : forall i, (k <= i < n)%nat -> get dk i = if Nat.eqb i k then 1 else 0).
  { intros i Hi. unfold dk. clear dk Ho. revert Hz. generalize ds. intro l. generalize (basis n k) at 1. intro bb. induction l as [|d l IHl]; intro Hz; cbn [fold_right].
    - unfold basis. rewrite get_vtab by lia. reflexivity.
    - rewrite get_sub, get_scal, (Hz d i (or_introl eq_refl) Hi) by lia. rewrite IHl by (intros d' j Hd' Hj; apply Hz; [right|]; auto). ring. }
  split.
  - cbn [mortho]. split; [|split; [|exact Ho]].
    + pose proof (Mpos dk) as H1. assert (H2 : 1 <= norm2 dk).
      { rewrite vec_norm2. rewrite <- (RS_delta n k (fun _ => 1) ltac:(lia)). apply RS_le. intros i Hi. destruct (Nat.eqb_spec k i) as [<-|_].
        - rewrite Hc by lia. rewrite Nat.eqb_refl. lra.
        - rewrite Rmult_0_r. exact (Rle_0_sqr (get dk i)). }
      lra.
    + intros e He. rewrite Msym, inner_sym. unfold dk. apply fold_proj; auto.
  - intros d i [<-|Hd] Hi; [|apply Hz; [exact Hd|lia]]. rewrite Hc by lia. destruct (Nat.eqb_spec i k); [lia|reflexivity].
Qed.
Lemma gs_span k (r : Vec n) : (forall d, In d (gs_dirs M k) -> << r, d >> = 0) -> forall j, (j < k)%nat -> << r, basis n j >> = 0.
Proof.
  induction k as [|k IH]; intros H j Hj; [lia|]. cbn [gs_dirs] in H. destruct (Nat.eq_dec j k) as [->|Hne].
  - pose proof (H _ (or_introl eq_refl)) as H0. revert H0. assert (H1 : forall d, In d (gs_dirs M k) -> << r, d >> = 0) by (intros d Hd; apply H; right; exact Hd). revert H1.
    generalize (gs_dirs M k). intro l. induction l as [|d l IHl]; intros H1 H0; cbn [fold_right] in H0; [exact H0|].
    apply IHl; [intros d' Hd'; apply H1; right; exact Hd'|]. rewrite inner_sub_r, inner_scal_r, (H1 d (or_introl eq_refl)) in H0. lra.
  - apply IH; [intros d Hd; apply H; right; exact Hd|lia].
Qed.
Lemma gs_solve_spec y : M (gs_solve M y) = y.
Proof.
  destruct (gs_shape n (le_n n)) as [Ho _]. set (ds := gs_dirs M n) in *. set (v := gs_solve M y).
  assert (Hr : forall d, In d ds -> << y [-] M v, d >> = 0).
  { assert (Hgen : forall l e, (forall d, In d l -> << M d, e >> = 0) -> << M (fold_right (fun d v => v [+] (<< y, d >> / << d, M d >>) [*] d) vzero l), e >> = 0).
    { induction l as [|d l IHl]; intros e He; cbn [fold_right]; [rewrite Mzero; apply inner_zero_l|]. rewrite Madd, Mscal, inner_add_l, inner_scal_l, (He d (or_introl eq_refl)), IHl; [ring|].
      intros d' Hd'. apply He. right. exact Hd'. }
    intros d Hd. rewrite inner_sub_l. unfold v, gs_solve. fold ds. enough (<< M (fold_right (fun d v => v [+] (<< y, d >> / << d, M d >>) [*] d) vzero ds), d >> = << y, d >>) by lra.
    clear v. revert Ho d Hd. generalize ds. intro l. induction l as [|a l IHl]; intros Ho d Hd; [destruct Hd|]. destruct Ho as (Ha & Hoa & Ho). cbn [fold_right]. rewrite Madd, Mscal, inner_add_l, inner_scal_l.
    destruct Hd as [<-|Hd].
    - rewrite Hgen by (intros d Hd; rewrite <- Msym; exact (Hoa d Hd)). rewrite <- (Msym a a). field. exact Ha.
    - rewrite (IHl Ho d Hd), (inner_sym (M a) d), (Hoa d Hd). ring. }
  assert (H0 : y [-] M v = vzero); [|symmetry; apply vsub_eq; exact H0]. apply vec_ext. intros i Hi. rewrite get_zero. pose proof (gs_span n (y [-] M v) Hr i Hi) as H.
  rewrite vec_inner in H. rewrite <- H. rewrite <- (RS_delta n i (get (y [-] M v)) Hi). apply RS_ext. intros j Hj. f_equal. unfold basis. rewrite get_vtab by auto. rewrite (Nat.eqb_sym j i). reflexivity.
Qed.
End Spec.
