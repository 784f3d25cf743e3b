(** * Base: python-level results and small list utilities

    Modelling conventions shared by every model file.  Nothing here models a
    particular function of /repo; the exception names are python's. *)
From Coq Require Export Reals List Lia Lra Bool Arith.
Export ListNotations.
Open Scope R_scope.

(** Python exceptions that the modelled code can raise. *)
Inductive exn : Set :=
| ValueError | NotImplementedError | IndexError | KeyError | TypeError
| RecursionError | UnboundLocalError | AssertionError | ZeroDivisionError
| AttributeError | RuntimeError
| Diverges.   (** a [while] loop still running when the fuel is exhausted *)

(** Outcome of a python call: a value or a raised exception. *)
Inductive result (A : Type) : Type :=
| Ok (a : A)
| Err (e : exn).
Arguments Ok {A} a.
Arguments Err {A} e.

Definition bind {A B} (r : result A) (k : A -> result B) : result B :=
  match r with Ok a => k a | Err e => Err e end.

Definition rmap {A B} (k : A -> B) (r : result A) : result B :=
  bind r (fun a => Ok (k a)).

Declare Scope result_scope.
Delimit Scope result_scope with result.
Notation "x <- e ;; k" := (bind e (fun x => k))
  (at level 61, e at next level, right associativity) : result_scope.

(** Values returned by [__call__]: numbers, or booleans for indicators. *)
Inductive pyval : Type :=
| VNum (r : R)
| VBool (b : bool).

(** numpy/python coercion of a boolean in arithmetic: True is 1, False is 0. *)
Definition as_num (v : pyval) : R :=
  match v with VNum r => r | VBool b => if b then 1 else 0 end.

(** Boolean comparisons on reals (python's [<=], [<], [==]). *)
Definition Rleb (x y : R) : bool := if Rle_dec x y then true else false.
Definition Rltb (x y : R) : bool := if Rlt_dec x y then true else false.
Definition Reqb (x y : R) : bool := if Req_EM_T x y then true else false.

Lemma Rleb_true x y : Rleb x y = true <-> x <= y.
Proof. unfold Rleb; destruct (Rle_dec x y); split; intros; auto; try discriminate; contradiction. Qed.
Lemma Rleb_false x y : Rleb x y = false <-> y < x.
Proof. unfold Rleb; destruct (Rle_dec x y); split; intros; auto; try discriminate; lra. Qed.
Lemma Rltb_true x y : Rltb x y = true <-> x < y.
Proof. unfold Rltb; destruct (Rlt_dec x y); split; intros; auto; try discriminate; contradiction. Qed.
Lemma Rltb_false x y : Rltb x y = false <-> y <= x.
Proof. unfold Rltb; destruct (Rlt_dec x y); split; intros; auto; try discriminate; lra. Qed.
Lemma Reqb_true x y : Reqb x y = true <-> x = y.
Proof. unfold Reqb; destruct (Req_EM_T x y); split; intros; auto; try discriminate; contradiction. Qed.
Lemma Reqb_false x y : Reqb x y = false <-> x <> y.
Proof. unfold Reqb; destruct (Req_EM_T x y); split; intros; auto; try discriminate; contradiction. Qed.

Lemma Rleb_spec x y : {x <= y /\ Rleb x y = true} + {y < x /\ Rleb x y = false}.
Proof. unfold Rleb; destruct (Rle_dec x y); [left | right]; split; auto; lra. Qed.
Lemma Rltb_spec x y : {x < y /\ Rltb x y = true} + {y <= x /\ Rltb x y = false}.
Proof. unfold Rltb; destruct (Rlt_dec x y); [left | right]; split; auto; lra. Qed.
Lemma Reqb_spec x y : {x = y /\ Reqb x y = true} + {x <> y /\ Reqb x y = false}.
Proof. unfold Reqb; destruct (Req_EM_T x y); [left | right]; split; auto. Qed.

(** Elementwise binary operation on two lists (shorter length wins). *)
Fixpoint map2 {A B C} (f : A -> B -> C) (l1 : list A) (l2 : list B) : list C :=
  match l1, l2 with
  | a :: r1, b :: r2 => f a b :: map2 f r1 r2
  | _, _ => []
  end.

Lemma map2_length {A B C} (f : A -> B -> C) l1 l2 :
  length l1 = length l2 -> length (map2 f l1 l2) = length l1.
Proof.
  revert l2; induction l1 as [|a l1 IH]; intros [|b l2] H; simpl in *; auto; try discriminate.
Qed.

(** Sum of a list of reals. *)
Fixpoint Rsum (l : list R) : R :=
  match l with [] => 0 | a :: r => a + Rsum r end.

Lemma Rsum_app l1 l2 : Rsum (l1 ++ l2) = Rsum l1 + Rsum l2.
Proof. induction l1; simpl; [lra | rewrite IHl1; lra]. Qed.

(** [iter n f x] : the n-fold application of f, outermost last. *)
Fixpoint iter {A} (n : nat) (f : A -> A) (x : A) : A :=
  match n with O => x | S k => iter k f (f x) end.

Lemma iter_S_out {A} n (f : A -> A) x : iter (S n) f x = f (iter n f x).
Proof. revert x; induction n as [|n IH]; intros x; [reflexivity|].
  change (iter (S n) f (f x) = f (iter (S n) f x)). rewrite IH. reflexivity. Qed.
