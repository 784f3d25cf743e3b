(** * Finite sums of vectors and of functions, indexed by 0..m-1 *)
From Coq Require Import Psatz.
From Verif Require Import Base Space Spec.
Open Scope R_scope.

Fixpoint RS (m : nat) (h : nat -> R) : R := match m with O => 0 | S m => RS m h + h m end.
Fixpoint VS {E : IPS} (m : nat) (h : nat -> E) : E := match m with O => vzero | S m => VS m h [+] h m end.

(** x -> f_0(x) + ... + f_(m-1)(x) *)
Definition esum {E : IPS} (m : nat) (f : nat -> efun E) : efun E :=
  mkEfun (fun x => forall i, (i < m)%nat -> edom (f i) x) (fun x => RS m (fun i => eval (f i) x)).

Lemma RS_ext m h h' : (forall i, (i < m)%nat -> h i = h' i) -> RS m h = RS m h'.
Proof. induction m as [|m IH]; intro H; simpl; auto. rewrite IH, H; auto. Qed.
Lemma RS_add m h h' : RS m (fun i => h i + h' i) = RS m h + RS m h'.
Proof. induction m as [|m IH]; simpl; [ring|rewrite IH; ring]. Qed.
Lemma RS_sub m h h' : RS m (fun i => h i - h' i) = RS m h - RS m h'.
Proof. induction m as [|m IH]; simpl; [ring|rewrite IH; ring]. Qed.
Lemma RS_scal m c h : RS m (fun i => c * h i) = c * RS m h.
Proof. induction m as [|m IH]; simpl; [ring|rewrite IH; ring]. Qed.
Lemma RS_scal_r m c h : RS m (fun i => h i * c) = RS m h * c.
Proof. induction m as [|m IH]; simpl; [ring|rewrite IH; ring]. Qed.
Lemma RS_const m c : RS m (fun _ => c) = INR m * c.
Proof. induction m as [|m IH]; [simpl; ring|]. rewrite S_INR. cbn [RS]. rewrite IH. ring. Qed.
Lemma RS_zero m : RS m (fun _ => 0) = 0.
Proof. rewrite RS_const. ring. Qed.
Lemma RS_le m h h' : (forall i, (i < m)%nat -> h i <= h' i) -> RS m h <= RS m h'.
Proof. induction m as [|m IH]; intro H; simpl; [lra|]. pose proof (H m ltac:(lia)). specialize (IH (fun i Hi => H i ltac:(lia))). lra. Qed.
Lemma RS_nonneg m h : (forall i, (i < m)%nat -> 0 <= h i) -> 0 <= RS m h.
Proof. intro H. rewrite <- (RS_zero m). apply RS_le; auto. Qed.
Lemma RS_zero_all m h : (forall i, (i < m)%nat -> 0 <= h i) -> RS m h = 0 -> forall i, (i < m)%nat -> h i = 0.
Proof.
  induction m as [|m IH]; intros Hp H i Hi; [lia|]. simpl in H.
  pose proof (RS_nonneg m h (fun i Hi => Hp i ltac:(lia))). pose proof (Hp m ltac:(lia)).
  destruct (Nat.eq_dec i m) as [->|]; [lra|]. apply IH; [intros; apply Hp; lia|lra|lia].
Qed.

Section V.
Context {E : IPS}.
Implicit Types h : nat -> E.
Lemma VS_ext m h h' : (forall i, (i < m)%nat -> h i = h' i) -> VS m h = VS m h'.
Proof. induction m as [|m IH]; intro H; simpl; auto. rewrite IH, H; auto. Qed.
Lemma inner_VS_l m h (y : E) : << VS m h, y >> = RS m (fun i => << h i, y >>).
Proof. induction m as [|m IH]; simpl; [apply inner_zero_l|rewrite inner_add_l, IH; ring]. Qed.
Lemma inner_VS_r m h (y : E) : << y, VS m h >> = RS m (fun i => << y, h i >>).
Proof. rewrite inner_sym, inner_VS_l. apply RS_ext. intros; apply inner_sym. Qed.
Lemma VS_add m h h' : VS m (fun i => h i [+] h' i) = VS m h [+] VS m h'.
Proof. induction m as [|m IH]; simpl; [vring|rewrite IH; vring]. Qed.
Lemma VS_sub m h h' : VS m (fun i => h i [-] h' i) = VS m h [-] VS m h'.
Proof. induction m as [|m IH]; simpl; [vring|rewrite IH; vring]. Qed.
Lemma VS_scal m c h : VS m (fun i => c [*] h i) = c [*] VS m h.
Proof. induction m as [|m IH]; simpl; [vring|rewrite IH; vring]. Qed.
Lemma VS_wconst m (w : nat -> R) (x : E) : VS m (fun i => w i [*] x) = RS m w [*] x.
Proof. induction m as [|m IH]; simpl; [vring|rewrite IH; vring]. Qed.
Lemma VS_const m (x : E) : VS m (fun i => x) = INR m [*] x.
Proof. induction m as [|m IH]; [simpl; vring|]. rewrite S_INR. cbn [VS]. rewrite IH. vring. Qed.
Lemma VS_zero m : VS m (fun _ => vzero : E) = vzero.
Proof. rewrite VS_const. vring. Qed.

Lemma esum_subgrad m (f : nat -> efun E) x (v : nat -> E) : (forall i, (i < m)%nat -> is_subgrad (f i) x (v i)) -> is_subgrad (esum m f) x (VS m v).
Proof.
  intro H. split; [intros i Hi; apply H; auto|]. intros y Hy. cbn [eval esum]. rewrite inner_VS_l, <- RS_add. apply RS_le.
  intros i Hi. apply H; auto.
Qed.
Lemma subgrad_zero_min (f : efun E) x : is_subgrad f x vzero <-> is_min f x.
Proof.
  split; intros [Hx H]; (split; [auto|]); intros y Hy; specialize (H y Hy); rewrite ?inner_zero_l in *; lra.
Qed.
End V.

(** ** Lists as functions of the index *)
Definition vsum {E : IPS} (l : list E) : E := fold_right vadd vzero l.
Definition nthv {E : IPS} (l : list E) (i : nat) : E := nth i l vzero.
Definition nthr (l : list R) (i : nat) : R := nth i l 0.
Lemma VS_shift {E : IPS} m (h : nat -> E) : VS (S m) h = h 0%nat [+] VS m (fun i => h (S i)).
Proof. induction m as [|m IH]; [simpl; vring|]. cbn [VS] in *. rewrite IH. vring. Qed.
Lemma RS_shift m (h : nat -> R) : RS (S m) h = h 0%nat + RS m (fun i => h (S i)).
Proof. induction m as [|m IH]; [simpl; ring|]. cbn [RS] in *. rewrite IH. ring. Qed.
Lemma vsum_VS {E : IPS} (l : list E) : vsum l = VS (length l) (nthv l).
Proof. induction l as [|a l IH]; [reflexivity|]. cbn [vsum fold_right length]. rewrite VS_shift. unfold vsum in IH. rewrite IH. reflexivity. Qed.
Lemma Rsum_RS l : Rsum l = RS (length l) (nthr l).
Proof. induction l as [|a l IH]; [reflexivity|]. cbn [Rsum length]. rewrite RS_shift, IH. reflexivity. Qed.
Lemma nth_map2 {A B C} (f : A -> B -> C) l1 l2 i a b c : length l1 = length l2 -> (i < length l1)%nat -> nth i (map2 f l1 l2) c = f (nth i l1 a) (nth i l2 b).
Proof.
  revert l2 i. induction l1 as [|x l1 IH]; intros [|y l2] i H Hi; simpl in *; try lia. destruct i; auto. apply IH; lia.
Qed.
Lemma map_nth_lt {A B} (f : A -> B) l i a b : (i < length l)%nat -> nth i (map f l) b = f (nth i l a).
Proof. intro H. rewrite (nth_indep _ b (f a)) by (rewrite map_length; auto). apply map_nth. Qed.
