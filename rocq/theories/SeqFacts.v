(** * Updating a sequence at one index *)
From Verif Require Import Base.

Definition upd {A} (xs : nat -> A) (k : nat) (v : A) : nat -> A := fun j => if Nat.eqb j k then v else xs j.
Lemma upd_eq {A} (xs : nat -> A) k v : upd xs k v k = v.
Proof. unfold upd. rewrite Nat.eqb_refl. reflexivity. Qed.
Lemma upd_ne {A} (xs : nat -> A) k v j : j <> k -> upd xs k v j = xs j.
Proof. intro H. unfold upd. apply Nat.eqb_neq in H. rewrite H. reflexivity. Qed.
Lemma upd_lt {A} (xs : nat -> A) k v j : (j < k)%nat -> upd xs k v j = xs j.
Proof. intro H. apply upd_ne. lia. Qed.
Lemma map_upd_seq {A} (xs : nat -> A) k v i n : (i + n <= k)%nat -> map (upd xs k v) (seq i n) = map xs (seq i n).
Proof. intro H. apply map_ext_in. intros j Hj. apply in_seq in Hj. apply upd_lt. lia. Qed.
Lemma map_upd_snoc {A} (xs : nat -> A) k v :
  map (upd xs (S k) v) (seq 1 (S k)) = map xs (seq 1 k) ++ [v].
Proof.
  rewrite seq_S, map_app, map_upd_seq by lia. simpl. rewrite upd_eq. reflexivity.
Qed.

Lemma le_div a b c : 0 < c -> a * c <= b -> a <= b / c.
Proof. intros Hc H. apply (Rmult_le_reg_r c); auto. unfold Rdiv. rewrite Rmult_assoc, Rinv_l by lra. lra. Qed.
Lemma div_le a b c : 0 < c -> b <= a * c -> b / c <= a.
Proof. intros Hc H. apply (Rmult_le_reg_r c); auto. unfold Rdiv. rewrite Rmult_assoc, Rinv_l by lra. lra. Qed.

Lemma nth_error_map_seq {A} (xs : nat -> A) i n j a : nth_error (map xs (seq i n)) j = Some a -> (j < n)%nat /\ a = xs (i + j)%nat.
Proof.
  intro H. assert (Hl : (j < n)%nat). { assert (j < length (map xs (seq i n)))%nat by (apply nth_error_Some; congruence). rewrite map_length, seq_length in H0; auto. }
  split; auto. rewrite nth_error_map, (nth_error_nth' _ 0%nat), seq_nth in H by (rewrite ?seq_length; lia). simpl in H. congruence.
Qed.
