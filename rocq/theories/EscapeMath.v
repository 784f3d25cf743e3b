(** * Orbits of non-expansive maps: a fixed point exists or the orbit goes to infinity *)
From Coq Require Import Psatz Classical ConstructiveEpsilon.
From Verif Require Import Base Space Spec S_Seq Compact Fejer S_Inexact InexactMath S_Pnp PnpMath S_Breg2 CountMath InconsMath.
Open Scope R_scope.

Section I.
Context {E : IPS} (HB : bw E).
Implicit Types (T : E -> E) (xs : nat -> E).

Lemma tri_sub (a b c : E) : norm (a [-] c) <= norm (a [-] b) + norm (b [-] c).
Proof. pose proof (norm_triangle (a [-] b) (b [-] c)) as H. replace (a [-] b [+] (b [-] c)) with (a [-] c) in H by vring. exact H. Qed.
Fixpoint itr (n : nat) T (x : E) : E := match n with O => x | S n => T (itr n T x) end.
Lemma itr_S n T x : itr (S n) T x = itr n T (T x).
Proof. induction n as [|n IH]; [reflexivity|]. cbn [itr] in *. rewrite IH. reflexivity. Qed.
Lemma iter_nonexp T n x y : nonexp T -> norm (itr n T x [-] itr n T y) <= norm (x [-] y).
Proof. intro H. induction n as [|n IH]; [cbn [itr]; lra|]. cbn [itr]. eapply Rle_trans; [apply H|exact IH]. Qed.
Lemma iter_orbit T xs n k : (forall k, xs (S k) = T (xs k)) -> xs (n + k)%nat = itr n T (xs k).
Proof. intro H. induction n as [|n IH]; [reflexivity|]. cbn [itr]. rewrite <- IH. apply H. Qed.
Lemma iter_add T n k x : itr (n + k) T x = itr n T (itr k T x).
Proof. induction n as [|n IH]; [reflexivity|]. cbn [itr Nat.add]. rewrite IH. reflexivity. Qed.

(** a point to which its own orbit keeps returning has a bounded orbit *)
Lemma recurrent_bounded T y : nonexp T -> (forall e J, 0 < e -> exists j, (J <= j)%nat /\ norm (itr j T y [-] y) < e) ->
  exists M, forall n, norm (itr n T y) <= M.
Proof.
  intros HT Hrec. set (z := fun n => itr n T y). apply NNPP. intro Hno.
  assert (Hret : ~ exists J, forall n, norm (z n [-] y) <= 1 -> exists j, (1 <= j <= J)%nat /\ norm (z (n + j)%nat [-] y) <= 1).
  { intros [J HJ]. apply Hno. set (d := norm (T y [-] y)). assert (Hd : 0 <= d) by apply norm_nonneg.
    assert (Hj : forall j, norm (itr j T y [-] y) <= INR j * d).
    { induction j as [|j IH]; [cbn [itr INR]; rewrite vsub_diag, norm_zero; lra|]. rewrite S_INR. pose proof (tri_sub (itr (S j) T y) (itr j T (T y)) y) as H.
      replace (itr (S j) T y) with (itr j T (T y)) in * by (symmetry; apply itr_S). pose proof (tri_sub (itr j T (T y)) (itr j T y) y). pose proof (iter_nonexp T j (T y) y HT). fold d in H1. lra. }
    assert (G : forall n, exists p j, (n = p + j)%nat /\ (j <= J)%nat /\ norm (z p [-] y) <= 1).
    { induction n as [|n (p & j & Hn & Hj2 & Hp)]; [exists 0%nat, 0%nat; split; [reflexivity|]; split; [lia|]; unfold z; cbn [itr]; rewrite vsub_diag, norm_zero; lra|].
      destruct (Nat.eq_dec j J) as [->|Hne]; [|exists p, (S j); repeat split; [lia|lia|exact Hp]].
      destruct (HJ p Hp) as (i & Hi & Hi2). exists (p + i)%nat, (S J - i)%nat. repeat split; [lia|lia|exact Hi2]. }
    exists (INR J * d + 1 + norm y). intro n. destruct (G n) as (p & j & -> & Hj2 & Hp). specialize (Hj j). apply le_INR in Hj2. assert (INR j * d <= INR J * d) by (apply Rmult_le_compat_r; assumption).
    rewrite Nat.add_comm, iter_add. fold (z p). pose proof (iter_nonexp T j (z p) y HT). pose proof (tri_sub (itr j T (z p)) (itr j T y) y).
    pose proof (norm_triangle (itr j T (z p) [-] y) y) as H2. replace (itr j T (z p) [-] y [+] y) with (itr j T (z p)) in H2 by vring. lra. }
  assert (Hbad : forall J, { n | norm (z n [-] y) <= 1 /\ forall j, (1 <= j <= J)%nat -> 1 < norm (z (n + j)%nat [-] y) }).
  { intro J. apply constructive_indefinite_ground_description_nat.
    - intro n. destruct (Rle_dec (norm (z n [-] y)) 1) as [H1|H1]; [|right; tauto].
      assert (Hdec : forall K, {forall j, (1 <= j <= K)%nat -> 1 < norm (z (n + j)%nat [-] y)} + {~ forall j, (1 <= j <= K)%nat -> 1 < norm (z (n + j)%nat [-] y)}).
      { induction K as [|K [IH|IH]]; [left; intros; lia| |right; intro H; apply IH; intros; apply H; lia].
        destruct (Rlt_dec 1 (norm (z (n + S K)%nat [-] y))) as [H|H]; [left; intros j Hj; destruct (Nat.eq_dec j (S K)) as [->|]; [exact H|apply IH; lia]|right; intro H2; apply H, H2; lia]. }
      destruct (Hdec J); [left; auto|right; tauto].
    - apply NNPP. intro Hc. apply Hret. exists J. intros n Hn. apply NNPP. intro Hc2. apply Hc. exists n. split; [exact Hn|]. intros j Hj. apply Rnot_le_lt. intro Hle. apply Hc2. exists j. auto. }
  set (nu := fun J => proj1_sig (Hbad J)). assert (Hnu : forall J, norm (z (nu J) [-] y) <= 1 /\ forall j, (1 <= j <= J)%nat -> 1 < norm (z (nu J + j)%nat [-] y)) by (intro J; exact (proj2_sig (Hbad J))).
  destruct (HB (fun J => z (nu J)) (1 + norm y)) as (l & phi & Hphi & Hl).
  { intro J. destruct (Hnu J) as [H _]. pose proof (norm_triangle (z (nu J) [-] y) y) as H2. replace (z (nu J) [-] y [+] y) with (z (nu J)) in H2 by vring. lra. }
  destruct (Hl (/ 4) ltac:(lra)) as [K HK]. set (m := nu (phi K)). destruct (Hrec (/ 2) (S m) ltac:(lra)) as (J0 & HJ0 & HJe).
  set (k := (K + J0)%nat). pose proof (HK k ltac:(unfold k; lia)) as Hk1. pose proof (HK K ltac:(lia)) as Hk2. cbv beta in Hk1, Hk2. fold m in Hk2.
  pose proof (strict_inc_ge phi Hphi k) as Hpk. destruct (Hnu (phi k)) as [_ Hf]. specialize (Hf (J0 - m)%nat ltac:(unfold k in *; lia)).
  assert (E1 : z (nu (phi k) + (J0 - m))%nat = itr (J0 - m) T (z (nu (phi k)))) by (unfold z; rewrite Nat.add_comm; apply iter_add). rewrite E1 in Hf.
  assert (E2 : itr J0 T y = itr (J0 - m) T (z m)) by (unfold z; rewrite <- iter_add; f_equal; lia). rewrite E2 in HJe.
  pose proof (iter_nonexp T (J0 - m) (z (nu (phi k))) (z m) HT). pose proof (tri_sub (itr (J0 - m) T (z (nu (phi k)))) (itr (J0 - m) T (z m)) y).
  pose proof (tri_sub (z (nu (phi k))) l (z m)) as H3. rewrite (norm_sub_sym l (z m)) in H3. lra.
Qed.

(** an orbit whose norms do not tend to infinity is bounded *)
Lemma orbit_cases T xs : nonexp T -> (forall k, xs (S k) = T (xs k)) -> (exists l, T l = l) \/ escapes xs.
Proof.
  intros HT Hx. destruct (classic (escapes xs)) as [H|H]; [right; exact H|left].
  assert (HM : exists M, forall N, exists n, (N <= n)%nat /\ norm (xs n) <= M).
  { apply NNPP. intro Hc. apply H. intro M. apply NNPP. intro Hc2. apply Hc. exists M. intro N. apply NNPP. intro Hc3. apply Hc2. exists N. intros n Hn. apply Rnot_le_lt. intro Hle. apply Hc3. exists n. auto. }
  destruct HM as [M HM].
  assert (Hsel : forall N, { n | (N <= n)%nat /\ norm (xs n) <= M }). { intro N. apply constructive_indefinite_ground_description_nat; [|apply HM]. intro n. destruct (le_dec N n); [|right; tauto]. destruct (Rle_dec (norm (xs n)) M); [left; tauto|right; tauto]. }
  set (f := fun N => proj1_sig (Hsel N)). assert (Hf : forall N, (N <= f N)%nat /\ norm (xs (f N)) <= M) by (intro N; exact (proj2_sig (Hsel N))).
  destruct (HB (fun N => xs (f N)) M) as (y & phi & Hphi & Hy); [intro N; apply Hf|].
  destruct (recurrent_bounded T y HT) as [M' HM'].
  - intros e J He. destruct (Hy (e / 2) ltac:(lra)) as [K HK]. set (p := f (phi K)). set (k := (K + p + J)%nat). set (q := f (phi k)).
    assert (Hq : (p + J <= q)%nat). { unfold q. pose proof (strict_inc_ge phi Hphi k). pose proof (proj1 (Hf (phi k))). unfold k in *. lia. }
    exists (q - p)%nat. split; [lia|]. pose proof (HK K ltac:(lia)) as H1. pose proof (HK k ltac:(unfold k; lia)) as H2. cbv beta in H1, H2. fold p in H1. fold q in H2.
    assert (E1 : xs q = itr (q - p) T (xs p)) by (rewrite <- (iter_orbit T xs _ _ Hx); f_equal; lia). rewrite E1 in H2.
    pose proof (iter_nonexp T (q - p) y (xs p) HT) as H3. rewrite (norm_sub_sym y (xs p)) in H3. pose proof (tri_sub (itr (q - p) T y) (itr (q - p) T (xs p)) y). lra.
  - apply (bounded_orbit_fix HB T (fun n => itr n T y) M' HT); [reflexivity|exact HM'].
Qed.
End I.
