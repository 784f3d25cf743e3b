(** * The level search of QuadraticEnvelopeCardIndicator.prox (M_QE.v) *)
From Coq Require Import Permutation Sorting.
From Verif Require Import Base Space Spec SpecOps ConvexFacts Sep M_ProxOp M_L1 M_Pen MatFacts VSum M_Proj M_L0 P_L0 M_SVD M_QE P_QE.

Lemma where_min_ok c l : (exists j, (j < length l)%nat /\ c (nth j l 0) = true) ->
  exists i, where_min c l = Ok i /\ (i < length l)%nat /\ c (nth i l 0) = true /\ forall j, (j < i)%nat -> c (nth j l 0) = false.
Proof.
  induction l as [|a l IH]; intros [j [Hj Hc]]; simpl in Hj; [lia|]. simpl where_min. destruct (c a) eqn:Ea.
  - exists 0%nat. repeat split; auto; [simpl; lia|]. intros; lia.
  - destruct j as [|j]; [simpl in Hc; congruence|]. destruct IH as [i [Hi [H1 [H2 H3]]]]; [exists j; split; [lia|exact Hc]|].
    exists (S i). rewrite Hi. simpl. repeat split; auto; [lia|]. intros [|k] Hk; simpl; auto. apply H3. lia.
Qed.
Lemma where_max_none c l e : where_max c l = Err e -> forall j, (j < length l)%nat -> c (nth j l 0) = false.
Proof.
  revert e. induction l as [|a l IH]; intros e H j Hj; simpl in Hj; [lia|]. simpl in H. destruct (where_max c l) as [i|e'] eqn:E; [discriminate|].
  destruct (c a) eqn:Ea; [discriminate|]. destruct j; simpl; auto. apply (IH e'); auto. lia.
Qed.
Lemma where_max_ok c l : (exists j, (j < length l)%nat /\ c (nth j l 0) = true) ->
  exists i, where_max c l = Ok i /\ (i < length l)%nat /\ c (nth i l 0) = true /\ forall j, (i < j < length l)%nat -> c (nth j l 0) = false.
Proof.
  induction l as [|a l IH]; intros [j [Hj Hc]]; simpl in Hj; [lia|]. simpl where_max. destruct (where_max c l) as [i|e] eqn:E.
  - assert (HE : exists j, (j < length l)%nat /\ c (nth j l 0) = true).
    { clear IH Hj Hc. revert i E. induction l as [|b l IHl]; intros i E; [discriminate|]. simpl in E. destruct (where_max c l) as [k|e] eqn:E2.
      - destruct (IHl k eq_refl) as [q [H1 H2]]. exists (S q). simpl. split; [lia|auto].
      - destruct (c b) eqn:Eb; [|discriminate]. exists 0%nat. simpl. split; [lia|auto]. }
    destruct (IH HE) as [i' [Hi [H1 [H2 H3]]]]. injection Hi as <-. exists (S i). simpl. repeat split; auto; [lia|]. intros [|k] Hk; [lia|]. apply H3. lia.
  - pose proof (where_max_none c l e E) as HN. destruct j as [|j]; [|cbn [nth] in Hc; rewrite HN in Hc by lia; discriminate]. cbn [nth] in Hc. rewrite Hc. exists 0%nat.
    split; [reflexivity|]. split; [simpl; lia|]. split; [exact Hc|]. intros [|k] Hk; [lia|]. simpl. apply HN. simpl in Hk. lia.
Qed.
Lemma skipn_nth {A} m (l : list A) d j : nth j (skipn m l) d = nth (m + j) l d.
Proof. revert l. induction m as [|m IH]; intros [|a l]; simpl; auto. destruct j; reflexivity. Qed.
Lemma firstn_nth {A} m (l : list A) d j : (j < m)%nat -> nth j (firstn m l) d = nth j l d.
Proof. revert l j. induction m as [|m IH]; intros [|a l] j Hj; [lia|lia|reflexivity|]. simpl. destruct j; auto. apply IH. lia. Qed.
Lemma slice_nth a b l j : (j < b - a)%nat -> nth j (slice a b l) 0 = nth (a + j) l 0.
Proof. intro H. unfold slice. rewrite firstn_nth, skipn_nth by auto. reflexivity. Qed.
Lemma slice_length a b l : (a <= b <= length l)%nat -> length (slice a b l) = (b - a)%nat.
Proof. intro H. unfold slice. rewrite firstn_length, skipn_length. lia. Qed.
Lemma slice_sum a b l : (a <= b <= length l)%nat ->
  Rsum (slice a b l) = RS (length l) (fun j => if (a <=? j)%nat && (j <? b)%nat then nth j l 0 else 0).
Proof.
  intro H. rewrite Rsum_RS, slice_length by auto. replace (length l) with (a + ((b - a) + (length l - b)))%nat at 1 by lia.
  rewrite RS_split, RS_split. rewrite (RS_ext a _ (fun _ => 0)), RS_zero.
  2:{ intros i Hi. destruct (Nat.leb_spec a i); [lia|reflexivity]. }
  rewrite (RS_ext (length l - b) _ (fun _ => 0)), RS_zero.
  2:{ intros i Hi. destruct (Nat.ltb_spec (a + (b - a + i)) b); [lia|]. rewrite andb_false_r. reflexivity. }
  rewrite Rplus_0_l, Rplus_0_r. apply RS_ext. intros i Hi. unfold nthr. rewrite slice_nth by auto.
  destruct (Nat.leb_spec a (a + i)); [|lia]. destruct (Nat.ltb_spec (a + i) b); [reflexivity|lia].
Qed.

Section Core.
Context (argsort : list R -> list nat) (HA : argsort_ok argsort).
Context (rho : R) (Hrho : 1 < rho) (r0 : nat) (rs : list R).
Notation n := (length rs).
Context (Hr0 : (0 < r0 < n)%nat) (Hsort : forall i j, (i <= j < n)%nat -> nth j rs 0 <= nth i rs 0) (Hpos : forall j, (j < n)%nat -> 0 <= nth j rs 0).
Notation r := (fun j => nth j rs 0).
Notation w := (fun j => nth j (ci_scale rho r0 rs) 0).

Lemma scale_length : length (ci_scale rho r0 rs) = n.
Proof. unfold ci_scale. rewrite app_length, map_length, firstn_length, skipn_length. lia. Qed.
Lemma scale_top j : (j < r0)%nat -> nth j (ci_scale rho r0 rs) 0 = nth j rs 0.
Proof. intro H. unfold ci_scale. rewrite app_nth1 by (rewrite firstn_length; lia). apply firstn_nth. auto. Qed.
Lemma scale_bot j : (r0 <= j < n)%nat -> nth j (ci_scale rho r0 rs) 0 = rho * nth j rs 0.
Proof.
  intro H. unfold ci_scale. rewrite app_nth2 by (rewrite firstn_length; lia). rewrite firstn_length.
  rewrite (map_nth_lt (Rmult rho) _ _ 0 0) by (rewrite skipn_length; lia). rewrite skipn_nth. do 2 f_equal. lia.
Qed.

Definition lo : R := nth (r0 - 1) rs 0.
Definition hi : R := rho * nth r0 rs 0.
(** the balance of the level t: zero exactly at the right level *)
Definition bal (t : R) : R := RS n (fun j => if (j <? r0)%nat then - (rho * Rmax 0 (t - r j)) else Rmax 0 (rho * r j - t)).
Definition lin (s t : R) : R := RS n (fun j => if (j <? r0)%nat then (if Rleb (w j) s then rho * (r j - t) else 0)
                                               else (if Rleb s (w j) then rho * r j - t else 0)).

Lemma level_ok s : lo <= s <= hi -> exists sI D, ci_level rho r0 rs (ci_scale rho r0 rs) s = Ok sI /\ 0 < D /\ forall t, lin s t = D * (sI - t).
Proof.
  intros Hs. unfold ci_level.
  destruct (where_min_ok (fun a => Rleb a s) (ci_scale rho r0 rs)) as [i1 [E1 [L1 [C1 M1]]]].
  { exists (r0 - 1)%nat. rewrite scale_length. split; [lia|]. apply Rleb_true. rewrite scale_top by lia. apply Hs. }
  destruct (where_max_ok (fun a => Rleb s a) (ci_scale rho r0 rs)) as [i2 [E2 [L2 [C2 M2]]]].
  { exists r0. rewrite scale_length. split; [lia|]. apply Rleb_true. rewrite scale_bot by lia. apply Hs. }
  rewrite scale_length in L1, L2, M2. rewrite E1, E2. cbn [bind].
  assert (B1 : (i1 < r0)%nat).
  { destruct (Nat.lt_ge_cases i1 r0); auto. specialize (M1 (r0 - 1)%nat ltac:(lia)). simpl in M1. apply Rleb_false in M1.
    rewrite scale_top in M1 by lia. unfold lo in Hs. lra. }
  assert (B2 : (r0 <= i2)%nat).
  { destruct (Nat.lt_ge_cases i2 r0); auto. specialize (M2 r0 ltac:(lia)). simpl in M2. apply Rleb_false in M2.
    rewrite scale_bot in M2 by lia. unfold hi in Hs. lra. }
  set (D := (INR r0 - INR i1) * rho + (INR i2 + 1 - INR r0) * 1).
  assert (I1 : INR i1 + 1 <= INR r0) by (rewrite <- S_INR; apply le_INR; lia). assert (I2 : INR r0 <= INR i2) by (apply le_INR; auto).
  assert (HD : 0 < D). { unfold D. assert (0 < (INR r0 - INR i1) * rho) by (apply Rmult_lt_0_compat; lra). lra. }
  eexists. exists D. split; [reflexivity|]. split; auto. intro t.
  assert (EN : lin s t = rho * Rsum (slice i1 (i2 + 1) rs) - t * D).
  { rewrite slice_sum by lia. rewrite <- RS_scal.
    assert (ED : D = RS n (fun j => rho * ((if (j <? r0)%nat then 1 else 0) - (if (j <? i1)%nat then 1 else 0)) + ((if (j <? i2 + 1)%nat then 1 else 0) - (if (j <? r0)%nat then 1 else 0)))).
    { rewrite RS_add, RS_scal, !RS_sub, !RS_head by lia. unfold D. rewrite plus_INR. simpl (INR 1). ring. }
    rewrite ED, <- RS_scal, <- RS_sub. apply RS_ext. intros j Hj. cbv beta.
    destruct (Nat.ltb_spec j r0) as [Hjr|Hjr].
    - destruct (Nat.ltb_spec j (i2 + 1)); [|lia]. destruct (Nat.ltb_spec j i1) as [Hj1|Hj1].
      + rewrite (M1 j Hj1). destruct (Nat.leb_spec i1 j); [lia|]. simpl. ring.
      + destruct (Nat.leb_spec i1 j); [|lia]. simpl.
        assert (Hc : Rleb (nth j (ci_scale rho r0 rs) 0) s = true).
        { apply Rleb_true. apply Rleb_true in C1. rewrite scale_top in * by lia. pose proof (Hsort i1 j ltac:(lia)). lra. }
        rewrite Hc. ring.
    - destruct (Nat.ltb_spec j i1); [lia|]. destruct (Nat.leb_spec i1 j); [|lia]. destruct (Nat.ltb_spec j (i2 + 1)) as [Hj2|Hj2]; simpl.
      + assert (Hc : Rleb s (nth j (ci_scale rho r0 rs) 0) = true).
        { apply Rleb_true. apply Rleb_true in C2. rewrite scale_bot in * by lia. pose proof (Hsort j i2 ltac:(lia)).
          apply Rle_trans with (1 := C2). apply Rmult_le_compat_l; lra. }
        rewrite Hc. ring.
      + rewrite (M2 j) by lia. ring. }
  rewrite EN. field. lra.
Qed.

Lemma lin_bal z1 z2 t : z2 <= t <= z1 -> (forall j, (j < n)%nat -> z1 <= w j \/ w j <= z2) -> lin ((z1 + z2) / 2) t = bal t.
Proof.
  intros Ht Hg. apply RS_ext. intros j Hj. cbv beta. specialize (Hg j Hj). cbv beta in Hg. destruct (Nat.ltb_spec j r0) as [Hjr|Hjr].
  - rewrite scale_top in * by auto. destruct (Rleb_spec (nth j rs 0) ((z1 + z2) / 2)) as [[H ->]|[H ->]].
    + rewrite Rmax_right by (destruct Hg; lra). ring.
    + rewrite Rmax_left by (destruct Hg; lra). ring.
  - rewrite scale_bot in * by lia. destruct (Rleb_spec ((z1 + z2) / 2) (rho * nth j rs 0)) as [[H ->]|[H ->]].
    + rewrite Rmax_right by (destruct Hg; lra). ring.
    + rewrite Rmax_left by (destruct Hg; lra). ring.
Qed.
Lemma bal_lo : 0 <= bal lo.
Proof.
  apply RS_nonneg. intros j Hj. destruct (Nat.ltb_spec j r0) as [H|H]; [|apply Rmax_l].
  rewrite Rmax_left; [lra|]. pose proof (Hsort j (r0 - 1)%nat ltac:(lia)). unfold lo. lra.
Qed.
Lemma bal_hi : bal hi <= 0.
Proof.
  unfold bal. apply Rle_trans with (RS n (fun _ => 0)); [|rewrite RS_zero; lra]. apply RS_le. intros j Hj. destruct (Nat.ltb_spec j r0) as [H|H].
  - pose proof (Rmax_l 0 (hi - nth j rs 0)). assert (0 <= rho * Rmax 0 (hi - nth j rs 0)) by (apply Rmult_le_pos; lra). lra.
  - rewrite Rmax_left; [lra|]. pose proof (Hsort r0 j ltac:(lia)). unfold hi. assert (rho * nth j rs 0 <= rho * nth r0 rs 0) by (apply Rmult_le_compat_l; lra). lra.
Qed.

Lemma search_ok zs : forall z1, StronglySorted (fun a b => b <= a) (z1 :: zs) -> last (z1 :: zs) 0 = lo -> lo <= z1 <= hi ->
  (forall j, (j < n)%nat -> z1 <= w j \/ In (w j) zs \/ w j <= lo) ->
  bal z1 <= 0 -> (zs = [] -> bal z1 < 0) ->
  exists sI, ci_search rho r0 rs (ci_scale rho r0 rs) z1 zs = Ok (ci_clip r0 (ci_scale rho r0 rs) sI) /\ lo <= sI <= hi /\ bal sI = 0.
Proof.
  induction zs as [|z2 zs IH]; intros z1 HS HL H1 Hg Hb He.
  - simpl in HL. subst z1. pose proof bal_lo. specialize (He eq_refl). lra.
  - assert (HS2 := HS). inversion HS2 as [|? ? HS1 HF]; subst. assert (H21 : z2 <= z1) by (rewrite Forall_forall in HF; apply HF; left; auto).
    assert (Hlo2 : lo <= z2).
    { inversion HS1 as [|? ? _ HF2]; subst. change (last (z2 :: zs) 0 = lo) in HL. destruct (@exists_last _ (z2 :: zs)) as [l' [e El]]; [discriminate|].
      rewrite El, last_last in HL. subst e. assert (HI : In lo (z2 :: zs)) by (rewrite El; apply in_or_app; right; left; auto).
      destruct HI as [->|HI]; [lra|]. rewrite Forall_forall in HF2. apply HF2. auto. }
    assert (Hgap : forall j, (j < n)%nat -> z1 <= w j \/ w j <= z2).
    { intros j Hj. destruct (Hg j Hj) as [H|[[H|H]|H]]; auto; [right; cbv beta in *; lra| |right; cbv beta in *; lra].
      right. inversion HS1 as [|? ? _ HF2]; subst. rewrite Forall_forall in HF2. apply HF2. auto. }
    destruct (level_ok ((z1 + z2) / 2) ltac:(lra)) as [sI [D [E [HD HLn]]]]. cbn [ci_search]. rewrite E. cbn [bind].
    assert (Hlin : forall t, z2 <= t <= z1 -> bal t = D * (sI - t)) by (intros t Ht; rewrite <- (lin_bal z1 z2 t Ht Hgap); apply HLn).
    destruct (Rleb_spec z2 sI) as [[A1 ->]|[A1 ->]]; destruct (Rleb_spec sI z1) as [[A2 ->]|[A2 ->]]; cbn [andb].
    + exists sI. split; [reflexivity|]. split; [lra|]. rewrite Hlin by lra. ring.
    + exfalso. rewrite (Hlin z1) in Hb by lra. assert (0 < D * (sI - z1)) by (apply Rmult_lt_0_compat; lra). lra.
    + assert (Hb2 : bal z2 < 0). { rewrite (Hlin z2) by lra. replace (D * (sI - z2)) with (- (D * (z2 - sI))) by ring. assert (0 < D * (z2 - sI)) by (apply Rmult_lt_0_compat; lra). lra. }
      apply IH; auto; [lra| |lra]. intros j Hj. destruct (Hg j Hj) as [H|[[H|H]|H]]; auto; left; cbv beta in *; lra.
    + exfalso. lra.
Qed.

(** what the rest of the proof needs to know about the computed magnitudes *)
Definition good (zl : list R) : Prop := length zl = n /\ exists (th : nat -> R) s, 0 <= s /\ RS n th = INR r0 /\
  forall j, (j < n)%nat -> 0 <= th j <= 1 /\ 0 <= nth j zl 0 /\ (r j = 0 -> nth j zl 0 = 0) /\
    (rho * r j - nth j zl 0) / (rho - 1) = th j * nth j zl 0 /\ (th j = 1 \/ nth j zl 0 <= s) /\ (th j = 0 \/ s <= nth j zl 0).

Ltac six t1 t2 t3 t4 t5 t6 := split; [t1|split; [t2|split; [t3|split; [t4|split; [t5|t6]]]]].
Ltac or_lra := solve [left; lra | right; lra].
Lemma sep_good : hi < lo -> good (ci_scale rho r0 rs).
Proof.
  intro Hsep. split; [apply scale_length|]. exists (fun j => if (j <? r0)%nat then 1 else 0), lo. split; [apply Hpos; lia|]. split; [apply RS_head; lia|].
  intros j Hj. pose proof (Hpos j Hj). destruct (Nat.ltb_spec j r0) as [H0|H0].
  - rewrite scale_top by auto. pose proof (Hsort j (r0 - 1)%nat ltac:(lia)). fold lo in H1. six lra lra auto ltac:(field; lra) or_lra or_lra.
  - rewrite scale_bot by lia. pose proof (Hsort r0 j ltac:(lia)). assert (rho * nth j rs 0 <= hi) by (apply Rmult_le_compat_l; lra).
    six lra ltac:(apply Rmult_le_pos; lra) ltac:(intros ->; ring) ltac:(field; lra) or_lra or_lra.
Qed.
Lemma clip_top s j : (j < r0)%nat -> nth j (ci_clip r0 (ci_scale rho r0 rs) s) 0 = Rmax (nth j rs 0) s.
Proof.
  intro H. unfold ci_clip. rewrite app_nth1 by (rewrite map_length, firstn_length, scale_length; lia).
  rewrite (map_nth_lt (fun a => Rmax a s) _ _ 0 0) by (rewrite firstn_length, scale_length; lia). rewrite firstn_nth, scale_top by auto. reflexivity.
Qed.
Lemma clip_bot s j : (r0 <= j < n)%nat -> nth j (ci_clip r0 (ci_scale rho r0 rs) s) 0 = Rmin (rho * nth j rs 0) s.
Proof.
  intro H. unfold ci_clip. rewrite app_nth2 by (rewrite map_length, firstn_length, scale_length; lia). rewrite map_length, firstn_length, scale_length.
  rewrite (map_nth_lt (fun a => Rmin a s) _ _ 0 0) by (rewrite skipn_length, scale_length; lia). rewrite skipn_nth.
  replace (r0 + (j - Nat.min r0 n))%nat with j by lia. rewrite scale_bot by auto. reflexivity.
Qed.
Lemma clip_good s : lo <= s <= hi -> bal s = 0 -> good (ci_clip r0 (ci_scale rho r0 rs) s).
Proof.
  intros Hs Hb. assert (Hs0 : 0 <= s) by (pose proof (Hpos (r0 - 1)%nat ltac:(lia)); unfold lo in Hs; lra).
  split. { unfold ci_clip. rewrite app_length, !map_length, firstn_length, skipn_length, scale_length. lia. }
  set (f := fun j => (rho * r j - s) / ((rho - 1) * s)).
  set (th := fun j => if (j <? r0)%nat then (if Rleb s (r j) then 1 else f j) else (if Rleb (rho * r j) s then 0 else f j)).
  exists th, s. split; auto.
  assert (Hlow : forall j, (r0 <= j < n)%nat -> r j <= s) by (intros j Hj; pose proof (Hsort (r0 - 1)%nat j ltac:(lia)); unfold lo in Hs; cbv beta; lra).
  assert (Hup : forall j, (j < r0)%nat -> s <= rho * r j).
  { intros j Hj. pose proof (Hsort j r0 ltac:(lia)). unfold hi in Hs. assert (rho * nth r0 rs 0 <= rho * nth j rs 0) by (apply Rmult_le_compat_l; lra). cbv beta; lra. }
  split.
  - destruct (Rle_lt_or_eq_dec 0 s Hs0) as [Hsp|<-].
    + assert (Hk : 0 < (rho - 1) * s) by (apply Rmult_lt_0_compat; lra).
      assert (E : RS n (fun j => th j - (if (j <? r0)%nat then 1 else 0)) = / ((rho - 1) * s) * bal s).
      { unfold bal. rewrite <- RS_scal. apply RS_ext. intros j Hj. unfold th, f. destruct (Nat.ltb_spec j r0) as [H0|H0].
        - destruct (Rleb_spec s (nth j rs 0)) as [[H ->]|[H ->]]; [rewrite Rmax_left by lra; field; lra|rewrite Rmax_right by lra; field; lra].
        - destruct (Rleb_spec (rho * nth j rs 0) s) as [[H ->]|[H ->]]; [rewrite Rmax_left by lra; field; lra|rewrite Rmax_right by lra; field; lra]. }
      rewrite RS_sub, RS_head, Hb in E by lia. lra.
    + rewrite (RS_ext n th (fun j => if (j <? r0)%nat then 1 else 0)); [apply RS_head; lia|]. intros j Hj. unfold th. pose proof (Hpos j Hj).
      destruct (Nat.ltb_spec j r0) as [H0|H0].
      * destruct (Rleb_spec 0 (nth j rs 0)) as [[_ ->]|[? _]]; [auto|lra].
      * pose proof (Hlow j ltac:(lia)) as Hl. cbv beta in Hl. assert (Ej : nth j rs 0 = 0) by lra. rewrite Ej, Rmult_0_r.
        destruct (Rleb_spec 0 0) as [[_ ->]|[? _]]; [auto|lra].
  - intros j Hj. pose proof (Hpos j Hj). unfold th, f. destruct (Nat.ltb_spec j r0) as [H0|H0].
    + rewrite clip_top by auto. pose proof (Hup j H0) as Hu. cbv beta in Hu. destruct (Rleb_spec s (nth j rs 0)) as [[H1 ->]|[H1 ->]].
      * rewrite Rmax_left by lra. six lra lra auto ltac:(field; lra) or_lra or_lra.
      * rewrite Rmax_right by lra. assert (Hk : 0 < (rho - 1) * s) by (apply Rmult_lt_0_compat; lra).
        assert (Hf : 0 <= (rho * nth j rs 0 - s) / ((rho - 1) * s) <= 1).
        { split; [apply Rmult_le_pos; [lra|left; apply Rinv_0_lt_compat; auto]|].
          apply (Rmult_le_reg_r ((rho - 1) * s)); auto. unfold Rdiv. rewrite Rmult_assoc, Rinv_l, Rmult_1_r, Rmult_1_l by lra. nra. }
        six lra lra ltac:(intros E0; rewrite E0 in Hu; lra) ltac:(field; lra) or_lra or_lra.
    + rewrite clip_bot by lia. pose proof (Hlow j ltac:(lia)) as Hl. cbv beta in Hl. destruct (Rleb_spec (rho * nth j rs 0) s) as [[H1 ->]|[H1 ->]].
      * rewrite Rmin_left by lra. six lra ltac:(apply Rmult_le_pos; lra) ltac:(intros ->; ring) ltac:(field; lra) or_lra or_lra.
      * rewrite Rmin_right by lra. destruct (Rle_lt_or_eq_dec 0 s Hs0) as [Hsp|E0]; [|exfalso; rewrite <- E0 in *; assert (E1 : nth j rs 0 = 0) by lra; rewrite E1 in H1; lra].
        assert (Hk : 0 < (rho - 1) * s) by (apply Rmult_lt_0_compat; lra).
        assert (Hf : 0 <= (rho * nth j rs 0 - s) / ((rho - 1) * s) <= 1).
        { split; [apply Rmult_le_pos; [lra|left; apply Rinv_0_lt_compat; auto]|].
          apply (Rmult_le_reg_r ((rho - 1) * s)); auto. unfold Rdiv. rewrite Rmult_assoc, Rinv_l, Rmult_1_r, Rmult_1_l by lra. nra. }
        six lra lra ltac:(intros E0; rewrite E0 in H1; lra) ltac:(field; lra) or_lra or_lra.
Qed.

Lemma sort_perm (l : list R) : Permutation (np_sort argsort l) l.
Proof.
  destruct (HA l) as [HP _]. unfold np_sort, take. eapply perm_trans; [apply Permutation_map, HP|]. clear.
  assert (E : map (fun i => nth i l 0) (seq 0 (length l)) = l); [|rewrite E; auto].
  induction l as [|a l IH]; simpl; auto. f_equal. rewrite <- seq_shift, map_map. apply IH.
Qed.
Lemma sort_sorted (l : list R) : StronglySorted Rle (np_sort argsort l).
Proof.
  destruct (HA l) as [_ HS]. unfold np_sort, take. induction HS as [|a idx H IH HF]; simpl; constructor; auto.
  rewrite Forall_forall in *. intros b Hb. apply in_map_iff in Hb as [i [<- Hi]]. apply HF. auto.
Qed.
Lemma rev_sorted {A} (P : A -> A -> Prop) l : StronglySorted P l -> StronglySorted (fun a b => P b a) (rev l).
Proof.
  induction 1 as [|a l H IH HF]; simpl; [constructor|].
  assert (G : forall l1, StronglySorted (fun a b => P b a) l1 -> (forall b, In b l1 -> P a b) -> StronglySorted (fun a b => P b a) (l1 ++ [a])).
  { induction l1 as [|c l1 IH1]; intros H1 H2; simpl; [constructor; constructor|]. inversion H1; subst. constructor; [apply IH1; auto; intros; apply H2; right; auto|].
    rewrite Forall_forall in *. intros b Hb. apply in_app_or in Hb as [Hb|[<-|[]]]; auto. apply H2. left; auto. }
  apply G; auto. intros b Hb. rewrite Forall_forall in HF. apply HF. apply in_rev. auto.
Qed.

Lemma core_ok : exists zl, ci_core argsort rho r0 rs = Ok zl /\ good zl.
Proof.
  unfold ci_core. assert (Eprev : forall l, at_prev r0 l = nth (r0 - 1) l 0) by (intro l; unfold at_prev; destruct r0; [lia|]; f_equal; lia).
  rewrite !Eprev. fold lo hi. destruct (Rltb_spec hi lo) as [[Hsep ->]|[Hsep ->]].
  - eexists. split; [reflexivity|]. apply sep_good; auto.
  - rewrite scale_bot, scale_top by lia. fold hi lo.
    destruct (where_min_ok (fun a => Rleb a hi) (ci_scale rho r0 rs)) as [i1 [E1 [L1 [C1 M1]]]].
    { exists r0. rewrite scale_length. split; [lia|]. apply Rleb_true. rewrite scale_bot by lia. unfold hi. lra. }
    destruct (where_max_ok (fun a => Rleb lo a) (ci_scale rho r0 rs)) as [i2 [E2 [L2 [C2 M2]]]].
    { exists (r0 - 1)%nat. rewrite scale_length. split; [lia|]. apply Rleb_true. rewrite scale_top by lia. unfold lo. lra. }
    rewrite scale_length in L1, L2, M2. rewrite E1, E2. cbn [bind].
    assert (B1 : (i1 < r0)%nat).
    { destruct (Nat.lt_ge_cases i1 r0); auto. specialize (M1 (r0 - 1)%nat ltac:(lia)). simpl in M1. apply Rleb_false in M1. rewrite scale_top in M1 by lia. fold lo in M1. lra. }
    assert (B2 : (r0 <= i2)%nat).
    { destruct (Nat.lt_ge_cases i2 r0); auto. specialize (M2 r0 ltac:(lia)). simpl in M2. apply Rleb_false in M2. rewrite scale_bot in M2 by lia. fold hi in M2. lra. }
    set (sl := slice i1 (i2 + 1) (ci_scale rho r0 rs)). set (zl := rev (np_sort argsort sl)).
    assert (Hlen : length sl = (i2 + 1 - i1)%nat) by (apply slice_length; rewrite scale_length; lia).
    assert (HP : Permutation zl sl) by (unfold zl; eapply perm_trans; [apply Permutation_sym, Permutation_rev|apply sort_perm]).
    assert (HSd : StronglySorted (fun a b => b <= a) zl) by (apply rev_sorted, sort_sorted).
    assert (Hnth : forall j, (i1 <= j <= i2)%nat -> In (nth j (ci_scale rho r0 rs) 0) zl).
    { intros j Hj. apply (Permutation_in _ (Permutation_sym HP)). replace j with (i1 + (j - i1))%nat by lia. unfold sl. rewrite <- (slice_nth i1 (i2 + 1)) by lia. apply nth_In. fold sl. lia. }
    assert (Hrng : forall t, In t zl -> lo <= t <= hi).
    { intros t Ht. apply (Permutation_in _ HP) in Ht. apply (In_nth _ _ 0) in Ht as [j [Hj <-]]. rewrite Hlen in Hj. unfold sl. rewrite slice_nth by lia.
      set (q := (i1 + j)%nat). assert (Hq : (i1 <= q <= i2)%nat) by (unfold q; lia). clearbody q. apply Rleb_true in C1, C2. rewrite scale_top in C1 by lia. rewrite scale_bot in C2 by lia.
      destruct (Nat.lt_ge_cases q r0) as [Hq0|Hq0].
      - rewrite scale_top by auto. pose proof (Hsort i1 q ltac:(lia)). pose proof (Hsort q (r0 - 1)%nat ltac:(lia)). unfold lo. lra.
      - rewrite scale_bot by lia. pose proof (Hsort r0 q ltac:(lia)). pose proof (Hsort q i2 ltac:(lia)). split.
        + apply Rle_trans with (1 := C2). apply Rmult_le_compat_l; lra.
        + unfold hi. apply Rmult_le_compat_l; lra. }
    assert (Hhi : In hi zl) by (unfold hi; rewrite <- scale_bot by lia; apply Hnth; lia).
    assert (Hlo : In lo zl) by (unfold lo; rewrite <- scale_top by lia; apply Hnth; lia).
    assert (HL2 : length zl = length sl) by (apply Permutation_length; auto).
    fold sl. change (rev (np_sort argsort sl)) with zl. destruct zl as [|z1 zs] eqn:Ez; [contradiction|].
    assert (E1' : z1 = hi).
    { inversion HSd as [|? ? _ HF]; subst. destruct Hhi as [H|H]; auto. rewrite Forall_forall in HF. specialize (HF _ H). pose proof (Hrng z1 (or_introl eq_refl)). lra. }
    assert (Ezl : last (z1 :: zs) 0 = lo).
    { destruct (@exists_last _ (z1 :: zs)) as [l' [e El]]; [discriminate|]. rewrite El, last_last. rewrite El in HSd, Hlo, Hrng.
      pose proof (Hrng e ltac:(apply in_or_app; right; left; auto)). apply in_app_or in Hlo as [H'|[H'|[]]]; [|auto].
      pose proof (sorted_app _ _ _ HSd lo e H' ltac:(left; auto)) as HH. simpl in HH. lra. }
    destruct (search_ok zs z1) as [sI [ES [HI HB]]]; auto.
    + apply Hrng. left; auto.
    + intros j Hj. destruct (Nat.lt_ge_cases j i1) as [Hj1|Hj1].
      * left. specialize (M1 j Hj1). cbv beta in M1. apply Rleb_false in M1. lra.
      * destruct (Nat.le_gt_cases j i2) as [Hj2|Hj2].
        -- destruct (Hnth j ltac:(lia)) as [H|H]; [left; lra|right; left; auto].
        -- right; right. specialize (M2 j ltac:(lia)). cbv beta in M2. apply Rleb_false in M2. lra.
    + rewrite E1'. apply bal_hi.
    + intros ->. simpl in HL2. lia.
    + exists (ci_clip r0 (ci_scale rho r0 rs) sI). split; auto. apply clip_good; auto.
Qed.
End Core.
