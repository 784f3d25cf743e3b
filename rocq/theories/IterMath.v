(** * Convergence of the recursions of the convex solvers (spaces where bounded sequences have convergent subsequences) *)
From Coq Require Import Psatz.
From Verif Require Import Base Space Spec ConvexFacts Smooth VSum M_ProxOp SpecOps SplitMath P_PG P_PG2 P_PG3 P_Multi3 Compact Fejer.
Open Scope R_scope.

Lemma prod_norm2 {E F : IPS} (a c : E) (b d : F) : norm2 (((a, b) : Prod_IPS E F) [-] ((c, d) : Prod_IPS E F)) = norm2 (a [-] c) + norm2 (b [-] d).
Proof. reflexivity. Qed.
Lemma prod_vcv {E F : IPS} (u : nat -> Prod_IPS E F) (a : E) (b : F) : vcv u ((a, b) : Prod_IPS E F) <-> vcv (fun k => fst (u k)) a /\ vcv (fun k => snd (u k)) b.
Proof.
  rewrite !vcv_iff2. split.
  - intro H. split; (eapply Un_cv_squeeze; [|exact H]); intro k; cbn beta; change (norm2 (u k [-] ((a, b) : Prod_IPS E F))) with (norm2 (fst (u k) [-] a) + norm2 (snd (u k) [-] b));
      pose proof (norm2_nonneg (fst (u k) [-] a)); pose proof (norm2_nonneg (snd (u k) [-] b)); lra.
  - intros [H1 H2]. pose proof (CV_plus _ _ _ _ H1 H2) as H. rewrite Rplus_0_r in H. exact H.
Qed.

Section I.
Context {E : IPS}.
Hypothesis HB : bw E.
Implicit Types (f g : efun E) (xs ys zs us ps : nat -> E).

Lemma pp_cv f tau xs : convex f -> 0 < tau -> (forall x, exists p, is_prox f tau x p) -> (forall j, is_prox f tau (xs j) (xs (S j))) -> (exists m, is_min f m) -> exists l, is_min f l /\ vcv xs l.
Proof.
  intros Hc Ht He Hs [m Hm]. assert (Hd : forall s k, is_min f s -> norm2 (xs (S k) [-] s) + 1 * norm2 (xs (S k) [-] xs k) <= norm2 (xs k [-] s)).
  { intros s k Hsm. pose proof (min_prox_fix f tau s Ht Hsm) as Hp. pose proof (prox_firm f tau _ _ _ _ Hc Ht (Hs k) Hp) as H.
    assert (Hid : norm2 (xs k [-] s) - norm2 (xs (S k) [-] s) - norm2 (xs (S k) [-] xs k) = 2 * (<< xs (S k) [-] s, xs k [-] s >> - norm2 (xs (S k) [-] s))) by iring. lra. }
  apply fejer_cv; [exact HB|exists m; exact Hm| |].
  - intros s k Hsm. specialize (Hd s k Hsm). pose proof (norm2_nonneg (xs (S k) [-] xs k)). lra.
  - intros l phi Hp Hl. assert (Hv : Un_cv (fun k => norm2 (xs (S k) [-] xs k)) 0) by (apply (drop_vanish (fun k => norm2 (xs k [-] m)) _ 1); [lra|intro; apply norm2_nonneg|intro; apply norm2_nonneg|intro k; apply Hd; exact Hm]).
    apply (prox_fix_min f tau); [exact Hc|exact Ht|]. apply (prox_limit f tau (fun k => xs (phi k)) (fun k => xs (S (phi k)))); auto.
    apply (vcv_close (fun k => xs (phi k))); [exact Hl|]. apply (Un_cv_sub (fun k => norm2 (xs (S k) [-] xs k)) 0 phi Hp Hv).
Qed.

(** averaged proximal gradient: one step *)
Lemma pg_averaged (fv : E -> R) df L g e tau eta x p z : smooth_convex fv df L -> 0 < L -> convex g -> 0 < e -> 0 < tau -> 0 < eta ->
  is_prox g (e * tau) (x [-] tau [*] df x) p -> is_prox g (e * tau) (z [-] tau [*] df z) z ->
  norm2 (x [+] eta [*] (p [-] x) [-] z) + eta * (2 - tau * L / 2 - eta) * norm2 (p [-] x) <= norm2 (x [-] z).
Proof.
  intros Hs HL Hg He Ht Hn Hp Hz. assert (Het : 0 < e * tau) by (apply Rmult_lt_0_compat; assumption).
  pose proof (prox_firm g (e * tau) _ _ _ _ Hg Het Hp Hz) as H1. pose proof (cocoercive fv df L z x HL Hs) as H2.
  set (r := p [-] x). set (w := x [-] z) in *. set (d := df x [-] df z) in *.
  replace (p [-] z) with (r [+] w) in H1 by (unfold r, w; vring). replace (x [-] tau [*] df x [-] (z [-] tau [*] df z)) with (w [-] tau [*] d) in H1 by (unfold w, d; vring).
  replace (x [+] eta [*] r [-] z) with (w [+] eta [*] r) by (unfold w; vring).
  assert (H3 : 0 <= norm2 (d [+] (L / 2) [*] r)) by apply norm2_nonneg.
  assert (E3 : norm2 (d [+] (L / 2) [*] r) = norm2 d + L * << d, r >> + L * L / 4 * norm2 r) by (unfold norm2; inner_lin_all; rewrite (inner_sym r d); field).
  assert (E1 : << r [+] w, w [-] tau [*] d >> - norm2 (r [+] w) = - norm2 r - << r, w >> - tau * << d, r >> - tau * << d, w >>) by (unfold norm2; inner_lin_all; rewrite (inner_sym r d), (inner_sym w d), (inner_sym w r); ring).
  assert (E2 : norm2 (w [+] eta [*] r) = norm2 w + 2 * eta * << r, w >> + eta * eta * norm2 r) by (unfold norm2; inner_lin_all; rewrite (inner_sym w r); ring).
  rewrite E2. rewrite E3 in H3.
  assert (K : << r, w >> <= - norm2 r + tau * L / 4 * norm2 r).
  { assert (H4 : 0 <= tau * (L * << d, w >> + L * << d, r >> + L * L / 4 * norm2 r)) by (apply Rmult_le_pos; lra).
    assert (H5 : 0 <= tau * (<< d, w >> + << d, r >> + L / 4 * norm2 r)).
    { apply (Rmult_le_reg_l L); [exact HL|]. rewrite Rmult_0_r. replace (L * (tau * (<< d, w >> + << d, r >> + L / 4 * norm2 r))) with (tau * (L * << d, w >> + L * << d, r >> + L * L / 4 * norm2 r)) by field. exact H4. }
    lra. }
  apply (Rmult_le_compat_l (2 * eta)) in K; [|lra]. lra.
Qed.
Lemma pg_cv (fv : E -> R) df L g e tau eta xs ps : convex (etot fv) -> 0 < L -> L_smooth fv df L -> convex g -> 0 < e -> 0 < tau -> 0 < eta < 2 - tau * L / 2 ->
  (forall x, exists p, is_prox g (e * tau) x p) ->
  (forall j, is_prox g (e * tau) (xs j [-] tau [*] df (xs j)) (ps j) /\ xs (S j) = xs j [+] eta [*] (ps j [-] xs j)) ->
  (exists m, is_min (eadd (etot fv) (escal e g)) m) -> exists l, is_min (eadd (etot fv) (escal e g)) l /\ vcv xs l.
Proof.
  intros Hc HL Hs Hg He Ht Hn Hex Hr [m Hm]. pose proof (L_smooth_convex fv df L Hc Hs) as Hsc.
  assert (Het : 0 < e * tau) by (apply Rmult_lt_0_compat; assumption).
  assert (Hfix : forall x, is_prox g (e * tau) (x [-] tau [*] df x) x <-> is_min (eadd (etot fv) (escal e g)) x) by (intro x; apply (pg_fix_min fv df L); assumption).
  set (c := eta * (2 - tau * L / 2 - eta)). assert (Hcp : 0 < c) by (apply Rmult_lt_0_compat; lra).
  assert (Hd : forall s k, is_min (eadd (etot fv) (escal e g)) s -> norm2 (xs (S k) [-] s) + c * norm2 (ps k [-] xs k) <= norm2 (xs k [-] s)).
  { intros s k Hsm. destruct (Hr k) as [A1 A2]. rewrite A2. apply (pg_averaged fv df L g e tau eta); auto; [lra|]. apply Hfix. exact Hsm. }
  apply fejer_cv; [exact HB|exists m; exact Hm| |].
  - intros s k Hsm. specialize (Hd s k Hsm). pose proof (norm2_nonneg (ps k [-] xs k)). assert (0 <= c * norm2 (ps k [-] xs k)) by (apply Rmult_le_pos; lra). lra.
  - intros l phi Hp Hl. assert (Hv : Un_cv (fun k => norm2 (ps k [-] xs k)) 0) by (apply (drop_vanish (fun k => norm2 (xs k [-] m)) _ c); [lra|intro; apply norm2_nonneg|intro; apply norm2_nonneg|intro k; apply Hd; exact Hm]).
    apply Hfix. apply (prox_limit g (e * tau) (fun k => xs (phi k) [-] tau [*] df (xs (phi k))) (fun k => ps (phi k))); auto.
    + intro k. apply Hr.
    + apply vcv_minus; [exact Hl|]. apply vcv_scal. apply (vcv_map df L); [exact HL|apply Hs|exact Hl].
    + apply (vcv_close (fun k => xs (phi k))); [exact Hl|]. apply (Un_cv_sub (fun k => norm2 (ps k [-] xs k)) 0 phi Hp Hv).
Qed.

Lemma dr_cv f g tau eta xs ps ys : convex f -> convex g -> 0 < tau -> 0 < eta < 2 -> (forall x, exists p, is_prox f tau x p) -> (forall x, exists p, is_prox g tau x p) ->
  (forall j, is_prox g tau (ys j) (xs j) /\ is_prox f tau (2 [*] xs j [-] ys j) (ps j) /\ ys (S j) = ys j [+] eta [*] (ps j [-] xs j)) ->
  (exists x u, kkt f g x u) -> exists l u, kkt f g l u /\ vcv xs l /\ vcv ys (l [-] tau [*] u).
Proof.
  intros Hf Hg Ht He Ef Eg Hr (xo & uo & Hk).
  set (Sol := fun y => exists x, is_prox g tau y x /\ is_prox f tau (2 [*] x [-] y) x).
  set (c := eta * (2 - eta)). assert (Hc : 0 < c) by (apply Rmult_lt_0_compat; lra).
  assert (Hd : forall s k, Sol s -> norm2 (ys (S k) [-] s) + c * norm2 (ps k [-] xs k) <= norm2 (ys k [-] s)).
  { intros s k (x & A & B). apply (dr_fejer f g tau eta xs ps ys (S k) Hf Hg Ht ltac:(lra)) with x; auto. intros j _. apply Hr. }
  assert (S0 : Sol (xo [-] tau [*] uo)) by (exists xo; apply (kkt_dr_fix f g tau xo uo Ht Hk)).
  destruct (fejer_cv ys Sol) as (y & (x & A & B) & Hy); [exact HB|exists (xo [-] tau [*] uo); exact S0| | |].
  - intros s k Hsm. specialize (Hd s k Hsm). pose proof (norm2_nonneg (ps k [-] xs k)). assert (0 <= c * norm2 (ps k [-] xs k)) by (apply Rmult_le_pos; lra). lra.
  - intros l phi Hp Hl. assert (Hv : Un_cv (fun k => norm2 (ps k [-] xs k)) 0) by (apply (drop_vanish (fun k => norm2 (ys k [-] (xo [-] tau [*] uo))) _ c); [lra|intro; apply norm2_nonneg|intro; apply norm2_nonneg|intro k; apply Hd; exact S0]).
    destruct (Eg l) as [x Hx]. exists x. split; [exact Hx|].
    assert (Hxs : vcv (fun k => xs (phi k)) x) by (apply (prox_continuous g tau (fun k => ys (phi k)) _ l x); auto; intro k; apply Hr).
    apply (prox_limit f tau (fun k => 2 [*] xs (phi k) [-] ys (phi k)) (fun k => ps (phi k))); auto.
    + intro k. apply Hr.
    + apply vcv_minus; [apply vcv_scal; exact Hxs|exact Hl].
    + apply (vcv_close (fun k => xs (phi k))); [exact Hxs|]. apply (Un_cv_sub (fun k => norm2 (ps k [-] xs k)) 0 phi Hp Hv).
  - exists x, (/ tau [*] (x [-] y)). split; [apply dr_fix_kkt; assumption|]. split.
    + apply (prox_continuous g tau ys _ y x); auto. intro k. apply Hr.
    + replace (x [-] tau [*] (/ tau [*] (x [-] y))) with y by (vfield; lra). exact Hy.
Qed.

Lemma admm_cv f g tau xs zs us : convex f -> convex g -> 0 < tau -> (forall x, exists p, is_prox f tau x p) -> (forall x, exists p, is_prox g tau x p) ->
  (forall j, is_prox f tau (zs j [-] us j) (xs (S j)) /\ is_prox g tau (xs (S j) [+] us j) (zs (S j)) /\ us (S j) = us j [+] xs (S j) [-] zs (S j)) ->
  (exists x u, kkt f g x u) -> exists l u, kkt f g l u /\ vcv xs l /\ vcv zs l /\ vcv us (vopp (tau [*] u)).
Proof.
  intros Hf Hg Ht Ef Eg Hr (xo & uo & Hk).
  set (Sol := fun s : Prod_IPS E E => is_prox f tau (fst s [-] snd s) (fst s) /\ is_prox g tau (fst s [+] snd s) (fst s)).
  set (w := fun k => (zs k, us k) : Prod_IPS E E).
  assert (Hd : forall s k, Sol s -> norm2 (w (S k) [-] s) + 1 * norm2 ((zs (S k) [-] zs k) [+] (xs (S k) [-] zs (S k))) <= norm2 (w k [-] s)).
  { intros [z u] k [A B]. cbn [fst snd] in A, B. unfold w. rewrite !prod_norm2. destruct (Hr k) as (C1 & C2 & ->).
    pose proof (admm_step f g tau (zs k) (us k) (xs (S k)) (zs (S k)) z u Hf Hg Ht C1 C2 A B). cbn zeta in H. lra. }
  set (so := (xo, vopp (tau [*] uo)) : Prod_IPS E E).
  assert (S0 : Sol so).
  { unfold so. split; cbn [fst snd].
    - apply subgrad_prox; [exact Ht|]. replace (/ tau [*] (xo [-] vopp (tau [*] uo) [-] xo)) with uo by (vfield; lra). apply Hk.
    - apply subgrad_prox; [exact Ht|]. replace (/ tau [*] (xo [+] vopp (tau [*] uo) [-] xo)) with (vopp uo) by (vfield; lra). apply Hk. }
  assert (Hv : Un_cv (fun k => norm2 ((zs (S k) [-] zs k) [+] (xs (S k) [-] zs (S k)))) 0) by (apply (drop_vanish (fun k => norm2 (w k [-] so)) _ 1); [lra|intro; apply norm2_nonneg|intro; apply norm2_nonneg|intro k; apply Hd; exact S0]).
  assert (Hcr : forall k, norm2 (zs (S (S k)) [-] zs (S k)) + norm2 (xs (S (S k)) [-] zs (S (S k))) <= norm2 ((zs (S (S k)) [-] zs (S k)) [+] (xs (S (S k)) [-] zs (S (S k))))).
  { intro k. destruct (Hr k) as (C1 & C2 & C3). destruct (Hr (S k)) as (D1 & D2 & D3). apply (admm_cross g tau (zs (S k)) (us (S k)) (xs (S (S k))) (zs (S (S k))) (xs (S k) [+] us k)); auto. rewrite C3. vring. }
  assert (Hz : Un_cv (fun k => norm2 (zs (S (S k)) [-] zs (S k))) 0).
  { apply (Un_cv_squeeze _ (fun k => norm2 ((zs (S (S k)) [-] zs (S k)) [+] (xs (S (S k)) [-] zs (S (S k)))))); [|apply (Un_cv_sub _ 0 S (fun k => Nat.lt_succ_diag_r _) Hv)].
    intro k. specialize (Hcr k). pose proof (norm2_nonneg (zs (S (S k)) [-] zs (S k))). pose proof (norm2_nonneg (xs (S (S k)) [-] zs (S (S k)))). lra. }
  assert (Hx : Un_cv (fun k => norm2 (xs (S (S k)) [-] zs (S (S k)))) 0).
  { apply (Un_cv_squeeze _ (fun k => norm2 ((zs (S (S k)) [-] zs (S k)) [+] (xs (S (S k)) [-] zs (S (S k)))))); [|apply (Un_cv_sub _ 0 S (fun k => Nat.lt_succ_diag_r _) Hv)].
    intro k. specialize (Hcr k). pose proof (norm2_nonneg (zs (S (S k)) [-] zs (S k))). pose proof (norm2_nonneg (xs (S (S k)) [-] zs (S (S k)))). lra. }
  destruct (fejer_cv (fun k => w (S k)) Sol) as ([z u] & [A B] & Hw); [apply bw_prod; exact HB|exists so; exact S0| | |].
  - intros s k Hsm. specialize (Hd s (S k) Hsm). pose proof (norm2_nonneg ((zs (S (S k)) [-] zs (S k)) [+] (xs (S (S k)) [-] zs (S (S k))))). lra.
  - intros [z u] phi Hp Hl. apply prod_vcv in Hl as [Lz Lu]. unfold w in Lz, Lu. cbn [fst snd] in Lz, Lu.
    assert (Lz' : vcv (fun k => zs (S (S (phi k)))) z) by (apply (vcv_close (fun k => zs (S (phi k)))); [exact Lz|apply (Un_cv_sub _ 0 phi Hp Hz)]).
    assert (Lx' : vcv (fun k => xs (S (S (phi k)))) z) by (apply (vcv_close (fun k => zs (S (S (phi k))))); [exact Lz'|apply (Un_cv_sub _ 0 phi Hp Hx)]).
    split; cbn [fst snd].
    + apply (prox_limit f tau (fun k => zs (S (phi k)) [-] us (S (phi k))) (fun k => xs (S (S (phi k))))); auto; [intro k; apply Hr|apply vcv_minus; assumption].
    + apply (prox_limit g tau (fun k => xs (S (S (phi k))) [+] us (S (phi k))) (fun k => zs (S (S (phi k))))); auto; [intro k; apply Hr|apply vcv_add; assumption].
  - cbn [fst snd] in A, B. apply prod_vcv in Hw as [Lz Lu]. unfold w in Lz, Lu. cbn [fst snd] in Lz, Lu. exists z, (vopp (/ tau [*] u)). split; [split|split; [|split]].
    + apply prox_subgrad in A; auto. replace (vopp (/ tau [*] u)) with (/ tau [*] (z [-] u [-] z)) by vring. exact A.
    + apply prox_subgrad in B; auto. replace (vopp (vopp (/ tau [*] u))) with (/ tau [*] (z [+] u [-] z)) by vring. exact B.
    + apply vcv_unshift, vcv_unshift. apply (vcv_close (fun k => zs (S (S k)))); [apply (vcv_shift (fun k => zs (S k))); exact Lz|exact Hx].
    + apply vcv_unshift. exact Lz.
    + apply vcv_unshift. replace (vopp (tau [*] vopp (/ tau [*] u))) with u by (vfield; lra). exact Lu.
Qed.

(** the penalised problem min_{w,v} f(w) + g(v) + |w-v|^2/(2 tau) *)
Definition hqs_min f g tau x z : Prop := edom f x /\ edom g z /\
  forall w v, edom f w -> edom g v -> eval f x + eval g z + / (2 * tau) * norm2 (x [-] z) <= eval f w + eval g v + / (2 * tau) * norm2 (w [-] v).
Lemma hqs_min_fix f g tau x z : convex f -> convex g -> 0 < tau -> (hqs_min f g tau x z <-> is_prox g tau x z /\ is_prox f tau z x).
Proof.
  intros Hf Hg Ht. split.
  - intros (A & B & H). split; (split; [assumption|]); intros y Hy.
    + specialize (H x y A Hy). rewrite (norm2_sub_sym z x), (norm2_sub_sym y x). lra.
    + specialize (H y z Hy B). lra.
  - intros [Hz Hx]. split; [apply Hx|]. split; [apply Hz|]. intros w v Hw Hv. pose proof (hqs_step f g tau x z x w v Hf Hg Ht Hz Hx Hw Hv) as H.
    apply Rnot_lt_le. intro Hl. assert (0 < 2 * tau * (eval f x + eval g z + / (2 * tau) * norm2 (x [-] z) - (eval f w + eval g v + / (2 * tau) * norm2 (w [-] v)))) by (apply Rmult_lt_0_compat; lra). lra.
Qed.
Lemma hqs_cv f g tau xs zs : convex f -> convex g -> 0 < tau -> (forall x, exists p, is_prox f tau x p) -> (forall x, exists p, is_prox g tau x p) ->
  (forall j, is_prox g tau (xs j) (zs (S j)) /\ is_prox f tau (zs (S j)) (xs (S j))) ->
  (exists x z, hqs_min f g tau x z) -> exists x z, hqs_min f g tau x z /\ vcv xs x /\ vcv zs z.
Proof.
  intros Hf Hg Ht Ef Eg Hr (xo & zo & Hm).
  set (Sol := fun x => exists z, is_prox g tau x z /\ is_prox f tau z x).
  set (drop := fun k x z => norm2 ((xs k [-] zs (S k)) [-] (x [-] z)) + norm2 ((zs (S k) [-] xs (S k)) [-] (z [-] x))).
  assert (Hd : forall x z k, is_prox g tau x z -> is_prox f tau z x -> norm2 (xs (S k) [-] x) + 1 * drop k x z <= norm2 (xs k [-] x)).
  { intros x z k A B. destruct (Hr k) as [C1 C2]. pose proof (prox_firm g tau _ _ _ _ Hg Ht C1 A) as H1. pose proof (prox_firm f tau _ _ _ _ Hf Ht C2 B) as H2. unfold drop.
    assert (I1 : norm2 (xs k [-] x) - norm2 (zs (S k) [-] z) - norm2 ((xs k [-] zs (S k)) [-] (x [-] z)) = 2 * (<< zs (S k) [-] z, xs k [-] x >> - norm2 (zs (S k) [-] z))) by iring.
    assert (I2 : norm2 (zs (S k) [-] z) - norm2 (xs (S k) [-] x) - norm2 ((zs (S k) [-] xs (S k)) [-] (z [-] x)) = 2 * (<< xs (S k) [-] x, zs (S k) [-] z >> - norm2 (xs (S k) [-] x))) by iring.
    lra. }
  assert (Hdp : forall k x z, 0 <= drop k x z) by (intros k x z; unfold drop; pose proof (norm2_nonneg ((xs k [-] zs (S k)) [-] (x [-] z))); pose proof (norm2_nonneg ((zs (S k) [-] xs (S k)) [-] (z [-] x))); lra).
  apply hqs_min_fix in Hm as [Mo1 Mo2]; auto.
  destruct (fejer_cv xs Sol) as (x & (z & A & B) & Hx); [exact HB|exists xo, zo; auto| | |].
  - intros x k (z & A & B). specialize (Hd x z k A B). specialize (Hdp k x z). lra.
  - intros l phi Hp Hl.
    assert (Hv : Un_cv (fun k => drop k xo zo) 0) by (apply (drop_vanish (fun k => norm2 (xs k [-] xo)) _ 1); [lra|intro; apply norm2_nonneg|intro; apply Hdp|intro k; apply Hd; auto]).
    assert (Hv2 : Un_cv (fun k => norm2 (xs (S k) [-] xs k)) 0).
    { apply (Un_cv_squeeze _ (fun k => 2 * drop k xo zo)).
      - intro k. split; [apply norm2_nonneg|]. unfold drop. set (a := xs k [-] zs (S k) [-] (xo [-] zo)). set (b := zs (S k) [-] xs (S k) [-] (zo [-] xo)).
        replace (xs (S k) [-] xs k) with (vopp (a [+] b)) by (unfold a, b; vring). pose proof (norm2_nonneg (a [-] b)) as Hab.
        assert (Hi : norm2 (vopp (a [+] b)) + norm2 (a [-] b) = 2 * (norm2 a + norm2 b)) by iring. lra.
      - replace 0 with (2 * 0) by ring. apply (CV_mult (fun _ => 2)); [apply Un_cv_const|exact Hv]. }
    destruct (Eg l) as [z Hz]. exists z. split; [exact Hz|].
    assert (Lz : vcv (fun k => zs (S (phi k))) z) by (apply (prox_continuous g tau (fun k => xs (phi k)) _ l z); auto; intro k; apply Hr).
    apply (prox_limit f tau (fun k => zs (S (phi k))) (fun k => xs (S (phi k)))); auto; [intro k; apply Hr|].
    apply (vcv_close (fun k => xs (phi k))); [exact Hl|]. apply (Un_cv_sub (fun k => norm2 (xs (S k) [-] xs k)) 0 phi Hp Hv2).
  - exists x, z. split; [apply hqs_min_fix; auto|]. split; [exact Hx|]. apply vcv_unshift. apply (prox_continuous g tau xs _ x z); auto. intro k. apply Hr.
Qed.
End I.
