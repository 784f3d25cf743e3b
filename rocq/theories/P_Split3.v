(** * Proofs about LinearizedADMM, ADMML2 and TwIST (M_Split.v) *)
From Coq Require Import Psatz String.
From Verif Require Import Base Space Spec ConvexFacts Smooth M_ProxOp SpecOps P_ProxOp M_Norms P_Norms M_Loop LoopFacts Trace SeqFacts M_PG M_Split SplitMath P_PG P_PG2 P_PG3 P_Split P_Split2.
From Verif Require Export S_Split3.
Open Scope result_scope.
Open Scope R_scope.


Section M.
Context {E F : IPS} (A : linop E F).

Lemma kktA_min (f : efun E) (g : efun F) x v : kktA f g A x v -> is_min (eadd f (epre g (lapp A))) x.
Proof.
  intros [[Hx Hf] [Hz Hg]]. split; [split; auto|]. intros y [Hy1 Hy2]. cbn [eval eadd epre] in *.
  specialize (Hf y Hy1). specialize (Hg (lapp A y) Hy2). rewrite inner_opp_l, ladj_spec', lapp_sub in Hf. lra.
Qed.

(** One step of an ADMM-like scheme in the dual space; Q is what the x-update contributes. *)
Lemma admmA_core (Q : R) (a z u z' u' zo uo : F) :
  0 <= Q - << u' [-] uo [+] (z' [-] z), a [-] zo >> -> 0 <= << u' [-] uo, z' [-] zo >> -> u' = u [+] a [-] z' ->
  norm2 (z' [-] zo) + norm2 (u' [-] uo) + norm2 (z' [-] z [+] (u' [-] u)) <= norm2 (z [-] zo) + norm2 (u [-] uo) + 2 * Q.
Proof.
  intros H1 H2 H3. assert (Ha : a = u' [-] u [+] z') by (rewrite H3; vring).
  assert (Hid : norm2 (z [-] zo) + norm2 (u [-] uo) - (norm2 (z' [-] zo) + norm2 (u' [-] uo) + norm2 (z' [-] z [+] (u' [-] u)))
     = - 2 * << u' [-] uo [+] (z' [-] z), a [-] zo >> + 2 * << u' [-] uo, z' [-] zo >>) by (rewrite Ha; iring).
  lra.
Qed.

Lemma subgrad_mono {G : IPS} (h : efun G) (x y p q : G) : is_subgrad h x p -> is_subgrad h y q -> 0 <= << p [-] q, x [-] y >>.
Proof.
  intros [Hx Hp] [Hy Hq]. specialize (Hp y Hy). specialize (Hq x Hx).
  replace (<< p [-] q, x [-] y >>) with (- << p, y [-] x >> - << q, x [-] y >>) by iring. lra.
Qed.

(** z' = prox(a + u), u' = u + a - z': u'/tau is a subgradient of g at z'. *)
Lemma dual_subgrad (g : efun F) tau a u z' u' : convex g -> 0 < tau -> is_prox g tau (a [+] u) z' -> u' = u [+] a [-] z' -> is_subgrad g z' (/ tau [*] u').
Proof.
  intros Hg Ht Hp Hu. apply prox_subgrad in Hp; auto. replace (/ tau [*] u') with (/ tau [*] (a [+] u [-] z')); auto. rewrite Hu. vring.
Qed.

(** ** Linearised ADMM *)
Local Notation la_doc := (S_Split3.la_doc A).

Local Notation la_metric := (S_Split3.la_metric A).

Lemma la_step f g tau mu x z u x' z' u' xo v : convex f -> convex g -> 0 < tau -> 0 < mu ->
  is_prox f mu (x [-] (mu / tau) [*] ladj A (lapp A x [-] z [+] u)) x' -> is_prox g tau (lapp A x' [+] u) z' -> u' = u [+] lapp A x' [-] z' ->
  kktA f g A xo v ->
  la_metric tau mu (x' [-] xo) + norm2 (z' [-] lapp A xo) + norm2 (u' [-] tau [*] v) + la_metric tau mu (x' [-] x) + norm2 (z' [-] z [+] (u' [-] u))
    <= la_metric tau mu (x [-] xo) + norm2 (z [-] lapp A xo) + norm2 (u [-] tau [*] v).
Proof.
  intros Hf Hg Ht Hm Hx Hz Hu [Kf Kg].
  assert (Sz : is_subgrad g z' (/ tau [*] u')) by (apply (dual_subgrad g tau (lapp A x') u); auto).
  apply prox_subgrad in Hx; auto. pose proof (subgrad_mono f _ _ _ _ Hx Kf) as M1. pose proof (subgrad_mono g _ _ _ _ Sz Kg) as M2.
  set (Q := tau / mu * << x [-] x', x' [-] xo >> - << lapp A x [-] lapp A x', lapp A x' [-] lapp A xo >>).
  assert (HQ : 0 <= Q - << u' [-] tau [*] v [+] (z' [-] z), lapp A x' [-] lapp A xo >>).
  { assert (Hid : Q - << u' [-] tau [*] v [+] (z' [-] z), lapp A x' [-] lapp A xo >> = tau *
      << / mu [*] (x [-] (mu / tau) [*] ladj A (lapp A x [-] z [+] u) [-] x') [-] vopp (ladj A v), x' [-] xo >>).
    { unfold Q. rewrite Hu. inner_lin_all. rewrite ?inner_opp_l, ?inner_opp_r, !ladj_spec'. inner_lin_all. field. lra. }
    rewrite Hid. apply Rmult_le_pos; lra. }
  assert (HM : 0 <= << u' [-] tau [*] v, z' [-] lapp A xo >>).
  { replace (<< u' [-] tau [*] v, z' [-] lapp A xo >>) with (tau * << / tau [*] u' [-] v, z' [-] lapp A xo >>) by (inner_lin_all; field; lra).
    apply Rmult_le_pos; lra. }
  pose proof (admmA_core Q (lapp A x') z u z' u' (lapp A xo) (tau [*] v) HQ HM Hu) as C.
  assert (H2Q : 2 * Q = la_metric tau mu (x [-] xo) - la_metric tau mu (x' [-] xo) - la_metric tau mu (x' [-] x)).
  { unfold Q, S_Split3.la_metric. rewrite !lapp_sub. iexp. field. lra. }
  lra.
Qed.

Lemma la_metric_pos tau mu d : 0 < mu -> (forall e, mu * norm2 (lapp A e) <= tau * norm2 e) -> 0 <= la_metric tau mu d.
Proof.
  intros Hm H. specialize (H d). unfold S_Split3.la_metric. apply (Rmult_le_reg_l mu); auto.
  replace (mu * (tau / mu * norm2 d - norm2 (lapp A d))) with (tau * norm2 d - mu * norm2 (lapp A d)) by (field; lra). lra.
Qed.

Lemma la_run (proxf : Op E) (proxg : Op F) f g tau mu x z Ax n :
  impl_prox proxf f -> impl_prox proxg g -> 0 < tau -> 0 < mu ->
  exists xs zs us s, for_loop (la_body proxf proxg A tau mu) n 0 (LA x Ax z vzero []) = Ok (s, n) /\
    la_x s = xs n /\ la_z s = zs n /\ la_tr s = map xs (seq 1 n) /\
    xs 0%nat = x /\ zs 0%nat = z /\ us 0%nat = vzero /\ la_doc f g tau mu xs zs us 1 n /\
    ((0 < n)%nat -> is_prox f mu (x [-] (mu / tau) [*] ladj A (Ax [-] z [+] vzero)) (xs 1%nat) /\
       is_prox g tau (lapp A (xs 1%nat) [+] vzero) (zs 1%nat) /\ us 1%nat = vzero [+] lapp A (xs 1%nat) [-] zs 1%nat).
Proof.
  intros Hf Hg Ht Hm.
  set (Rl := fun (j : nat) (s s' : la_state E F) => is_prox f mu (la_x s [-] (mu / tau) [*] ladj A (la_Ax s [-] la_z s [+] la_u s)) (la_x s') /\
     is_prox g tau (lapp A (la_x s') [+] la_u s) (la_z s') /\ la_u s' = la_u s [+] lapp A (la_x s') [-] la_z s' /\ la_tr s' = la_tr s ++ [la_x s']).
  destruct (loop_states (la_body proxf proxg A tau mu) (fun j s => (0 < j)%nat -> la_Ax s = lapp A (la_x s)) Rl n (LA x Ax z vzero [])) as [st [E1 [S0 [HP HR]]]].
  - intros; lia.
  - intros j s _ _. unfold la_body. rewrite pydiv_ok by lra. cbn [bind].
    destruct (Hf (la_x s [-] (mu / tau) [*] ladj A (la_Ax s [-] la_z s [+] la_u s)) mu Hm) as [p [-> Hp]]. cbn [bind].
    destruct (Hg (lapp A p [+] la_u s) tau Ht) as [q [-> Hq]]. cbn [bind].
    eexists. split; [reflexivity|]. split; [|reflexivity]. split; [exact Hp|]. split; [exact Hq|]. split; reflexivity.
  - exists (fun j => la_x (st j)), (fun j => la_z (st j)), (fun j => la_u (st j)), (st n).
    split; [exact E1|]. split; [reflexivity|]. split; [reflexivity|]. split.
    { apply (trace_states st la_tr la_x); [rewrite S0; auto|]. intros j Hj. destruct (HR j Hj) as [[_ [_ [_ H]]] _]. exact H. }
    rewrite S0. split; [reflexivity|]. split; [reflexivity|]. split; [reflexivity|]. split.
    + intros j Hj. destruct (HR j ltac:(lia)) as [[H1 [H2 [H3 _]]] _]. rewrite (HP j ltac:(lia)) in H1 by lia. auto.
    + intro Hn. destruct (HR 0%nat Hn) as [[H1 [H2 [H3 _]]] _]. rewrite S0 in *. auto.
Qed.

(** what holds from iteration i on *)
Lemma la_facts f g tau mu xs zs us i n : convex f -> convex g -> 0 < tau -> 0 < mu -> la_doc f g tau mu xs zs us i n ->
  (forall j, (i < j <= n)%nat -> edom f (xs j) /\ edom g (zs j)) /\
  (forall j, (i <= j < n)%nat -> xs (S j) = xs j -> zs (S j) = zs j -> us (S j) = us j ->
     lapp A (xs j) = zs j /\ is_min (eadd f (epre g (lapp A))) (xs j)) /\
  forall xo v, kktA f g A xo v ->
    let V := fun j => la_metric tau mu (xs j [-] xo) + norm2 (zs j [-] lapp A xo) + norm2 (us j [-] tau [*] v) in
    (forall j, (i <= j < n)%nat -> V (S j) + la_metric tau mu (xs (S j) [-] xs j) + norm2 (zs (S j) [-] zs j [+] (us (S j) [-] us j)) <= V j) /\
    (forall j, (i < j < n)%nat -> V (S j) + la_metric tau mu (xs (S j) [-] xs j) + norm2 (zs (S j) [-] zs j) + norm2 (lapp A (xs (S j)) [-] zs (S j)) <= V j).
Proof.
  intros Hf Hg Ht Hm Hd. split; [|split].
  - intros j Hj. destruct j as [|j]; [lia|]. destruct (Hd j ltac:(lia)) as [[A1 _] [[A2 _] _]]. auto.
  - intros j Hj Ex Ez Eu. destruct (Hd j Hj) as [H1 [H2 H3]]. rewrite Eu, Ex, Ez in *.
    assert (Hz : lapp A (xs j) = zs j).
    { apply vsub_eq. apply (f_equal (fun w => w [-] us j)) in H3. replace (us j [-] us j) with (vzero : F) in H3 by vring. rewrite H3. vring. }
    split; auto. rewrite Hz in *. apply prox_subgrad in H1; auto. apply prox_subgrad in H2; auto.
    apply (kktA_min f g (xs j) (/ tau [*] us j)). split.
    + replace (vopp (ladj A (/ tau [*] us j))) with (/ mu [*] (xs j [-] (mu / tau) [*] ladj A (zs j [-] zs j [+] us j) [-] xs j)); auto.
      replace (zs j [-] zs j [+] us j) with (us j) by vring. rewrite ladj_scal. vfield. lra.
    + rewrite Hz. replace (/ tau [*] us j) with (/ tau [*] (zs j [+] us j [-] zs j)) by vring. auto.
  - intros xo v Hk V.
    assert (Hs : forall j, (i <= j < n)%nat -> V (S j) + la_metric tau mu (xs (S j) [-] xs j) + norm2 (zs (S j) [-] zs j [+] (us (S j) [-] us j)) <= V j).
    { intros j Hj. destruct (Hd j Hj) as [H1 [H2 H3]].
      pose proof (la_step f g tau mu _ _ _ _ _ _ xo v Hf Hg Ht Hm H1 H2 H3 Hk). unfold V. lra. }
    split; auto. intros j Hj. specialize (Hs j ltac:(lia)).
    destruct (Hd j ltac:(lia)) as [_ [H2 H3]]. destruct j as [|j]; [lia|]. destruct (Hd j ltac:(lia)) as [_ [G2 G3]].
    pose proof (dual_subgrad g tau _ _ _ _ Hg Ht H2 H3) as S1. pose proof (dual_subgrad g tau _ _ _ _ Hg Ht G2 G3) as S2.
    pose proof (subgrad_mono g _ _ _ _ S1 S2) as M1.
    assert (M2 : 0 <= << us (S (S j)) [-] us (S j), zs (S (S j)) [-] zs (S j) >>).
    { replace (<< us (S (S j)) [-] us (S j), zs (S (S j)) [-] zs (S j) >>) with (tau * << / tau [*] us (S (S j)) [-] / tau [*] us (S j), zs (S (S j)) [-] zs (S j) >>)
        by (inner_lin_all; field; lra). apply Rmult_le_pos; lra. }
    assert (Hr : lapp A (xs (S (S j))) [-] zs (S (S j)) = us (S (S j)) [-] us (S j)) by (rewrite H3; vring).
    rewrite Hr.
    replace (norm2 (zs (S (S j)) [-] zs (S j) [+] (us (S (S j)) [-] us (S j)))) with
      (norm2 (zs (S (S j)) [-] zs (S j)) + norm2 (us (S (S j)) [-] us (S j)) + 2 * << us (S (S j)) [-] us (S j), zs (S (S j)) [-] zs (S j) >>) in Hs by iring.
    lra.
Qed.
End M.

(*! C51_linearized_admm : LinearizedADMM with z0 not given, f, g convex, tau, mu > 0, mu |A|^2 <= tau: the run never raises and
   follows the documented recursion from z_0 = A x0, u_0 = 0; x_k in dom f, z_k in dom g; an iteration that changes nothing has
   A x = z and x minimises f + g(A .); for every solution xo with multiplier v,
   V_k = (tau/mu)|x_k-xo|^2 - |A(x_k-xo)|^2 + |z_k-A xo|^2 + |u_k-tau v|^2 is non-negative and never increases, and from the
   second iteration on it decreases by at least |z_(k+1)-z_k|^2 + |A x_(k+1)-z_(k+1)|^2 *)
Lemma C51_linearized_admm_l : forall (E F : IPS) (proxf : Op E) (proxg : Op F) f g (A : linop E F) tau mu x0 n,
  impl_prox proxf f -> impl_prox proxg g -> convex f -> convex g -> 0 < tau -> 0 < mu ->
  (forall e, mu * norm2 (lapp A e) <= tau * norm2 e) ->
  exists xs zs us, LinearizedADMM proxf proxg A (Some x0) tau mu n None = Ok (xs n, zs n, map xs (seq 1 n)) /\
    xs 0%nat = x0 /\ zs 0%nat = lapp A x0 /\ us 0%nat = vzero /\ la_doc A f g tau mu xs zs us 0 n /\
    (forall j, (0 < j <= n)%nat -> edom f (xs j) /\ edom g (zs j)) /\
    (forall j, (j < n)%nat -> xs (S j) = xs j -> zs (S j) = zs j -> us (S j) = us j ->
       lapp A (xs j) = zs j /\ is_min (eadd f (epre g (lapp A))) (xs j)) /\
    forall xo v, kktA f g A xo v ->
      let V := fun j => la_metric A tau mu (xs j [-] xo) + norm2 (zs j [-] lapp A xo) + norm2 (us j [-] tau [*] v) in
      (forall j, 0 <= V j) /\ (forall j, (j < n)%nat -> V (S j) <= V j) /\
      (forall j, (1 <= j < n)%nat -> V (S j) + norm2 (zs (S j) [-] zs j) + norm2 (lapp A (xs (S j)) [-] zs (S j)) <= V j).
Proof.
  intros E F proxf proxg f g A tau mu x0 n Hpf Hpg Hf Hg Ht Hm Hn.
  destruct (la_run A proxf proxg f g tau mu x0 (lapp A x0) (lapp A x0) n Hpf Hpg Ht Hm) as [xs [zs [us [s [E1 [Sx [Sz [Str [X0 [Z0 [U0 [Hd H1]]]]]]]]]]]].
  assert (Hd0 : la_doc A f g tau mu xs zs us 0 n).
  { intros j Hj. destruct j as [|j]; [|apply Hd; simpl; lia]. rewrite X0, Z0, U0. apply H1. lia. }
  exists xs, zs, us. split.
  { unfold LinearizedADMM. cbn [x0z0_initA bind fst snd]. rewrite E1. cbn [bind fst]. rewrite Sx, Sz, Str. reflexivity. }
  destruct (la_facts A f g tau mu xs zs us 0 n Hf Hg Ht Hm Hd0) as [D1 [D2 D3]].
  split; auto. split; auto. split; auto. split; auto. split; auto. split; [intros j Hj; apply D2; lia|].
  intros xo v Hk V. destruct (D3 xo v Hk) as [V1 V2]. split; [|split].
  - intro j. unfold V. pose proof (la_metric_pos A tau mu (xs j [-] xo) Hm Hn). pose proof (norm2_nonneg (zs j [-] lapp A xo)). pose proof (norm2_nonneg (us j [-] tau [*] v)). lra.
  - intros j Hj. specialize (V1 j ltac:(lia)). pose proof (la_metric_pos A tau mu (xs (S j) [-] xs j) Hm Hn).
    pose proof (norm2_nonneg (zs (S j) [-] zs j [+] (us (S j) [-] us j))). unfold V. lra.
  - intros j Hj. specialize (V2 j ltac:(lia)). pose proof (la_metric_pos A tau mu (xs (S j) [-] xs j) Hm Hn). unfold V. lra.
Qed.

(*! C51_linearized_admm_z0 : the same with z0 given, from the second iteration on (the first one uses z0 in place of A x0, see
   C46_linearized_z0_refuted) *)
Lemma C51_linearized_admm_z0_l : forall (E F : IPS) (proxf : Op E) (proxg : Op F) f g (A : linop E F) tau mu x0 z0 n,
  impl_prox proxf f -> impl_prox proxg g -> convex f -> convex g -> 0 < tau -> 0 < mu ->
  (forall e, mu * norm2 (lapp A e) <= tau * norm2 e) ->
  exists xs zs us, LinearizedADMM proxf proxg A (Some x0) tau mu n (Some z0) = Ok (xs n, zs n, map xs (seq 1 n)) /\
    xs 0%nat = x0 /\ la_doc A f g tau mu xs zs us 1 n /\
    (forall j, (1 <= j < n)%nat -> xs (S j) = xs j -> zs (S j) = zs j -> us (S j) = us j ->
       lapp A (xs j) = zs j /\ is_min (eadd f (epre g (lapp A))) (xs j)) /\
    forall xo v, kktA f g A xo v ->
      let V := fun j => la_metric A tau mu (xs j [-] xo) + norm2 (zs j [-] lapp A xo) + norm2 (us j [-] tau [*] v) in
      (forall j, 0 <= V j) /\ (forall j, (1 <= j < n)%nat -> V (S j) <= V j).
Proof.
  intros E F proxf proxg f g A tau mu x0 z0 n Hpf Hpg Hf Hg Ht Hm Hn.
  destruct (la_run A proxf proxg f g tau mu x0 z0 z0 n Hpf Hpg Ht Hm) as [xs [zs [us [s [E1 [Sx [Sz [Str [X0 [Z0 [U0 [Hd H1]]]]]]]]]]]].
  exists xs, zs, us. split.
  { unfold LinearizedADMM. cbn [x0z0_initA bind fst snd]. rewrite E1. cbn [bind fst]. rewrite Sx, Sz, Str. reflexivity. }
  destruct (la_facts A f g tau mu xs zs us 1 n Hf Hg Ht Hm Hd) as [D1 [D2 D3]].
  split; auto. split; auto. split; auto.
  intros xo v Hk V. destruct (D3 xo v Hk) as [V1 V2]. split.
  - intro j. unfold V. pose proof (la_metric_pos A tau mu (xs j [-] xo) Hm Hn). pose proof (norm2_nonneg (zs j [-] lapp A xo)). pose proof (norm2_nonneg (us j [-] tau [*] v)). lra.
  - intros j Hj. specialize (V1 j ltac:(lia)). pose proof (la_metric_pos A tau mu (xs (S j) [-] xs j) Hm Hn).
    pose proof (norm2_nonneg (zs (S j) [-] zs j [+] (us (S j) [-] us j))). unfold V. lra.
Qed.

(*! C46_linearized_z0_refuted : with both guesses given, LinearizedADMM's first x-update does not use A x0 - z0 (it behaves as if
   A x0 = z0): f = 0, g = 0, A = I, tau = mu = 1, x0 = 1, z0 = 0, one iteration: the documented update moves x to 0, the code leaves x = 1 *)
Lemma C46_linearized_z0_refuted_l :
  impl_prox zero1 (etot (E:=R_IPS) (fun _ => 0)) /\
  LinearizedADMM zero1 zero1 (id_linop R_IPS) (Some 1) 1 1 1 (Some 0) = Ok (1, 1, [1]) /\
  is_prox (etot (E:=R_IPS) (fun _ => 0)) 1 ((1 : R_IPS) [-] (1 / 1) [*] ladj (id_linop R_IPS) (lapp (id_linop R_IPS) 1 [-] (0 : R_IPS) [+] vzero)) (0 : R_IPS).
Proof.
  split; [apply zero1_prox|]. split.
  - unfold LinearizedADMM. cbn [x0z0_initA bind fst snd for_loop]. unfold la_body. rewrite pydiv_ok by lra. cbn -[Rmult Rplus Rdiv].
    repeat match goal with |- context [1 + -1 * (1 / 1 * ?e)] => replace (1 + -1 * (1 / 1 * e)) with 1 by field end.
    replace (1 + 0) with 1 by ring. reflexivity.
  - split; [exact I|]. intros y _. cbn. replace (0 + -1 * (1 + -1 * (1 / 1 * (1 + -1 * 0 + 0)))) with 0 by field.
    pose proof (Rle_0_sqr (y + -1 * (1 + -1 * (1 / 1 * (1 + -1 * 0 + 0))))). unfold Rsqr in *. lra.
Qed.

(** ** ADMML2 *)

Section L2.
Context {E F G : IPS} (B : linop E G) (b : G) (A : linop E F).
Local Notation lsq := (S_Split3.lsq B b).
Definition lsq_grad (x : E) : E := ladj B (lapp B x [-] b).

Lemma lsq_taylor x y : lsq y = lsq x + << lsq_grad x, y [-] x >> + 1 / 2 * norm2 (lapp B (y [-] x)).
Proof. unfold S_Split3.lsq, lsq_grad. rewrite ladj_spec', lapp_sub. iexp. field. Qed.
Lemma lsq_subgrad x : is_subgrad (etot lsq) x (lsq_grad x).
Proof. split; [exact I|]. intros y _. cbn. rewrite (lsq_taylor x y). pose proof (norm2_nonneg (lapp B (y [-] x))). lra. Qed.
Lemma lsq_subgrad_unique x u : is_subgrad (etot lsq) x u -> u = lsq_grad x.
Proof.
  intros [_ H]. apply vsub_eq, norm2_eq0. set (d := u [-] lsq_grad x).
  assert (Hd : forall t, 0 < t <= 1 -> - (t * (1 / 2 * norm2 (lapp B d))) <= - norm2 d).
  { intros t Ht. specialize (H (x [+] t [*] d) I). cbn in H. rewrite (lsq_taylor x (x [+] t [*] d)) in H.
    replace (x [+] t [*] d [-] x) with (t [*] d) in H by vring. rewrite lapp_scal, norm2_scal, !inner_scal_r in H.
    assert (Hu : << u, d >> = << lsq_grad x, d >> + norm2 d) by (unfold d; iring). rewrite Hu in H. nra. }
  pose proof (small_t (- norm2 d) (1 / 2 * norm2 (lapp B d)) ltac:(pose proof (norm2_nonneg (lapp B d)); lra) Hd).
  pose proof (norm2_nonneg d). lra.
Qed.

Lemma reginv_normal d e x : is_min (etot (fun y => 1 / 2 * norm2 (lapp B y [-] b) + e * e / 2 * norm2 (lapp A y [-] d))) x ->
  lsq_grad x = vopp ((e * e) [*] ladj A (lapp A x [-] d)).
Proof.
  intros [_ Hm]. symmetry. apply lsq_subgrad_unique. split; [exact I|]. intros y _. cbn.
  set (a := << (vopp ((e * e) [*] ladj A (lapp A x [-] d))), y [-] x >>). apply Rnot_lt_le. intro Hlt.
  set (q := 1 / 2 * norm2 (lapp B (y [-] x)) + e * e / 2 * norm2 (lapp A (y [-] x))).
  assert (Hk : forall t, 0 < t <= 1 -> - (t * q) <= << lsq_grad x, y [-] x >> - a).
  { intros t Ht. specialize (Hm (x [+] t [*] (y [-] x)) I). cbn in Hm.
    change (1 / 2 * norm2 (lapp B x [-] b)) with (lsq x) in Hm.
    change (1 / 2 * norm2 (lapp B (x [+] t [*] (y [-] x)) [-] b)) with (lsq (x [+] t [*] (y [-] x))) in Hm.
    rewrite (lsq_taylor x (x [+] t [*] (y [-] x))) in Hm.
    replace (x [+] t [*] (y [-] x) [-] x) with (t [*] (y [-] x)) in Hm by vring.
    rewrite lapp_add, !lapp_scal, norm2_scal, inner_scal_r in Hm.
    assert (Hn : norm2 (lapp A x [+] t [*] lapp A (y [-] x) [-] d) = norm2 (lapp A x [-] d) + 2 * t * << lapp A x [-] d, lapp A (y [-] x) >> + t * t * norm2 (lapp A (y [-] x))) by iring.
    rewrite Hn in Hm.
    assert (Ha : a = - (e * e) * << lapp A x [-] d, lapp A (y [-] x) >>) by (unfold a; rewrite inner_opp_l, inner_scal_l, ladj_spec'; ring).
    rewrite Ha. unfold q. apply (Rmult_le_reg_l t); [lra|]. lra. }
  pose proof (small_t (<< lsq_grad x, y [-] x >> - a) q
    ltac:(unfold q; pose proof (norm2_nonneg (lapp B (y [-] x))); pose proof (norm2_nonneg (lapp A (y [-] x))); nra) Hk) as Hs.
  rewrite (lsq_taylor x y) in Hlt. pose proof (norm2_nonneg (lapp B (y [-] x))). lra.
Qed.
End L2.

Section AL2.
Context {E F G : IPS} (B : linop E G) (b : G) (A : linop E F).
Variables (proxg : Op F) (reginv : E -> F -> R -> result E) (g : efun F) (tau : R).
Hypotheses (Hp : impl_prox proxg g) (Hr : exact_reginv B b A reginv) (Ht : 0 < tau).

Local Notation al2_x := (S_Split3.al2_x B b A tau).
Local Notation al2_doc := (S_Split3.al2_doc B b A g tau).

Lemma al2_sqrt : 1 / sqrt tau * (1 / sqrt tau) / 2 = 1 / (2 * tau).
Proof.
  assert (0 < sqrt tau) by (apply sqrt_lt_R0; lra). replace (1 / sqrt tau * (1 / sqrt tau) / 2) with (1 / (2 * (sqrt tau * sqrt tau))) by (field; lra).
  rewrite sqrt_sqrt by lra. reflexivity.
Qed.

Lemma al2_reg x0 d : exists x, reginv x0 d (1 / sqrt tau) = Ok x /\ al2_x d x.
Proof. destruct (Hr x0 d (1 / sqrt tau)) as [x [H1 H2]]. rewrite al2_sqrt in H2. exists x. auto. Qed.

Lemma al2_run x0 z0 x z n : x0z0_initA (lapp A) x0 z0 = Ok (x, z) ->
  exists xs zs us, ADMML2 proxg A reginv x0 tau n z0 false = Ok (xs n, zs n, map xs (seq 1 n)) /\
    xs 0%nat = x /\ zs 0%nat = z /\ us 0%nat = vzero /\ al2_doc xs zs us n.
Proof.
  intros Hi.
  set (Rl := fun (j : nat) (s s' : la_state E F) => al2_x (la_z s [-] la_u s) (la_x s') /\
     is_prox g tau (lapp A (la_x s') [+] la_u s) (la_z s') /\ la_u s' = la_u s [+] lapp A (la_x s') [-] la_z s' /\ la_tr s' = la_tr s ++ [la_x s']).
  destruct (loop_states (al2_body proxg A reginv tau false) (fun j s => True) Rl n (LA x vzero z vzero [])) as [st [E1 [S0 [HP HR]]]]; auto.
  - intros j s _ _. unfold al2_body.
    destruct (al2_reg (la_x s) (la_z s [-] la_u s)) as [p [-> Hx]]. cbn [bind].
    destruct (Hp (lapp A p [+] la_u s) tau Ht) as [q [-> Hq]]. cbn [bind].
    eexists. split; [reflexivity|]. split; [|auto]. split; [exact Hx|]. split; [exact Hq|]. split; reflexivity.
  - exists (fun j => la_x (st j)), (fun j => la_z (st j)), (fun j => la_u (st j)). split.
    { unfold ADMML2. rewrite Hi. cbn [bind fst snd]. destruct (Rltb_spec tau 0) as [[? _]|[_ ->]]; [lra|]. destruct (Reqb_spec tau 0) as [[? _]|[_ ->]]; [lra|].
      rewrite E1. cbn [bind fst]. do 2 f_equal. apply (trace_states st la_tr la_x); [rewrite S0; auto|]. intros j Hj. destruct (HR j Hj) as [[_ [_ [_ H]]] _]. exact H. }
    rewrite S0. split; auto. split; auto. split; auto. intros j Hj. destruct (HR j Hj) as [[H1 [H2 [H3 _]]] _]. auto.
Qed.

Lemma al2_x_grad d x : al2_x d x -> lsq_grad B b x = vopp (/ tau [*] ladj A (lapp A x [-] d)).
Proof.
  intro H. assert (H0 : 0 < sqrt tau) by (apply sqrt_lt_R0; lra). unfold S_Split3.al2_x in H. rewrite <- al2_sqrt in H.
  apply reginv_normal in H. rewrite H. do 2 f_equal. replace (1 / sqrt tau * (1 / sqrt tau)) with (/ (sqrt tau * sqrt tau)) by (field; lra).
  rewrite sqrt_sqrt by lra. reflexivity.
Qed.
End AL2.

(*! C51_admml2 : ADMML2 (gfirst=False, either guess) with exact inner solves, g convex, tau > 0: the run never raises and follows
   the documented recursion; an iteration that changes neither z nor u has A x = z and x minimises 1/2|B x - b|^2 + g(A x); for
   every solution xo with multiplier v, V_k = |z_k - A xo|^2 + |u_k - tau v|^2 never increases and from the second iteration on
   decreases by at least |z_(k+1)-z_k|^2 + |A x_(k+1) - z_(k+1)|^2 *)
Lemma C51_admml2_l : forall (E F G : IPS) (B : linop E G) b (A : linop E F) proxg reginv g tau x0 z0 x z n,
  impl_prox proxg g -> convex g -> exact_reginv B b A reginv -> 0 < tau -> x0z0_initA (lapp A) x0 z0 = Ok (x, z) ->
  exists xs zs us, ADMML2 proxg A reginv x0 tau n z0 false = Ok (xs n, zs n, map xs (seq 1 n)) /\
    xs 0%nat = x /\ zs 0%nat = z /\ us 0%nat = vzero /\ al2_doc B b A g tau xs zs us n /\
    (forall j, (j < n)%nat -> zs (S j) = zs j -> us (S j) = us j ->
       lapp A (xs (S j)) = zs (S j) /\ is_min (eadd (etot (lsq B b)) (epre g (lapp A))) (xs (S j))) /\
    forall xo v, kktA (etot (lsq B b)) g A xo v ->
      let V := fun j => norm2 (zs j [-] lapp A xo) + norm2 (us j [-] tau [*] v) in
      (forall j, (j < n)%nat -> V (S j) <= V j) /\
      (forall j, (1 <= j < n)%nat -> V (S j) + norm2 (zs (S j) [-] zs j) + norm2 (lapp A (xs (S j)) [-] zs (S j)) <= V j).
Proof.
  intros E F G B b A proxg reginv g tau x0 z0 x z n Hp Hg Hr Ht Hi.
  destruct (al2_run B b A proxg reginv g tau Hp Hr Ht x0 z0 x z n Hi) as [xs [zs [us [E1 [X0 [Z0 [U0 Hd]]]]]]].
  exists xs, zs, us. split; auto. split; auto. split; auto. split; auto. split; auto. split.
  - intros j Hj Ez Eu. destruct (Hd j Hj) as [H1 [H2 H3]].
    assert (Hz : lapp A (xs (S j)) = zs (S j)).
    { rewrite Eu in H3. apply vsub_eq. apply (f_equal (fun w => w [-] us j)) in H3. replace (us j [-] us j) with (vzero : F) in H3 by vring. rewrite H3. vring. }
    split; auto. apply (kktA_min A _ g (xs (S j)) (/ tau [*] us (S j))). split.
    + apply al2_x_grad in H1; auto. replace (vopp (ladj A (/ tau [*] us (S j)))) with (lsq_grad B b (xs (S j))); [apply lsq_subgrad|].
      rewrite H1, Hz, Ez, Eu. replace (zs j [-] (zs j [-] us j)) with (us j) by vring. rewrite ladj_scal. reflexivity.
    + rewrite Hz. apply (dual_subgrad g tau (lapp A (xs (S j))) (us j)); auto.
  - intros xo v Hk V. destruct Hk as [Kf Kg].
    assert (Hs : forall j, (j < n)%nat -> V (S j) + norm2 (zs (S j) [-] zs j [+] (us (S j) [-] us j)) <= V j).
    { intros j Hj. destruct (Hd j Hj) as [H1 [H2 H3]]. apply al2_x_grad in H1; auto.
      pose proof (subgrad_mono _ _ _ _ _ (lsq_subgrad B b (xs (S j))) Kf) as M1. rewrite H1 in M1.
      pose proof (dual_subgrad g tau _ _ _ _ Hg Ht H2 H3) as S1. pose proof (subgrad_mono g _ _ _ _ S1 Kg) as M2.
      assert (HQ : 0 <= 0 - << us (S j) [-] tau [*] v [+] (zs (S j) [-] zs j), lapp A (xs (S j)) [-] lapp A xo >>).
      { replace (0 - << us (S j) [-] tau [*] v [+] (zs (S j) [-] zs j), lapp A (xs (S j)) [-] lapp A xo >>) with
          (tau * << vopp (/ tau [*] ladj A (lapp A (xs (S j)) [-] (zs j [-] us j))) [-] vopp (ladj A v), xs (S j) [-] xo >>).
        - apply Rmult_le_pos; lra.
        - rewrite H3. inner_lin_all. rewrite ?inner_opp_l, ?inner_opp_r. inner_lin_all. rewrite !ladj_spec'. inner_lin_all. field. lra. }
      assert (HM : 0 <= << us (S j) [-] tau [*] v, zs (S j) [-] lapp A xo >>).
      { replace (<< us (S j) [-] tau [*] v, zs (S j) [-] lapp A xo >>) with (tau * << / tau [*] us (S j) [-] v, zs (S j) [-] lapp A xo >>) by (inner_lin_all; field; lra).
        apply Rmult_le_pos; lra. }
      pose proof (admmA_core 0 _ _ _ _ _ (lapp A xo) (tau [*] v) HQ HM H3). unfold V. lra. }
    split.
    + intros j Hj. specialize (Hs j Hj). pose proof (norm2_nonneg (zs (S j) [-] zs j [+] (us (S j) [-] us j))). lra.
    + intros j Hj. specialize (Hs j ltac:(lia)).
      destruct (Hd j ltac:(lia)) as [_ [H2 H3]]. destruct j as [|j]; [lia|]. destruct (Hd j ltac:(lia)) as [_ [G2 G3]].
      pose proof (dual_subgrad g tau _ _ _ _ Hg Ht H2 H3) as S1. pose proof (dual_subgrad g tau _ _ _ _ Hg Ht G2 G3) as S2.
      pose proof (subgrad_mono g _ _ _ _ S1 S2) as M1.
      assert (M2 : 0 <= << us (S (S j)) [-] us (S j), zs (S (S j)) [-] zs (S j) >>).
      { replace (<< us (S (S j)) [-] us (S j), zs (S (S j)) [-] zs (S j) >>) with (tau * << / tau [*] us (S (S j)) [-] / tau [*] us (S j), zs (S (S j)) [-] zs (S j) >>)
          by (inner_lin_all; field; lra). apply Rmult_le_pos; lra. }
      assert (Hre : lapp A (xs (S (S j))) [-] zs (S (S j)) = us (S (S j)) [-] us (S j)) by (rewrite H3; vring).
      rewrite Hre.
      replace (norm2 (zs (S (S j)) [-] zs (S j) [+] (us (S (S j)) [-] us (S j)))) with
        (norm2 (zs (S (S j)) [-] zs (S j)) + norm2 (us (S (S j)) [-] us (S j)) + 2 * << us (S (S j)) [-] us (S j), zs (S (S j)) [-] zs (S j) >>) in Hs by iring.
      lra.
Qed.

Lemma point0_prox : impl_prox point0 (indic (E:=R_IPS) (fun x => x = 0)).
Proof. intros x tau Ht. exists 0. split; [reflexivity|]. split; [reflexivity|]. intros y ->. lra. Qed.

(*! C51_admml2_gfirst_refuted : with gfirst=True the dual update uses the A x of the previous x, and the scheme need not converge
   even with exact inner solves: B = 0, b = 0, A = identity, g = indicator of 0, tau = 1, x0 = 1: after 6k iterations it returns
   x = 1 again, although the problem's only solution is 0 *)
Lemma C51_admml2_gfirst_refuted_l :
  let g := indic (E:=R_IPS) (fun x => x = 0) in let B := scal_linop R_IPS 0 in let reginv := fun (_ d : R_IPS) (_ : R) => Ok d in
  impl_prox point0 g /\ convex g /\ exact_reginv B 0 (id_linop R_IPS) reginv /\
  (forall k, exists z tr, ADMML2 point0 (id_linop R_IPS) reginv (Some (1 : R_IPS)) 1 (6 * k) None true = Ok (1, z, tr)) /\
  (forall x, is_min (eadd (etot (lsq B 0)) (epre g (lapp (id_linop R_IPS)))) x <-> x = 0).
Proof.
  intros g B reginv. split; [apply point0_prox|]. split; [|split; [|split]].
  - intros x y t Hx Hy Ht. cbn in *. subst. split; [ring|lra].
  - intros x0 d e. exists d. split; [reflexivity|]. split; [exact I|]. intros y _. cbn.
    replace (d + -1 * d) with 0 by ring. pose proof (Rle_0_sqr (0 * y + -1 * 0)). pose proof (Rle_0_sqr (y + -1 * d)). pose proof (Rle_0_sqr e).
    unfold norm2, Rsqr in *. cbn in *. assert (0 <= e * e / 2 * ((y + -1 * d) * (y + -1 * d))) by (apply Rmult_le_pos; lra). nra.
  - intro k. unfold ADMML2. cbn [x0z0_initA bind fst snd]. destruct (Rltb_spec 1 0) as [[? _]|[_ ->]]; [lra|]. destruct (Reqb_spec 1 0) as [[? _]|[_ ->]]; [lra|].
    assert (Hb : forall i (x a z u : R_IPS) tr, al2_body point0 (id_linop R_IPS) reginv 1 true i (LA x a z u tr) = Ok (LA (- u : R_IPS) x (0 : R_IPS) (u + x : R_IPS) (tr ++ [(- u : R_IPS)]), false)).
    { intros. unfold al2_body, reginv. cbn. do 2 f_equal. f_equal; try ring. do 2 f_equal. ring. }
    assert (Gs : forall n i (x a z u : R_IPS) tr, for_loop (al2_body point0 (id_linop R_IPS) reginv 1 true) (S n) i (LA x a z u tr) =
       for_loop (al2_body point0 (id_linop R_IPS) reginv 1 true) n (S i) (LA (- u : R_IPS) x (0 : R_IPS) (u + x : R_IPS) (tr ++ [(- u : R_IPS)]))).
    { intros. cbn [for_loop]. rewrite Hb. reflexivity. }
    assert (H : forall m i (a z : R_IPS) tr, exists s j, for_loop (al2_body point0 (id_linop R_IPS) reginv 1 true) (6 * m) i (LA (1 : R_IPS) a z (0 : R_IPS) tr) = Ok (s, j) /\ la_x s = 1).
    { induction m as [|m IH]; intros i a z tr.
      - exists (LA (1 : R_IPS) a z (0 : R_IPS) tr), i. split; reflexivity.
      - replace (6 * S m)%nat with (S (S (S (S (S (S (6 * m))))))) by lia. rewrite !Gs.
        match goal with |- context [for_loop _ _ ?i (LA ?x ?a ?z ?u ?tr)] => replace x with (1 : R_IPS) by (cbn; ring); replace u with (0 : R_IPS) by (cbn; ring) end.
        apply IH. }
    destruct (H k 0%nat 0 1 []) as [s [j [E1 E2]]].
    exists (la_z s), (la_tr s). cbn [vzero R_IPS] in *. etransitivity; [apply (f_equal (fun r => bind r _)); exact E1|]. cbn [bind fst]. rewrite E2. reflexivity.
  - intro x. split.
    + intros [[_ H] _]. exact H.
    + intros ->. split; [split; [exact I|reflexivity]|]. intros y [_ Hy]. cbn in Hy. subst. lra.
Qed.

(*!ex C51_example : f = (x-1)^2/2, g = x^2/2, A = identity, tau = mu = 1 meet the hypotheses (solution 1/2, multiplier 1/2); and
   exact inner solves exist for B = A = identity *)
Lemma C51_example_l :
  let f := etot (E:=R_IPS) (fun x : R_IPS => 1 / 2 * ((x - 1) * (x - 1))) in let g := etot (E:=R_IPS) (fun x : R_IPS => 1 / 2 * (x * x)) in
  impl_prox shifted1 f /\ impl_prox (quad1 1) g /\ convex f /\ convex g /\ kktA f g (id_linop R_IPS) (1/2 : R_IPS) (1/2) /\
  (forall e : R_IPS, 1 * norm2 (lapp (id_linop R_IPS) e) <= 1 * norm2 e) /\
  exact_reginv (id_linop R_IPS) 1 (id_linop R_IPS) (fun _ d e => Ok ((1 + e * e * d) / (1 + e * e))) /\
  kktA (etot (lsq (id_linop R_IPS) 1)) g (id_linop R_IPS) (1/2 : R_IPS) (1/2).
Proof.
  pose proof C47_example_l as H0. cbv zeta in H0. destruct H0 as [P1 [P2 [P3 [P4 [[K1 K2] _]]]]]. intros f g.
  split; auto. split; auto. split; auto. split; auto. split; [|split; [|split]].
  - split.
    + replace (vopp (ladj (id_linop R_IPS) (1 / 2))) with (-(1/2)) by (cbn; ring). exact K1.
    + replace (1/2 : R_IPS) with (vopp (-(1/2) : R_IPS)) at 2 by (cbn; field). exact K2.
  - intro e. simpl. lra.
  - intros x0 d e. eexists. split; [reflexivity|]. split; [exact I|]. intros y _. cbn -[Rdiv].
    assert (He : 0 < 1 + e * e) by nra. set (p := (1 + e * e * d) / (1 + e * e)).
    assert (Hp : p * (1 + e * e) = 1 + e * e * d) by (unfold p; field; lra).
    assert (Hs : 0 <= (1 + e * e) * ((y - p) * (y - p))) by (apply Rmult_le_pos; [lra|apply Rle_0_sqr]).
    assert (Hz : (y - p) * (p * (1 + e * e) - (1 + e * e * d)) = 0) by (rewrite Hp; ring).
    unfold norm2. cbn -[Rdiv]. lra.
  - split; (split; [exact I|]); intros y _; cbn; pose proof (Rle_0_sqr (y - 1/2)); unfold lsq, norm2, Rsqr in *; cbn; nra.
Qed.

(** ** TwIST *)
Section TW.
Context {E F : IPS} (A : linop E F) (b : F) (proxg : Op E).

(*! C52_recursion : TwIST with both parameters given, any alpha, beta, niter: the run never raises, x_1 = prox_g of the unit
   gradient step at x0, x_(k+1) = (1-alpha) x_(k-1) + (alpha-beta) x_k + beta prox_g(x_k + A^T(b - A x_k)); it returns x_(niter+1)
   and the callbacks receive x_2, x_3, ... *)
Lemma C52_recursion_l : forall (E F : IPS) (A : linop E F) (b : F) (proxg : Op E) g x0 alpha beta eigs sm lm n,
  impl_prox proxg g ->
  exists xs ps, TwIST proxg A b x0 (Some alpha) (Some beta) eigs sm lm n = Ok (xs (S n), map xs (seq 2 n)) /\
    xs 0%nat = x0 /\ xs 1%nat = ps 0%nat /\
    (forall j, (j <= n)%nat -> is_prox g 1 (xs j [+] ladj A (b [-] lapp A (xs j))) (ps j)) /\
    (forall j, (j < n)%nat -> xs (S (S j)) = (1 - alpha) [*] xs j [+] (alpha - beta) [*] xs (S j) [+] beta [*] ps (S j)).
Proof.
  clear. intros E F A b proxg g x0 alpha beta eigs sm lm n Hp.
  assert (Hgr : forall x, x [-] tw_grad A b x = x [+] ladj A (b [-] lapp A x)).
  { intro x. unfold tw_grad. rewrite !ladj_sub. vring. }
  destruct (Hp (x0 [-] tw_grad A b x0) 1 ltac:(lra)) as [p0 [Ep0 Hp0]].
  set (Rl := fun (j : nat) (s s' : tw_state E) => exists p, is_prox g 1 (tw_x s [-] tw_grad A b (tw_x s)) p /\ tw_old s' = tw_x s /\
     tw_x s' = (1 - alpha) [*] tw_old s [+] (alpha - beta) [*] tw_x s [+] beta [*] p /\ tw_tr s' = tw_tr s ++ [tw_x s']).
  destruct (loop_states (tw_body proxg A b alpha beta) (fun j s => True) Rl n (TW x0 p0 [])) as [st [E1 [S0 [HP HR]]]]; auto.
  { intros j s _ _. unfold tw_body. destruct (Hp (tw_x s [-] tw_grad A b (tw_x s)) 1 ltac:(lra)) as [p [-> Hpp]]. cbn [bind].
    eexists. split; [reflexivity|]. split; auto. exists p. split; [exact Hpp|]. split; [reflexivity|]. split; reflexivity. }
  set (xs := fun j => match j with O => x0 | S j => tw_x (st j) end).
  assert (Hold : forall j, (j <= n)%nat -> tw_old (st j) = xs j).
  { intros j Hj. destruct j as [|j]; [rewrite S0; auto|]. destruct (HR j ltac:(lia)) as [[p [_ [H _]]] _]. exact H. }
  assert (Hps : forall m, exists ps, forall j, (j <= n)%nat -> (j < S m)%nat -> (j = 0%nat -> ps j = p0) /\ is_prox g 1 (xs j [-] tw_grad A b (xs j)) (ps j) /\
     forall i, j = S i -> xs (S j) = (1 - alpha) [*] xs i [+] (alpha - beta) [*] xs j [+] beta [*] ps j).
  { induction m as [|m [ps IH]].
    - exists (fun _ => p0). intros j _ Hj. replace j with 0%nat by lia. split; auto. split; [exact Hp0|]. intros i Hi. lia.
    - destruct (Nat.leb_spec (S m) n) as [Hm|Hm].
      + destruct (HR m ltac:(lia)) as [[p [H1 [H2 [H3 _]]]] _]. exists (upd ps (S m) p). intros j Hj Hjm.
        destruct (Nat.eqb_spec j (S m)) as [->|Hne].
        * rewrite upd_eq. split; [lia|]. split; [exact H1|]. intros i Hi. injection Hi as <-. rewrite (Hold m ltac:(lia)) in H3. exact H3.
        * rewrite upd_ne by auto. apply IH; lia.
      + exists ps. intros j Hj _. apply IH; lia. }
  destruct (Hps n) as [ps Hq]. exists xs, ps. split.
  { unfold TwIST. cbn [tw_params bind fst snd]. rewrite Ep0. cbn [bind]. rewrite E1. cbn [bind fst]. do 2 f_equal.
    rewrite (trace_states st tw_tr tw_x) by (rewrite ?S0; auto; intros j Hj; destruct (HR j Hj) as [[p [_ [_ [_ H]]]] _]; exact H).
    rewrite <- (seq_shift n 1), map_map. reflexivity. }
  split; [reflexivity|]. split.
  { destruct (Hq 0%nat ltac:(lia) ltac:(lia)) as [H _]. rewrite H by reflexivity. unfold xs. rewrite S0. reflexivity. }
  split.
  - intros j Hj. destruct (Hq j Hj ltac:(lia)) as [_ [H _]]. rewrite <- Hgr. exact H.
  - intros j Hj. destruct (Hq (S j) ltac:(lia) ltac:(lia)) as [_ [_ H]]. apply (H j eq_refl).
Qed.

(*! C52_ist : with alpha = beta = 1, TwIST with niter iterations is ProximalGradient (unit step, no acceleration) with niter+1
   iterations, for every proxg (exceptions included); its callbacks miss the first iterate *)
Lemma C52_ist_l : forall (E F : IPS) (A : linop E F) (b : F) (proxf proxg : Op E) x0 eigs sm lm beta nb n,
  (forall x, o_grad proxf x = Ok (Some (ladj A (lapp A x [-] b)))) ->
  TwIST proxg A b x0 (Some 1) (Some 1) eigs sm lm n =
  (r <- ProximalGradient proxf proxg x0 [1] (Some 1) false beta 1 (S n) nb None None ;; Ok (fst r, tl (snd r))).
Proof.
  clear. intros E F A b proxf proxg x0 eigs sm lm beta nb n Hg. unfold TwIST, ProximalGradient. cbn [tw_params pg_epsg accel_known bind fst snd].
  assert (Hb : forall m l i x y t pf tr, nth_error l i = Some 1 -> y = x ->
     for_loop (pg_body proxf proxg l false beta 1 nb None None) (S m) i (PG x y t 1 pf tr) =
     (p <- o_prox proxg (x [-] tw_grad A b x) 1 ;; for_loop (pg_body proxf proxg l false beta 1 nb None None) m (S i) (PG p p t 1 pf (tr ++ [p])))).
  { intros m l i x y t pf tr Hl ->. cbn [for_loop]. unfold pg_body at 1, getitem, pg_prox_step. rewrite Hl. cbn [bind pg_x pg_y pg_tau].
    destruct (Reqb_spec 1 1) as [[_ ->]|[? _]]; [|lra]. unfold get_grad. rewrite Hg. cbn [bind]. unfold tw_grad.
    replace (x [-] 1 [*] ladj A (lapp A x [-] b)) with (x [-] ladj A (lapp A x [-] b)) by vring. rewrite Rmult_1_l.
    destruct (o_prox proxg (x [-] ladj A (lapp A x [-] b)) 1) as [p|e]; [|reflexivity]. cbn [bind fst snd accel_is pg_t pg_tau pg_pfg pg_tr].
    replace (p [+] 0 [*] (p [-] x)) with p by vring. reflexivity. }
  assert (Hrep : forall i, (i < S n)%nat -> nth_error (repeat 1 (S n)) i = Some 1).
  { generalize (S n) as m. induction m as [|m IH]; intros i Hi; [lia|]. destruct i; simpl; auto. apply IH; lia. }
  rewrite Hb by (auto; apply Hrep; lia). destruct (o_prox proxg (x0 [-] tw_grad A b x0) 1) as [x1|e]; [|reflexivity]. cbn [bind].
  assert (G : forall m i old x t pf tr, (i + m = n)%nat ->
     (r <- for_loop (tw_body proxg A b 1 1) m i (TW old x tr) ;; Ok (tw_x (fst r), tw_tr (fst r))) =
     (r <- for_loop (pg_body proxf proxg (repeat 1 (S n)) false beta 1 nb None None) m (S i) (PG x x t 1 pf (x1 :: tr)) ;; Ok (pg_x (fst r), tl (pg_tr (fst r))))).
  { induction m as [|m IH]; intros i old x t pf tr Hi; [reflexivity|].
    rewrite Hb by (auto; apply Hrep; lia). cbn [for_loop]. unfold tw_body at 1. cbn [tw_x tw_old tw_tr].
    destruct (o_prox proxg (x [-] tw_grad A b x) 1) as [p|e]; [|reflexivity]. cbn [bind fst snd].
    replace ((1 - 1) [*] old [+] (1 - 1) [*] x [+] 1 [*] p) with p by vring. rewrite (IH (S i) x p t pf (tr ++ [p])) by lia. reflexivity. }
  rewrite (G n 0%nat x0 x1 1 None []) by lia. cbn [app].
  destruct (for_loop (pg_body proxf proxg (repeat 1 (S n)) false beta 1 nb None None) n 1 (PG x1 x1 1 1 None [x1])) as [r|e]; reflexivity.
Qed.

Lemma tw_fixed : forall (E F : IPS) (A : linop E F) (b : F) g (alpha beta : R) (xs ps : nat -> E) n,
  convex g -> beta <> 0 -> xs 1%nat = ps 0%nat ->
  (forall j, (j <= n)%nat -> is_prox g 1 (xs j [+] ladj A (b [-] lapp A (xs j))) (ps j)) ->
  (forall j, (j < n)%nat -> xs (S (S j)) = (1 - alpha) [*] xs j [+] (alpha - beta) [*] xs (S j) [+] beta [*] ps (S j)) ->
  let J := eadd (etot (lsq A b)) g in
  (forall j, (j < n)%nat -> xs (S j) = xs j -> xs (S (S j)) = xs j -> is_min J (xs j)) /\
  (is_min J (xs 0%nat) -> forall j, (j <= S n)%nat -> xs j = xs 0%nat).
Proof.
  clear. intros E F A b g alpha beta xs ps n Hg Hb H1 Hp Hr J.
  assert (Hgr : forall x, x [+] ladj A (b [-] lapp A x) = x [-] lsq_grad A b x).
  { intro x. unfold lsq_grad. rewrite !ladj_sub. vring. }
  assert (Hfix : forall x, is_prox g 1 (x [+] ladj A (b [-] lapp A x)) x <-> is_min J x).
  { intro x. rewrite Hgr, prox_iff_subgrad by (auto; lra).
    replace (/ 1 [*] (x [-] lsq_grad A b x [-] x)) with (vopp (lsq_grad A b x)) by (vfield). split.
    - intros [Hx Hs]. split; [split; [exact I|auto]|]. intros y [_ Hy]. cbn. specialize (Hs y Hy). rewrite inner_opp_l in Hs.
      destruct (lsq_subgrad A b x) as [_ Hl]. specialize (Hl y I). cbn in Hl. lra.
    - intros [[_ Hx] Hm]. split; auto. intros y Hy. rewrite inner_opp_l.
      assert (Hk : forall t, 0 < t <= 1 -> - (t * (1 / 2 * norm2 (lapp A (y [-] x)))) <= eval g y - eval g x + << lsq_grad A b x, y [-] x >>).
      { intros t Ht. destruct (Hg x y t Hx Hy ltac:(lra)) as [Hd Hv].
        specialize (Hm ((1 - t) [*] x [+] t [*] y) (conj I Hd)). cbn in Hm. rewrite (lsq_taylor A b x ((1 - t) [*] x [+] t [*] y)) in Hm.
        replace ((1 - t) [*] x [+] t [*] y [-] x) with (t [*] (y [-] x)) in Hm by vring. rewrite lapp_scal, norm2_scal, inner_scal_r in Hm.
        apply (Rmult_le_reg_l t); [lra|]. nra. }
      pose proof (small_t _ (1 / 2 * norm2 (lapp A (y [-] x))) ltac:(pose proof (norm2_nonneg (lapp A (y [-] x))); lra) Hk). lra. }
  split.
  - intros j Hj E1 E2. apply Hfix. rewrite <- E1. rewrite <- E1 in E2. assert (Hps : ps (S j) = xs (S j)).
    { specialize (Hr j Hj). rewrite E2 in Hr. rewrite <- E1 in Hr.
      apply vsub_eq. apply (f_equal (fun w => / beta [*] (w [-] xs (S j)))) in Hr. symmetry.
      replace (/ beta [*] (xs (S j) [-] xs (S j))) with (vzero : E) in Hr by vring. rewrite Hr. vfield. auto. }
    rewrite <- Hps at 3. apply Hp. lia.
  - intro H0. assert (Hpx : forall j, (j <= n)%nat -> xs j = xs 0%nat -> ps j = xs 0%nat).
    { intros j Hj E0. specialize (Hp j Hj). rewrite E0 in Hp. apply Hfix in H0. apply (prox_unique g 1 _ _ _ Hg ltac:(lra) Hp H0). }
    assert (G : forall j, (S j <= S n)%nat -> xs j = xs 0%nat /\ xs (S j) = xs 0%nat).
    { induction j as [|j IH]; intro Hj.
      - split; auto. rewrite H1. apply Hpx; auto; lia.
      - destruct IH as [I1 I2]; [lia|]. split; auto. rewrite Hr by lia. rewrite (Hpx (S j)) by (auto; lia). rewrite I1, I2. vring. }
    intros j Hj. destruct j as [|j]; auto. apply (G j). lia.
Qed.
End TW.

(*! C52_fixed_points : g convex, beta <> 0: started at a minimiser of 1/2|Ax-b|^2 + g TwIST returns it and passes only it to the
   callbacks; conversely if three consecutive iterates x_j, x_(j+1), x_(j+2) (x_0 the start) agree they are a minimiser *)
Lemma C52_fixed_points_l : forall (E F : IPS) (A : linop E F) (b : F) (proxg : Op E) g x0 alpha beta eigs sm lm n,
  impl_prox proxg g -> convex g -> beta <> 0 ->
  let J := eadd (etot (fun x => 1 / 2 * norm2 (lapp A x [-] b))) g in
  let run := TwIST proxg A b x0 (Some alpha) (Some beta) eigs sm lm n in
  (is_min J x0 -> run = Ok (x0, repeat x0 n)) /\
  exists xs, run = Ok (xs (S n), map xs (seq 2 n)) /\ xs 0%nat = x0 /\
    forall j, (j < n)%nat -> xs (S j) = xs j -> xs (S (S j)) = xs j -> is_min J (xs j).
Proof.
  intros E F A b proxg g x0 alpha beta eigs sm lm n Hp Hg Hb J run.
  destruct (C52_recursion_l E F A b proxg g x0 alpha beta eigs sm lm n Hp) as [xs [ps [E1 [X0 [X1 [H1 H2]]]]]].
  destruct (tw_fixed E F A b g alpha beta xs ps n Hg Hb X1 H1 H2) as [F1 F2]. split.
  - intro Hm. unfold run. rewrite E1. rewrite <- X0 in Hm. specialize (F2 Hm). rewrite (F2 (S n)), X0 by lia. do 2 f_equal.
    rewrite X0 in F2. clear - F2. assert (G : forall m i, (i + m <= S (S n))%nat -> map xs (seq i m) = repeat x0 m).
    { induction m as [|m IH]; intros i Hi; [reflexivity|]. cbn [seq map repeat]. rewrite F2, IH by lia. reflexivity. }
    apply G. lia.
  - exists xs. split; auto.
Qed.

(*! C52_parameters : when both alpha and beta are given they are used, whatever eigs is; when neither is given and eigs = None
   they are the documented alpha = 1 + rho^2, beta = 2 alpha / (Lmax + lmin), Lmax = max(1, lmax) *)
Lemma C52_parameters_l : forall alpha beta eigs sm lm,
  tw_params (Some alpha) (Some beta) eigs sm lm = Ok (alpha, beta) /\
  (0 <= sm -> let Lm := Rmax 1 lm in let rho := (1 - sqrt (sm / Lm)) / (1 + sqrt (sm / Lm)) in
     tw_params None None None sm lm = Ok (1 + rho * rho, 2 * (1 + rho * rho) / (Lm + sm))).
Proof.
  intros. split; [reflexivity|]. intros Hs Lm rho. unfold tw_params. assert (1 <= Lm) by apply Rmax_l. fold Lm.
  rewrite pydiv_ok by lra. cbn [bind]. assert (0 <= sm / Lm) by (apply Rmult_le_pos; [auto|left; apply Rinv_0_lt_compat; lra]).
  destruct (Rltb_spec (sm / Lm) 0) as [[? _]|[_ ->]]; [lra|]. fold rho. rewrite pydiv_ok by lra. reflexivity.
Qed.
(*! C52_partial_parameters_refuted : giving only alpha (or only beta) does not work: both are recomputed, e.g. alpha = 1 with
   eigs = (1, 1/4) runs with alpha = 10/9; and user-supplied eigs are not floored at Lmax >= 1 as documented, e.g. (1/2, 1/8) *)
Lemma C52_partial_parameters_refuted_l : forall sm lm,
  tw_params (Some 1) None (Some (1, 1/4)) sm lm = Ok (10/9, 16/9) /\
  tw_params None (Some 1) (Some (1, 1/4)) sm lm = Ok (10/9, 16/9) /\
  tw_params None None (Some (1/2, 1/8)) sm lm = Ok (10/9, 2 * (10/9) / (1/2 + 1/8)).
Proof.
  intros. assert (Hs : sqrt (1/4) = 1/2). { replace (1/4) with ((1/2) * (1/2)) by field. apply sqrt_square. lra. }
  assert (G : forall e1 e2, 0 < e2 -> e1 / e2 = 1/4 -> 0 < e2 + e1 ->
    (k <- pydiv e1 e2 ;; if Rltb k 0 then Err ValueError else
      let rho := (1 - sqrt k) / (1 + sqrt k) in let alpha := 1 + rho * rho in beta <- pydiv (2 * alpha) (e2 + e1) ;; Ok (alpha, beta)) = Ok (10/9, 2 * (10/9) / (e2 + e1))).
  { intros e1 e2 H1 H2 H3. rewrite pydiv_ok by lra. rewrite H2. cbn [bind]. destruct (Rltb_spec (1/4) 0) as [[? _]|[_ ->]]; [lra|].
    rewrite Hs. replace (1 + (1 - 1 / 2) / (1 + 1 / 2) * ((1 - 1 / 2) / (1 + 1 / 2))) with (10/9) by field. cbn zeta. rewrite pydiv_ok by lra. reflexivity. }
  unfold tw_params. split; [|split].
  - etransitivity; [apply G; lra|]. do 2 f_equal. field.
  - etransitivity; [apply G; lra|]. do 2 f_equal. field.
  - apply G; lra.
Qed.
