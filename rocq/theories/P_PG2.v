(** * Proofs about ProximalGradient (M_PG.v): refinement of the documented
    recursion, convergence rates, backtracking *)
From Coq Require Import String Psatz.
From Verif Require Import Base Space Spec ConvexFacts Smooth M_ProxOp SpecOps P_ProxOp M_Loop LoopFacts Trace SeqFacts M_PG M_Norms P_Norms P_PG.
From Verif Require Export S_PG2.
Open Scope result_scope.
Open Scope R_scope.

(** ** The documented extrapolation weights *)

Lemma fista_t_ge n : (INR n + 2) / 2 <= fista_t n.
Proof.
  induction n as [|n IH]; [simpl; lra|]. rewrite S_INR. cbn [fista_t].
  assert (H : 2 * fista_t n <= sqrt (1 + 4 * (fista_t n * fista_t n))).
  { pose proof (pos_INR n). rewrite <- (sqrt_square (2 * fista_t n)) by lra. apply sqrt_le_1_alt. lra. }
  lra.
Qed.
Lemma fista_t_ge1 n : 1 <= fista_t n.
Proof. pose proof (fista_t_ge n). pose proof (pos_INR n). lra. Qed.
Lemma fista_t_eq n : fista_t (S n) * fista_t (S n) - fista_t (S n) = fista_t n * fista_t n.
Proof.
  cbn [fista_t]. set (s := sqrt _). assert (s * s = 1 + 4 * (fista_t n * fista_t n)); [|nra].
  apply sqrt_sqrt. pose proof (fista_t_ge1 n). nra.
Qed.


Section Run.
Context {E : IPS}.
Variables (proxf proxg : Op E) (bt : bool) (beta eta : R) (niterback : nat) (accel : option string) (tol : option R).

(** Generic run lemma: whatever one knows about a single proximal step holds at
    every iteration, the extrapolation is the documented one and the callback
    trace and the stopping rule are right. *)
Lemma pg_run (eps : nat -> R) (l : list R) (fv gv : E -> R) (Rel : nat -> E -> E -> R -> E -> R -> Prop) (T : nat -> R -> Prop) niter x0 tau0 :
  (forall j, (j < niter)%nat -> nth_error l j = Some (eps j)) ->
  T 0%nat tau0 ->
  (forall j x y tau, (j < niter)%nat -> T j tau -> exists x' tau',
     pg_prox_step proxf proxg bt beta eta niterback (eps j) x y tau = Ok (x', tau') /\ Rel j x y tau x' tau' /\ T (S j) tau') ->
  (tol <> None -> forall j x y tau x' tau', Rel j x y tau x' tau' -> get_val proxf x' = Ok (fv x') /\ get_val proxg x' = Ok (gv x')) ->
  exists s k xs ys taus,
    for_loop (pg_body proxf proxg l bt beta eta niterback accel tol) niter 0 (PG x0 x0 1 tau0 None []) = Ok (s, k) /\
    pg_x s = xs k /\ pg_tr s = map xs (seq 1 k) /\ xs 0%nat = x0 /\ ys 0%nat = x0 /\ taus 0%nat = tau0 /\
    (forall j, (j < k)%nat -> Rel j (xs j) (ys j) (taus j) (xs (S j)) (taus (S j)) /\
       ys (S j) = xs (S j) [+] omega_seq accel j [*] (xs (S j) [-] xs j)) /\
    stops_at tol (fun j => fv (xs j) + eps (j - 1)%nat * gv (xs j)) niter k /\ (niter <> 0%nat -> (0 < k)%nat).
Proof.
  intros Hl HT0 Hst Hv.
  set (Fv := fun (xs : nat -> E) j => fv (xs j) + eps (j - 1)%nat * gv (xs j)).
  set (Sq := fun k (s : pg_state E) (xs ys : nat -> E) (taus : nat -> R) =>
    (xs 0%nat = x0 /\ ys 0%nat = x0 /\ taus 0%nat = tau0) /\
    (pg_x s = xs k /\ pg_y s = ys k /\ pg_tau s = taus k /\ (accel_is accel "fista" = true -> pg_t s = fista_t k)) /\
    pg_tr s = map xs (seq 1 k) /\
    T k (taus k) /\
    (forall j, (j < k)%nat -> Rel j (xs j) (ys j) (taus j) (xs (S j)) (taus (S j)) /\
       ys (S j) = xs (S j) [+] omega_seq accel j [*] (xs (S j) [-] xs j)) /\
    (tol <> None -> (k = 0%nat -> pg_pfg s = None) /\ (k <> 0%nat -> pg_pfg s = Some (Fv xs k)))).
  set (P := fun k s => exists xs ys taus, Sq k s xs ys taus /\
    forall t, tol = Some t -> forall j, (1 <= j <= k)%nat -> ~ rel_small t (Fv xs) j).
  set (Q := fun k s => exists xs ys taus, Sq k s xs ys taus /\
    exists t, tol = Some t /\ (forall j, (1 <= j < k)%nat -> ~ rel_small t (Fv xs) j) /\ rel_small t (Fv xs) k).
  assert (Hstep : forall j s, (0 <= j < 0 + niter)%nat -> P j s -> exists s' b,
     pg_body proxf proxg l bt beta eta niterback accel tol j s = Ok (s', b) /\
     (b = false -> P (S j) s') /\ (b = true -> Q (S j) s')).
  { intros j s Hjn [xs [ys [taus [[[A1 [A2 A3]] [[B1 [B2 [B3 B4]]] [C1 [D1 [R1 V1]]]]] Hno]]]].
    destruct (Hst j (pg_x s) (pg_y s) (pg_tau s) ltac:(lia)) as [p [tau' [Ep [Hrel HT']]]]; [rewrite B3; auto|].
    unfold pg_body. unfold getitem. rewrite Hl by lia. cbn [bind]. rewrite Ep. cbn [bind fst snd].
    set (t' := if accel_is accel "fista" then (1 + _) / 2 else pg_t s).
    set (omega := if accel_is accel "vandenberghe" then _ else _).
    assert (Ht' : accel_is accel "fista" = true -> t' = fista_t (S j)).
    { intro Ha. unfold t'. rewrite Ha. cbn [fista_t]. rewrite (B4 Ha). reflexivity. }
    assert (Hom : omega = omega_seq accel j).
    { unfold omega, omega_seq. destruct (accel_is accel "vandenberghe"); auto. destruct (accel_is accel "fista") eqn:Ea; auto.
      rewrite (B4 eq_refl), Ht' by auto. reflexivity. }
    set (y' := p [+] omega [*] (p [-] pg_x s)).
    set (xs' := upd xs (S j) p). set (ys' := upd ys (S j) y'). set (taus' := upd taus (S j) tau').
    assert (Hx : forall i, (i <= j)%nat -> xs' i = xs i) by (intros; apply upd_lt; lia).
    assert (Hy : forall i, (i <= j)%nat -> ys' i = ys i) by (intros; apply upd_lt; lia).
    assert (Htt : forall i, (i <= j)%nat -> taus' i = taus i) by (intros; apply upd_lt; lia).
    assert (Hxs : xs' (S j) = p) by apply upd_eq.
    assert (Hys : ys' (S j) = y') by apply upd_eq.
    assert (Hts : taus' (S j) = tau') by apply upd_eq.
    assert (HF : forall i, (1 <= i <= j)%nat -> Fv xs' i = Fv xs i) by (intros i Hi; unfold Fv; rewrite Hx by lia; reflexivity).
    assert (HFS : Fv xs' (S j) = fv p + eps j * gv p) by (unfold Fv; rewrite Hxs; replace (S j - 1)%nat with j by lia; reflexivity).
    assert (Hseq : forall pf, (tol <> None -> pf = Some (Fv xs' (S j))) -> Sq (S j) (PG p y' t' tau' pf (pg_tr s ++ [p])) xs' ys' taus').
    { intros pf Hpf. unfold Sq. cbn [pg_x pg_y pg_t pg_tau pg_pfg pg_tr].
      split; [rewrite Hx, Hy, Htt by lia; auto|]. split; [auto|].
      split; [unfold xs'; rewrite map_upd_snoc, C1; reflexivity|].
      split; [rewrite Hts; auto|]. split.
      - intros i Hi. destruct (Nat.eq_dec i j) as [->|Hne].
        + rewrite Hxs, Hys, Hts, (Hx j), (Hy j), (Htt j) by lia. rewrite <- B1, <- B2, <- B3, <- Hom. auto.
        + rewrite (Hx i), (Hx (S i)), (Hy i), (Hy (S i)), (Htt i), (Htt (S i)) by lia. apply R1. lia.
      - intro Hn. split; [intros; discriminate|]. intros _. auto. }
    destruct tol as [t|].
    - destruct (Hv ltac:(discriminate) _ _ _ _ _ _ Hrel) as [Ef Eg]. rewrite Ef, Eg. cbn [bind].
      destruct (V1 ltac:(discriminate)) as [V2 V3].
      assert (Hr : exists b, rel_stop false t (fv p + eps j * gv p) (pg_pfg s) = Ok b).
      { unfold rel_stop. destruct (pg_pfg s) as [o|]; [destruct (Reqb o 0)|]; eauto. }
      destruct Hr as [b Hr]. rewrite Hr. cbn [bind]. eexists; exists b; split; [reflexivity|].
      assert (Hb : b = true <-> rel_small t (Fv xs') (S j)).
      { eapply (rel_stop_small false t (Fv xs') j); eauto. intro Hj. rewrite HF by lia. auto. }
      assert (Hold : forall i, (1 <= i <= j)%nat -> ~ rel_small t (Fv xs') i).
      { intros i Hi Hs. apply (Hno t eq_refl i Hi). destruct i as [|[|i]]; auto. cbn [rel_small] in *. rewrite !HF in Hs by lia. exact Hs. }
      assert (Hq : Sq (S j) (PG p y' t' tau' (Some (fv p + eps j * gv p)) (pg_tr s ++ [p])) xs' ys' taus') by (apply Hseq; rewrite HFS; auto).
      split; intro Hbb; exists xs', ys', taus'; (split; [exact Hq|]).
      + intros t0 Et i Hi Hs. inversion Et; subst t0.
        destruct (Nat.eq_dec i (S j)) as [->|Hne]; [apply Hb in Hs; congruence|]. apply (Hold i); auto; lia.
      + exists t. split; auto. split; [|apply Hb; auto]. intros i Hi. apply Hold; lia.
    - eexists; exists false; split; [reflexivity|]. split; [|discriminate]. intros _.
      exists xs', ys', taus'. split; [apply Hseq; congruence|]. intros; discriminate. }
  destruct (for_loop_run (pg_body proxf proxg l bt beta eta niterback accel tol) P Q niter 0%nat (PG x0 x0 1 tau0 None [])) as [s' [k [Er [Hk [Hk0 Hf]]]]].
  - exact Hstep.
  - exists (fun _ => x0), (fun _ => x0), (fun _ => tau0). split; [|intros; lia]. unfold Sq. cbn [pg_x pg_y pg_t pg_tau pg_pfg pg_tr].
    do 4 (split; [auto|]). split; [intros i Hi; lia|]. intros _; split; auto; lia.
  - destruct Hf as [[Hn [xs [ys [taus [[[A1 [A2 A3]] [[B1 [B2 [B3 B4]]] [C1 [D1 [R1 V1]]]]] Hno]]]]]|
                    [xs [ys [taus [[[A1 [A2 A3]] [[B1 [B2 [B3 B4]]] [C1 [D1 [R1 V1]]]]] [t [Et [Hno Hs]]]]]]]];
    exists s', k, xs, ys, taus; (split; [exact Er|]); do 5 (split; [auto|]); (split; [exact R1|]); (split; [|auto]).
    + unfold stops_at. destruct tol as [t|]; [|lia]. split; [lia|]. split; [|left; lia]. intros j Hj. apply (Hno t eq_refl); lia.
    + unfold stops_at. rewrite Et. split; [lia|]. split; auto.
Qed.
End Run.

(** ** Backtracking *)
Section BT.
Context {E : IPS}.


Variables (proxf proxg : Op E) (f : E -> R) (df : E -> E) (g : efun E) (e beta : R).
Hypotheses (Hcall : impl_call proxf (etot f)) (Hgrad : forall x, o_grad proxf x = Ok (Some (df x)))
  (Hprox : impl_prox proxg g) (He : 0 < e) (Hb : 0 < beta).

Lemma bt_gen n : forall x tau zo, 0 < tau ->
  (exists z i, bt_loop x proxf proxg e beta n tau zo = Ok (z, tau * beta ^ i) /\ (i < n)%nat /\
     trial df g e (tau * beta ^ i) x z /\ test_ok f df (tau * beta ^ i) x z /\
     (forall j, (j < i)%nat -> exists w, trial df g e (tau * beta ^ j) x w /\ ~ test_ok f df (tau * beta ^ j) x w)) \/
  ((forall j, (j < n)%nat -> exists w, trial df g e (tau * beta ^ j) x w /\ ~ test_ok f df (tau * beta ^ j) x w) /\
   match n with
   | O => bt_loop x proxf proxg e beta n tau zo = match zo with Some z => Ok (z, tau) | None => Err UnboundLocalError end
   | S m => exists z, bt_loop x proxf proxg e beta n tau zo = Ok (z, tau * beta ^ n) /\
              trial df g e (tau * beta ^ m) x z /\ ~ test_ok f df (tau * beta ^ m) x z
   end).
Proof.
  induction n as [|n IH]; intros x tau zo Ht; [right; split; [intros; lia|reflexivity]|].
  destruct (Hprox (x [-] tau [*] df x) (e * tau) ltac:(nra)) as [z [Ez Hz]].
  assert (E0 : bt_loop x proxf proxg e beta (S n) tau zo =
    if Rleb (f z) (f x + << df x, z [-] x >> + 1 / (2 * tau) * norm2 (z [-] x)) then Ok (z, tau)
    else bt_loop x proxf proxg e beta n (tau * beta) (Some z)).
  { cbn [bt_loop]. unfold ftilde, get_grad, get_val. rewrite !Hgrad. cbn [bind]. rewrite Ez. cbn [bind].
    rewrite (Hcall x I), (Hcall z I). reflexivity. }
  rewrite E0. clear E0.
  assert (Htr : trial df g e (tau * beta ^ 0) x z) by (unfold trial; simpl; rewrite Rmult_1_r; auto).
  assert (Hi : 1 / (2 * tau) = / (2 * (tau * beta ^ 0))) by (simpl; field; lra). rewrite Hi.
  destruct (Rleb_spec (f z) (f x + << df x, z [-] x >> + / (2 * (tau * beta ^ 0)) * norm2 (z [-] x))) as [[H ->]|[H ->]].
  - left. exists z, 0%nat. simpl (beta ^ 0). rewrite Rmult_1_r. simpl (beta ^ 0) in *. rewrite Rmult_1_r in *.
    repeat (split; [first [reflexivity|lia|auto]|]). intros j Hj; lia.
  - assert (Hno : ~ test_ok f df (tau * beta ^ 0) x z) by (unfold test_ok; lra).
    specialize (IH x (tau * beta) (Some z) ltac:(nra)).
    assert (Hp : forall j, tau * beta * beta ^ j = tau * beta ^ (S j)) by (intro; simpl; ring).
    destruct IH as [[z' [i [E1 [Hi' [H1 [H2 H3]]]]]]|[H1 H2]].
    + left. exists z', (S i). rewrite Hp in *. repeat (split; [first [exact E1|lia|auto]|]).
      intros j Hj. destruct j as [|j]; [eauto|]. rewrite <- Hp. apply H3. lia.
    + right. split.
      * intros j Hj. destruct j as [|j]; [eauto|]. rewrite <- Hp. apply H1. lia.
      * destruct n as [|m].
        -- exists z. rewrite H2. split; [do 2 f_equal; simpl; ring|auto].
        -- destruct H2 as [z' [E1 [H3 H4]]]. exists z'. rewrite Hp in *. auto.
Qed.

(** With an L-smooth f the test succeeds as soon as tau <= 1/L. *)
Lemma test_small L tau x z : (forall x y, f y <= f x + << df x, y [-] x >> + L / 2 * norm2 (y [-] x)) -> 0 < L ->
  0 < tau <= / L -> test_ok f df tau x z.
Proof.
  intros Hs HL Ht. unfold test_ok. eapply Rle_trans; [apply (Hs x)|].
  apply Rplus_le_compat_l, Rmult_le_compat_r; [apply norm2_nonneg|].
  replace (/ (2 * tau)) with (/ tau / 2) by (field; lra).
  assert (L <= / tau); [|lra]. rewrite <- (Rinv_inv L). apply Rinv_le_contravar; lra.
Qed.

Lemma bt_early L n x tau : (forall x y, f y <= f x + << df x, y [-] x >> + L / 2 * norm2 (y [-] x)) -> 0 < L ->
  0 < tau -> (exists i, (i < n)%nat /\ tau * beta ^ i <= / L) ->
  exists z i, backtracking x tau proxf proxg e beta n = Ok (z, tau * beta ^ i) /\ (i < n)%nat /\
     trial df g e (tau * beta ^ i) x z /\ test_ok f df (tau * beta ^ i) x z /\
     (i = 0%nat \/ / L < tau * beta ^ (i - 1)).
Proof.
  intros Hs HL Ht [i0 [Hi0 Hsm]].
  assert (Hpw : forall i, 0 < tau * beta ^ i) by (intro; apply Rmult_lt_0_compat; auto; apply pow_lt; auto).
  destruct (bt_gen n x tau None Ht) as [[z [i [E1 [H1 [H2 [H3 H4]]]]]]|[H1 _]].
  - exists z, i. repeat (split; [auto|]). destruct i as [|i]; auto. right. replace (S i - 1)%nat with i by lia.
    destruct (H4 i ltac:(lia)) as [w [_ Hw]]. destruct (Rlt_dec (/ L) (tau * beta ^ i)); auto.
    exfalso. apply Hw. apply (test_small L); auto. split; auto; lra.
  - exfalso. destruct (H1 i0 Hi0) as [w [_ Hw]]. apply Hw. apply (test_small L); auto.
Qed.
End BT.

(** ** ProximalGradient *)
Section PGrun.
Context {E : IPS}.
Variables (proxf proxg : Op E) (f : E -> R) (df : E -> E) (g : efun E) (gv : E -> R).
Hypotheses (Hcall : impl_call proxf (etot f)) (Hgrad : forall x, o_grad proxf x = Ok (Some (df x)))
  (Hprox : impl_prox proxg g).


Lemma eps_arg_ok epsg niter eps : eps_arg epsg niter eps ->
  exists l, pg_epsg epsg niter = Ok l /\ forall j, (j < niter)%nat -> nth_error l j = Some (eps j).
Proof.
  intros [[e [-> [Hn He]]]|[Hl He]].
  - exists (repeat e niter). split; [destruct niter; [lia|reflexivity]|]. intros j Hj. rewrite He.
    clear - Hj. revert j Hj. induction niter as [|n IH]; intros j Hj; [lia|]. destruct j; simpl; auto. apply IH; lia.
  - exists epsg. split; auto. destruct epsg as [|a [|b l]]; auto. simpl in Hl; lia.
Qed.

Lemma pg_known accel : accel_known accel = true ->
  accel = None \/ accel = Some "None"%string \/ accel = Some "vandenberghe"%string \/ accel = Some "fista"%string.
Proof.
  destruct accel as [s|]; auto. simpl. intro H. apply orb_prop in H as [H|H]; [apply orb_prop in H as [H|H]|];
  apply String.eqb_eq in H; subst; auto.
Qed.

(** eta = 1, fixed step. *)
Lemma pg_fixed epsg eps x0 tau beta niter niterback accel tol :
  eps_arg epsg niter eps -> (forall j, (j < niter)%nat -> 0 < eps j) -> 0 < tau -> accel_known accel = true ->
  (tol <> None -> forall x, edom g x -> get_val proxg x = Ok (gv x)) ->
  exists xs ys k, ProximalGradient proxf proxg x0 epsg (Some tau) false beta 1 niter niterback accel tol = Ok (xs k, map xs (seq 1 k)) /\
    xs 0%nat = x0 /\ pg_doc df g eps (fun _ => tau) 1 (omega_seq accel) xs ys k /\
    stops_at tol (fun j => f (xs j) + eps (j - 1)%nat * gv (xs j)) niter k /\ (niter <> 0%nat -> (0 < k)%nat).
Proof.
  intros He Hep Ht Hk Hv. destruct (eps_arg_ok _ _ _ He) as [l [El Hl]].
  destruct (pg_run proxf proxg false beta 1 niterback accel tol eps l f gv
    (fun j x y t x' t' => trial df g (eps j) tau y x') (fun _ t => t = tau) niter x0 tau Hl eq_refl) as
    [s [k [xs [ys [taus [Er [Hx [Htr [H0 [H1 [H2 [HR [Hs Hk0]]]]]]]]]]]]].
  - intros j x y t Hj ->. destruct (Hprox (y [-] tau [*] df y) (eps j * tau)) as [p [Ep Hp]].
    { specialize (Hep j Hj). nra. }
    exists p, tau. split; [|split; auto]. unfold pg_prox_step, get_grad. destruct (Reqb_spec 1 1) as [[_ ->]|[? _]]; [|lra].
    rewrite Hgrad. cbn [bind]. rewrite Ep. reflexivity.
  - intros Hn j x y t x' t' Hr. split; [|apply Hv; auto; apply Hr]. unfold get_val. rewrite (Hcall x' I). reflexivity.
  - exists xs, ys, k. split.
    { unfold ProximalGradient. rewrite El. cbn [bind]. rewrite Hk, Er. cbn [bind fst]. rewrite Hx, Htr. reflexivity. }
    split; auto. split; [|auto]. split; [congruence|]. intros j Hj. destruct (HR j Hj) as [Hr Hy].
    exists (xs (S j)). split; [exact Hr|]. split; [vring|exact Hy].
Qed.

(** eta = 1, backtracking that cannot be exhausted. *)
Lemma pg_bt L epsg eps x0 tau beta niter niterback accel tol :
  (forall x y, f y <= f x + << df x, y [-] x >> + L / 2 * norm2 (y [-] x)) -> 0 < L ->
  eps_arg epsg niter eps -> (forall j, (j < niter)%nat -> 0 < eps j) ->
  let tau0 := match tau with Some t => t | None => 1 end in
  0 < tau0 -> 0 < beta <= 1 -> (exists i, (i < niterback)%nat /\ tau0 * beta ^ i <= / L) -> accel_known accel = true ->
  (tol <> None -> forall x, edom g x -> get_val proxg x = Ok (gv x)) ->
  exists xs ys taus k, ProximalGradient proxf proxg x0 epsg tau true beta 1 niter niterback accel tol = Ok (xs k, map xs (seq 1 k)) /\
    xs 0%nat = x0 /\ pg_doc df g eps taus 1 (omega_seq accel) xs ys k /\ suff_dec f df taus xs ys k /\
    (forall j, (j < k)%nat -> Rmin tau0 (beta / L) <= taus j <= tau0) /\ (forall j, (S j < k)%nat -> taus (S j) <= taus j) /\
    stops_at tol (fun j => f (xs j) + eps (j - 1)%nat * gv (xs j)) niter k /\ (niter <> 0%nat -> (0 < k)%nat).
Proof.
  intros Hs HL He Hep tau0 Ht Hb [i0 [Hi0 Hsm]] Hk Hv. destruct (eps_arg_ok _ _ _ He) as [l [El Hl]].
  destruct (pg_run proxf proxg true beta 1 niterback accel tol eps l f gv
    (fun j x y t x' t' => trial df g (eps j) t' y x' /\ test_ok f df t' y x' /\ Rmin tau0 (beta / L) <= t' <= tau0 /\ t' <= t)
    (fun _ t => 0 < t /\ Rmin tau0 (beta / L) <= t <= tau0) niter x0 tau0 Hl) as
    [s [k [xs [ys [taus [Er [Hx [Htr [H0 [H1 [H2 [HR [Hst Hk0]]]]]]]]]]]]].
  - pose proof (Rmin_l tau0 (beta / L)). lra.
  - intros j x y t Hj [Htp [Hlo Hhi]].
    assert (Hpw : forall i, 0 < beta ^ i <= 1). { intro i. split; [apply pow_lt; lra|]. rewrite <- (pow1 i). apply pow_incr. lra. }
    destruct (bt_early proxf proxg f df g (eps j) beta Hcall Hgrad Hprox (Hep j Hj) (proj1 Hb) L niterback y t Hs HL Htp) as
      [z [i [E1 [H1 [H2 [H3 H4]]]]]].
    { exists i0. split; auto. destruct (Hpw i0). nra. }
    assert (Hlo' : Rmin tau0 (beta / L) <= t * beta ^ i).
    { destruct H4 as [->|H4]; [simpl; lra|]. eapply Rle_trans; [apply Rmin_r|]. destruct i as [|i]; [simpl in *; rewrite Rmult_1_r in *|].
      - eapply Rle_trans; [|left; apply H4]. unfold Rdiv. pose proof (Rinv_0_lt_compat L HL). nra.
      - replace (S i - 1)%nat with i in H4 by lia. simpl. unfold Rdiv. nra. }
    assert (Hle : t * beta ^ i <= t) by (destruct (Hpw i); nra).
    exists z, (t * beta ^ i). split; [|split; [|]].
    + unfold pg_prox_step. rewrite E1. cbn [bind]. destruct (Reqb_spec 1 1) as [[_ ->]|[? _]]; [auto|lra].
    + split; [exact H2|split; [exact H3|split; [split; lra|lra]]].
    + split; [destruct (Hpw i); nra|split; lra].
  - intros Hn j x y t x' t' [Hr _]. split; [|apply Hv; auto; apply Hr]. unfold get_val. rewrite (Hcall x' I). reflexivity.
  - exists xs, ys, (fun j => taus (S j)), k. split.
    { unfold ProximalGradient. rewrite El. cbn [bind]. rewrite Hk. fold tau0. replace (match tau with Some _ => true | None => true end) with true by (destruct tau; auto).
      rewrite Er. cbn [bind fst]. rewrite Hx, Htr. reflexivity. }
    split; auto. split; [|split; [|split; [|split; [|auto]]]].
    + split; [congruence|]. intros j Hj. destruct (HR j Hj) as [[Hr _] Hy].
      exists (xs (S j)). split; [exact Hr|]. split; [vring|exact Hy].
    + intros j Hj. destruct (HR j Hj) as [[_ [Hr _]] _]. exact Hr.
    + intros j Hj. destruct (HR j Hj) as [[_ [_ [Hr _]]] _]. exact Hr.
    + intros j Hj. destruct (HR (S j) Hj) as [[_ [_ [_ Hr]]] _]. exact Hr.
Qed.

(** The effect of relaxation (eta <> 1): y and the acceleration do not matter. *)
Lemma pg_relaxed epsg eps x0 tau beta eta niter niterback accel :
  eps_arg epsg niter eps -> (forall j, (j < niter)%nat -> 0 < eps j) -> 0 < tau -> eta <> 1 -> accel_known accel = true ->
  exists xs, ProximalGradient proxf proxg x0 epsg (Some tau) false beta eta niter niterback accel None = Ok (xs niter, map xs (seq 1 niter)) /\
    xs 0%nat = x0 /\ forall j, (j < niter)%nat -> exists p, trial df g (eps j) tau (xs j) p /\ xs (S j) = xs j [+] eta [*] (p [-] xs j).
Proof.
  intros He Hep Ht Hne Hk. destruct (eps_arg_ok _ _ _ He) as [l [El Hl]].
  destruct (pg_run proxf proxg false beta eta niterback accel None eps l f gv
    (fun j x y t x' t' => exists p, trial df g (eps j) tau x p /\ x' = x [+] eta [*] (p [-] x)) (fun _ t => t = tau) niter x0 tau Hl eq_refl) as
    [s [k [xs [ys [taus [Er [Hx [Htr [H0 [H1 [H2 [HR [Hs Hk0]]]]]]]]]]]]].
  - intros j x y t Hj ->. destruct (Hprox (x [-] tau [*] df x) (eps j * tau)) as [p [Ep Hp]].
    { specialize (Hep j Hj). nra. }
    exists (x [+] eta [*] (p [-] x)), tau. split; [|split; auto; exists p; auto]. unfold pg_prox_step, get_grad.
    destruct (Reqb_spec eta 1) as [[? _]|[_ ->]]; [contradiction|].
    rewrite Hgrad. cbn [bind]. rewrite Ep. reflexivity.
  - congruence.
  - simpl in Hs. subst k. exists xs. split.
    { unfold ProximalGradient. rewrite El. cbn [bind]. rewrite Hk, Er. cbn [bind fst]. rewrite Hx, Htr. reflexivity. }
    split; auto. intros j Hj. apply (HR j Hj).
Qed.
End PGrun.

(*! C43_recursion : with eta = 1 and a fixed step, for every epsg (one number or one per iteration), every
   acceleration mode, tolerance and starting point, ProximalGradient executes the documented recursion: its callbacks see
   x_1..x_k, it returns x_k, and k is where the tolerance rule stops.  (No convexity is assumed; other eta: see below.) *)
Lemma C43_recursion_l : forall (E : IPS) (proxf proxg : Op E) f df g gv epsg eps x0 tau beta niter niterback accel tol,
  impl_call proxf (etot f) -> (forall x, o_grad proxf x = Ok (Some (df x))) -> impl_prox proxg g ->
  eps_arg epsg niter eps -> (forall j, (j < niter)%nat -> 0 < eps j) -> 0 < tau -> accel_known accel = true ->
  (tol <> None -> forall x, edom g x -> get_val proxg x = Ok (gv x)) ->
  exists xs ys k, ProximalGradient proxf proxg x0 epsg (Some tau) false beta 1 niter niterback accel tol = Ok (xs k, map xs (seq 1 k)) /\
    xs 0%nat = x0 /\ pg_doc df g eps (fun _ => tau) 1 (omega_seq accel) xs ys k /\
    stops_at tol (fun j => f (xs j) + eps (j - 1)%nat * gv (xs j)) niter k.
Proof.
  intros. destruct (pg_fixed proxf proxg f df g gv H H0 H1 epsg eps x0 tau beta niter niterback accel tol) as [xs [ys [k Hx]]]; auto.
  exists xs, ys, k. tauto.
Qed.

Lemma le_INR_div n a b tau : 0 <= a -> 0 < tau -> 2 * tau * INR (S n) * b <= a -> b <= a / (2 * tau * INR (S n)).
Proof. intros Ha Ht H. apply le_div; [|lra]. assert (0 < INR (S n)) by (apply lt_0_INR; lia). nra. Qed.

(*! C41_rate : without acceleration and with 0 < tau <= 1/L (f convex with L-Lipschitz gradient, g convex): the run
   never raises, F(x_k) - F(z) <= |x0-z|^2/(2 tau k) for every z with g(z) finite, where k is the number of executed
   iterations (niter, or fewer when tol stops it), and F never increases along the callbacks *)
Lemma C41_rate_l : forall (E : IPS) (proxf proxg : Op E) f df L g gv eps x0 tau beta niter niterback accel tol,
  smooth_op proxf f df L -> impl_prox proxg g -> convex g -> 0 < eps -> 0 < tau <= / L -> (1 <= niter)%nat ->
  accel = None \/ accel = Some "None"%string ->
  (tol <> None -> forall x, edom g x -> get_val proxg x = Ok (gv x)) ->
  let F := eadd (etot f) (escal eps g) in
  exists x tr k, ProximalGradient proxf proxg x0 [eps] (Some tau) false beta 1 niter niterback accel tol = Ok (x, tr) /\
    List.length tr = S k /\ (S k <= niter)%nat /\ (tol = None -> S k = niter) /\ edom F x /\
    (forall z, edom F z -> eval F x - eval F z <= norm2 (x0 [-] z) / (2 * tau * INR (S k))) /\
    (forall i a b, nth_error tr i = Some a -> nth_error tr (S i) = Some b -> eval F b <= eval F a).
Proof.
  intros E proxf proxg f df L g gv eps x0 tau beta niter niterback accel tol [Hc [Hg [Hcv [HL Hsm]]]] Hp Hgc He Ht Hn Hac Hv F.
  destruct (L_smooth_convex f df L Hcv Hsm) as [Hf1 Hf2].
  destruct (pg_fixed proxf proxg f df g gv Hc Hg Hp [eps] (fun _ => eps) x0 tau beta niter niterback accel tol) as
    [xs [ys [k [Er [H0 [Hd [Hs Hk0]]]]]]]; auto; try lra.
  { left. exists eps. repeat split; auto; lia. }
  { destruct Hac; subst; auto. }
  destruct k as [|k]; [exfalso; apply (Nat.lt_irrefl 0); apply Hk0; lia|].
  assert (Hom : forall j, omega_seq accel j = 0) by (intro; destruct Hac; subst; reflexivity).
  assert (Hsd : suff_dec f df (fun _ => tau) xs ys (S k)).
  { apply (suff_dec_small f df L); auto. split; auto. }
  exists (xs (S k)), (map xs (seq 1 (S k))), k. split; [exact Er|]. split; [rewrite map_length, seq_length; auto|].
  assert (HdX : forall j, (1 <= j <= S k)%nat -> edom g (xs j)).
  { intros j Hj. apply (pg_doc_dom df g eps (fun _ => tau) (omega_seq accel) xs ys (S k)); auto. }
  split; [destruct tol; simpl in Hs; lia|]. split; [intros ->; exact Hs|]. split; [split; [exact I|apply HdX; lia]|]. split.
  - intros z [_ Hz]. pose proof (pg_rate f df g eps Hf1 Hgc He (fun _ => tau) (omega_seq accel) xs ys (fun _ => proj1 Ht) (S k) z
      Hom Hd Hsd Hz (fun j _ => Rle_refl _) k (Nat.le_refl _)) as H. rewrite H0 in H. pose proof (norm2_nonneg (xs (S k) [-] z)).
    apply le_INR_div; [apply norm2_nonneg|lra|]. cbn [eval F eadd etot escal]. lra.
  - intros i a b Ha Hb. apply nth_error_map_seq in Ha as [_ ->]. apply nth_error_map_seq in Hb as [Hl ->].
    apply (pg_mono f df g eps Hf1 Hgc He (fun _ => tau) (omega_seq accel) xs ys (fun _ => proj1 Ht) (S k) Hom Hd Hsd (1 + i)%nat); [lia|].
    apply HdX; lia.
Qed.

(*! C41_backtracking_rate : the same with backtracking (tau=None or backtracking=True) when the line search has enough
   trials to get below 1/L: the run never raises, F never increases and F(x_k) - F(z) <= |x0-z|^2/(2 min(tau0,beta/L) k)
   for every minimiser z *)
Lemma C41_backtracking_rate_l : forall (E : IPS) (proxf proxg : Op E) f df L g gv eps x0 tau beta niter niterback accel tol,
  smooth_op proxf f df L -> impl_prox proxg g -> convex g -> 0 < eps -> (1 <= niter)%nat ->
  accel = None \/ accel = Some "None"%string ->
  let tau0 := match tau with Some t => t | None => 1 end in
  0 < tau0 -> 0 < beta <= 1 -> (exists i, (i < niterback)%nat /\ tau0 * beta ^ i <= / L) ->
  (tol <> None -> forall x, edom g x -> get_val proxg x = Ok (gv x)) ->
  let F := eadd (etot f) (escal eps g) in
  exists x tr k, ProximalGradient proxf proxg x0 [eps] tau true beta 1 niter niterback accel tol = Ok (x, tr) /\
    List.length tr = S k /\ (S k <= niter)%nat /\ (tol = None -> S k = niter) /\ edom F x /\
    (forall z, is_min F z -> eval F x - eval F z <= norm2 (x0 [-] z) / (2 * Rmin tau0 (beta / L) * INR (S k))) /\
    (forall i a b, nth_error tr i = Some a -> nth_error tr (S i) = Some b -> eval F b <= eval F a).
Proof.
  intros E proxf proxg f df L g gv eps x0 tau beta niter niterback accel tol [Hc [Hg [Hcv [HL Hsm]]]] Hp Hgc He Hn Hac tau0 Ht Hb Hi Hv F.
  destruct (L_smooth_convex f df L Hcv Hsm) as [Hf1 Hf2].
  destruct (pg_bt proxf proxg f df g gv Hc Hg Hp L [eps] (fun _ => eps) x0 tau beta niter niterback accel tol) as
    [xs [ys [taus [k [Er [H0 [Hd [Hsd [Hlo [Hmo [Hs Hk0]]]]]]]]]]]; auto; try lra.
  { left. exists eps. repeat split; auto; lia. }
  { destruct Hac; subst; auto. }
  destruct k as [|k]; [exfalso; apply (Nat.lt_irrefl 0); apply Hk0; lia|].
  assert (Hom : forall j, omega_seq accel j = 0) by (intro; destruct Hac; subst; reflexivity).
  assert (Hm : 0 < Rmin tau0 (beta / L)). { apply Rmin_glb_lt; auto. apply Rdiv_lt_0_compat; lra. }
  set (taus' := fun j => if Nat.ltb j (S k) then taus j else tau0).
  assert (Htp : forall j, 0 < taus' j). { intro j. unfold taus'. destruct (Nat.ltb_spec j (S k)); auto. specialize (Hlo j H). fold tau0 in Hlo. lra. }
  assert (Hd' : pg_doc df g (fun _ => eps) taus' 1 (omega_seq accel) xs ys (S k)).
  { destruct Hd as [Hd1 Hd2]. split; auto. intros j Hj. unfold taus'. destruct (Nat.ltb_spec j (S k)); [auto|lia]. }
  assert (Hsd' : suff_dec f df taus' xs ys (S k)).
  { intros j Hj. unfold taus'. destruct (Nat.ltb_spec j (S k)); [auto|lia]. }
  exists (xs (S k)), (map xs (seq 1 (S k))), k. split; [exact Er|]. split; [rewrite map_length, seq_length; auto|].
  assert (HdX : forall j, (1 <= j <= S k)%nat -> edom g (xs j)).
  { intros j Hj. apply (pg_doc_dom df g eps taus' (omega_seq accel) xs ys (S k)); auto. }
  split; [destruct tol; simpl in Hs; lia|]. split; [intros ->; exact Hs|]. split; [split; [exact I|apply HdX; lia]|]. split.
  - intros z [[_ Hz] Hzm].
    assert (Hpos : forall j, (1 <= j <= S k)%nat -> 0 <= (f (xs j) + eps * eval g (xs j)) - (f z + eps * eval g z)).
    { intros j Hj. specialize (Hzm (xs j) (conj I (HdX j Hj))). cbn [eval F eadd etot escal] in Hzm. lra. }
    pose proof (pg_rate f df g eps Hf1 Hgc He taus' (omega_seq accel) xs ys Htp (S k) z Hom Hd' Hsd' Hz) as H.
    assert (Hmon : forall j, (S j < S k)%nat ->
       taus' (S j) * ((f (xs (S j)) + eps * eval g (xs (S j))) - (f z + eps * eval g z)) <= taus' j * ((f (xs (S j)) + eps * eval g (xs (S j))) - (f z + eps * eval g z))).
    { intros j Hj. apply Rmult_le_compat_r; [apply Hpos; lia|]. unfold taus'.
      destruct (Nat.ltb_spec j (S k)); [|lia]. destruct (Nat.ltb_spec (S j) (S k)); [|lia]. apply Hmo; lia. }
    specialize (H Hmon k (Nat.le_refl _)). rewrite H0 in H. pose proof (norm2_nonneg (xs (S k) [-] z)).
    apply le_INR_div; [apply norm2_nonneg|auto|]. cbn [eval F eadd etot escal].
    specialize (Hpos (S k) ltac:(lia)). eapply Rle_trans; [|eapply Rle_trans; [|exact H]; apply Rplus_le_compat_l with (r := 2 * taus' k * INR (S k) * (f (xs (S k)) + eps * eval g (xs (S k)) - (f z + eps * eval g z))) in H1; rewrite Rplus_0_r in H1; exact H1].
    apply Rmult_le_compat_r; auto. apply Rmult_le_compat_r; [apply pos_INR|]. apply Rmult_le_compat_l; [lra|].
    unfold taus'. destruct (Nat.ltb_spec k (S k)); [|lia]. apply Hlo; lia.
  - intros i a b Ha Hb'. apply nth_error_map_seq in Ha as [_ ->]. apply nth_error_map_seq in Hb' as [Hl ->].
    apply (pg_mono f df g eps Hf1 Hgc He taus' (omega_seq accel) xs ys Htp (S k) Hom Hd' Hsd' (1 + i)%nat); [lia|].
    apply HdX; lia.
Qed.

(** Both accelerations satisfy the hypotheses of [fista_rate]. *)
Definition t_of (accel : option string) (j : nat) : R := if accel_is accel "vandenberghe" then (INR j + 2) / 2 else fista_t j.
Lemma t_of_facts accel : accel = Some "vandenberghe"%string \/ accel = Some "fista"%string ->
  t_of accel 0 = 1 /\ (forall j, 1 <= t_of accel j) /\
  (forall j, t_of accel (S j) * t_of accel (S j) - t_of accel (S j) <= t_of accel j * t_of accel j) /\
  (forall j, omega_seq accel j = (t_of accel j - 1) / t_of accel (S j)) /\ (forall j, (INR j + 2) / 2 <= t_of accel j).
Proof.
  intros [->| ->]; unfold t_of, omega_seq; cbn [accel_is String.eqb Ascii.eqb Bool.eqb]; repeat split.
  - simpl; lra.
  - intro j. pose proof (pos_INR j). lra.
  - intro j. rewrite S_INR. pose proof (pos_INR j). nra.
  - intro j. rewrite S_INR. pose proof (pos_INR j). field. lra.
  - intro j. lra.
  - apply fista_t_ge1.
  - intro j. rewrite fista_t_eq. lra.
  - apply fista_t_ge.
Qed.

(*! C42_accelerated_rate : with acceleration 'fista' or 'vandenberghe', eta = 1 and a fixed 0 < tau <= 1/L, the run never
   raises and F(x_k) - F(z) <= 2|x0-z|^2/(tau (k+1)^2) for every minimiser z, k being the number of executed iterations *)
Lemma C42_accelerated_rate_l : forall (E : IPS) (proxf proxg : Op E) f df L g gv eps x0 tau beta niter niterback accel tol,
  smooth_op proxf f df L -> impl_prox proxg g -> convex g -> 0 < eps -> 0 < tau <= / L -> (1 <= niter)%nat ->
  accel = Some "vandenberghe"%string \/ accel = Some "fista"%string ->
  (tol <> None -> forall x, edom g x -> get_val proxg x = Ok (gv x)) ->
  let F := eadd (etot f) (escal eps g) in
  exists x tr k, ProximalGradient proxf proxg x0 [eps] (Some tau) false beta 1 niter niterback accel tol = Ok (x, tr) /\
    List.length tr = k /\ (1 <= k <= niter)%nat /\ (tol = None -> k = niter) /\ edom F x /\
    (forall z, is_min F z -> eval F x - eval F z <= 2 * norm2 (x0 [-] z) / (tau * (INR k + 1)^2)).
Proof.
  intros E proxf proxg f df L g gv eps x0 tau beta niter niterback accel tol [Hc [Hg [Hcv [HL Hsm]]]] Hp Hgc He Ht Hn Hac Hv F.
  destruct (L_smooth_convex f df L Hcv Hsm) as [Hf1 Hf2].
  destruct (t_of_facts accel Hac) as [T0 [T1 [T2 [T3 T4]]]].
  destruct (pg_fixed proxf proxg f df g gv Hc Hg Hp [eps] (fun _ => eps) x0 tau beta niter niterback accel tol) as
    [xs [ys [k [Er [H0 [Hd [Hs Hk0]]]]]]]; auto; try lra.
  { left. exists eps. repeat split; auto; lia. }
  { destruct Hac; subst; auto. }
  destruct k as [|k]; [exfalso; apply (Nat.lt_irrefl 0); apply Hk0; lia|].
  assert (Hsd : suff_dec f df (fun _ => tau) xs ys (S k)).
  { apply (suff_dec_small f df L); auto. split; auto. }
  assert (HdX : forall j, (1 <= j <= S k)%nat -> edom g (xs j)).
  { intros j Hj. apply (pg_doc_dom df g eps (fun _ => tau) (omega_seq accel) xs ys (S k)); auto. }
  exists (xs (S k)), (map xs (seq 1 (S k))), (S k). split; [exact Er|]. split; [rewrite map_length, seq_length; auto|].
  split; [destruct tol; simpl in Hs; lia|]. split; [intros ->; exact Hs|]. split; [split; [exact I|apply HdX; lia]|].
  intros z [[_ Hz] Hzm].
  assert (Hz2 : forall y, edom g y -> f z + eps * eval g z <= f y + eps * eval g y) by (intros y Hy; apply (Hzm y (conj I Hy))).
  pose proof (fista_rate f df g eps Hf1 Hgc He (fun _ => tau) (omega_seq accel) xs ys (fun _ => proj1 Ht) (t_of accel) T0 T1 T2 (S k) z
    T3 Hd Hsd (fun _ _ => Rle_refl _) Hz Hz2 k (Nat.le_refl _)) as H. rewrite H0 in H.
  pose proof (norm2_nonneg (t_of accel k [*] xs (S k) [-] (t_of accel k - 1) [*] xs k [-] z)) as Hn2.
  pose proof (Hz2 _ (HdX (S k) ltac:(lia))) as Hp0. specialize (T4 k). pose proof (pos_INR k).
  cbn [eval F eadd etot escal]. set (v := f (xs (S k)) + eps * eval g (xs (S k)) - (f z + eps * eval g z)) in *.
  assert (Hv0 : 0 <= v) by (unfold v; lra). rewrite S_INR.
  assert (Hsq : (INR k + 1 + 1)^2 <= 4 * (t_of accel k * t_of accel k)) by nra.
  apply le_div; [apply Rmult_lt_0_compat; [lra|]; apply pow_lt; lra|].
  assert (v * (tau * (INR k + 1 + 1)^2) <= v * (tau * (4 * (t_of accel k * t_of accel k)))).
  { apply Rmult_le_compat_l; auto. apply Rmult_le_compat_l; lra. }
  lra.
Qed.

(*! C42_wrapper_rate : AcceleratedProximalGradient (the deprecated wrapper) has the same guarantee, for the weight epsg and the
   step it was given: F(x_k) - F(z) <= 2|x0-z|^2/(tau (k+1)^2) for every minimiser z of F = f + epsg g; a step that is not
   given means backtracking from 1, exactly as in ProximalGradient *)
Lemma C42_wrapper_rate_l : forall (E : IPS) (proxf proxg : Op E) f df L g gv eps x0 tau beta niter niterback accel tol,
  smooth_op proxf f df L -> impl_prox proxg g -> convex g -> 0 < eps -> 0 < tau <= / L -> (1 <= niter)%nat ->
  accel = Some "vandenberghe"%string \/ accel = Some "fista"%string ->
  (tol <> None -> forall x, edom g x -> get_val proxg x = Ok (gv x)) ->
  let F := eadd (etot f) (escal eps g) in
  (exists x tr k, AcceleratedProximalGradient proxf proxg x0 [eps] (Some tau) beta niter niterback accel tol = Ok (x, tr) /\
    List.length tr = k /\ (1 <= k <= niter)%nat /\ (tol = None -> k = niter) /\ edom F x /\
    (forall z, is_min F z -> eval F x - eval F z <= 2 * norm2 (x0 [-] z) / (tau * (INR k + 1)^2))) /\
  AcceleratedProximalGradient proxf proxg x0 [eps] None beta niter niterback accel tol =
    ProximalGradient proxf proxg x0 [eps] (Some 1) true beta 1 niter niterback accel tol.
Proof.
  intros E proxf proxg f df L g gv eps x0 tau beta niter nb accel tol Hf Hg Hc He Ht Hn Ha Hv F. split.
  - exact (C42_accelerated_rate_l E proxf proxg f df L g gv eps x0 tau beta niter nb accel tol Hf Hg Hc He Ht Hn Ha Hv).
  - unfold AcceleratedProximalGradient, ProximalGradient. reflexivity.
Qed.

(*! C42_accelerated_backtracking : the accelerated rate with backtracking and enough trials, with min(tau0, beta/L) in
   place of tau *)
Lemma C42_accelerated_backtracking_l : forall (E : IPS) (proxf proxg : Op E) f df L g gv eps x0 tau beta niter niterback accel tol,
  smooth_op proxf f df L -> impl_prox proxg g -> convex g -> 0 < eps -> (1 <= niter)%nat ->
  accel = Some "vandenberghe"%string \/ accel = Some "fista"%string ->
  let tau0 := match tau with Some t => t | None => 1 end in
  0 < tau0 -> 0 < beta <= 1 -> (exists i, (i < niterback)%nat /\ tau0 * beta ^ i <= / L) ->
  (tol <> None -> forall x, edom g x -> get_val proxg x = Ok (gv x)) ->
  let F := eadd (etot f) (escal eps g) in
  exists x tr k, ProximalGradient proxf proxg x0 [eps] tau true beta 1 niter niterback accel tol = Ok (x, tr) /\
    List.length tr = k /\ (1 <= k <= niter)%nat /\ (tol = None -> k = niter) /\ edom F x /\
    (forall z, is_min F z -> eval F x - eval F z <= 2 * norm2 (x0 [-] z) / (Rmin tau0 (beta / L) * (INR k + 1)^2)).
Proof.
  intros E proxf proxg f df L g gv eps x0 tau beta niter niterback accel tol [Hc [Hg [Hcv [HL Hsm]]]] Hp Hgc He Hn Hac tau0 Ht Hb Hi Hv F.
  destruct (L_smooth_convex f df L Hcv Hsm) as [Hf1 Hf2].
  destruct (t_of_facts accel Hac) as [T0 [T1 [T2 [T3 T4]]]].
  destruct (pg_bt proxf proxg f df g gv Hc Hg Hp L [eps] (fun _ => eps) x0 tau beta niter niterback accel tol) as
    [xs [ys [taus [k [Er [H0 [Hd [Hsd [Hlo [Hmo [Hs Hk0]]]]]]]]]]]; auto; try lra.
  { left. exists eps. repeat split; auto; lia. }
  { destruct Hac; subst; auto. }
  destruct k as [|k]; [exfalso; apply (Nat.lt_irrefl 0); apply Hk0; lia|].
  assert (Hm : 0 < Rmin tau0 (beta / L)). { apply Rmin_glb_lt; auto. apply Rdiv_lt_0_compat; lra. }
  set (taus' := fun j => if Nat.ltb j (S k) then taus j else tau0).
  assert (Htp : forall j, 0 < taus' j). { intro j. unfold taus'. destruct (Nat.ltb_spec j (S k)); auto. specialize (Hlo j H). fold tau0 in Hlo. lra. }
  assert (Hd' : pg_doc df g (fun _ => eps) taus' 1 (omega_seq accel) xs ys (S k)).
  { destruct Hd as [Hd1 Hd2]. split; auto. intros j Hj. unfold taus'. destruct (Nat.ltb_spec j (S k)); [auto|lia]. }
  assert (Hsd' : suff_dec f df taus' xs ys (S k)).
  { intros j Hj. unfold taus'. destruct (Nat.ltb_spec j (S k)); [auto|lia]. }
  assert (Hmo' : forall j, (S j < S k)%nat -> taus' (S j) <= taus' j).
  { intros j Hj. unfold taus'. destruct (Nat.ltb_spec j (S k)); [|lia]. destruct (Nat.ltb_spec (S j) (S k)); [|lia]. apply Hmo; lia. }
  assert (HdX : forall j, (1 <= j <= S k)%nat -> edom g (xs j)).
  { intros j Hj. apply (pg_doc_dom df g eps taus' (omega_seq accel) xs ys (S k)); auto. }
  exists (xs (S k)), (map xs (seq 1 (S k))), (S k). split; [exact Er|]. split; [rewrite map_length, seq_length; auto|].
  split; [destruct tol; simpl in Hs; lia|]. split; [intros ->; exact Hs|]. split; [split; [exact I|apply HdX; lia]|].
  intros z [[_ Hz] Hzm].
  assert (Hz2 : forall y, edom g y -> f z + eps * eval g z <= f y + eps * eval g y) by (intros y Hy; apply (Hzm y (conj I Hy))).
  pose proof (fista_rate f df g eps Hf1 Hgc He taus' (omega_seq accel) xs ys Htp (t_of accel) T0 T1 T2 (S k) z
    T3 Hd' Hsd' Hmo' Hz Hz2 k (Nat.le_refl _)) as H. rewrite H0 in H.
  pose proof (norm2_nonneg (t_of accel k [*] xs (S k) [-] (t_of accel k - 1) [*] xs k [-] z)) as Hn2.
  pose proof (Hz2 _ (HdX (S k) ltac:(lia))) as Hp0. specialize (T4 k). pose proof (pos_INR k).
  cbn [eval F eadd etot escal]. set (v := f (xs (S k)) + eps * eval g (xs (S k)) - (f z + eps * eval g z)) in *.
  assert (Hv0 : 0 <= v) by (unfold v; lra). rewrite S_INR.
  assert (Hsq : (INR k + 1 + 1)^2 <= 4 * (t_of accel k * t_of accel k)) by nra.
  assert (Hlk : Rmin tau0 (beta / L) <= taus' k). { unfold taus'. destruct (Nat.ltb_spec k (S k)); [|lia]. apply Hlo; lia. }
  apply le_div; [apply Rmult_lt_0_compat; [lra|]; apply pow_lt; lra|].
  assert (v * (Rmin tau0 (beta / L) * (INR k + 1 + 1)^2) <= v * (taus' k * (4 * (t_of accel k * t_of accel k)))).
  { apply Rmult_le_compat_l; auto. apply Rmult_le_compat; try lra. apply pow_le; lra. }
  lra.
Qed.
