(** * Convergence of the solvers under Slater's condition *)
From Coq Require Import String Psatz.
From Verif Require Import Base Space Spec Cplx ConvexFacts Smooth VSum M_ProxOp SpecOps P_ProxOp M_Norms P_Norms M_Loop LoopFacts LoopFacts2 SeqFacts M_PG M_Split M_PD M_Multi SplitMath P_PG P_PG2 P_PG3 P_Split P_Split2 P_Split3 P_PD P_PD2 P_Multi P_Multi2 P_Multi3 S_Seq Compact Fejer IterMath IterMath2 IterMath3 P_Iter P_Iter2 P_Iter3 HahnBanach.
From Verif Require Export S_Qual.
Open Scope result_scope.
Open Scope R_scope.

(*! C81_arrays : the arrays the library works on have the property used below (Hahn-Banach): the real numbers, real arrays and
   complex arrays of n entries, products and stacked arrays *)
Lemma C81_arrays_l : hb R_IPS /\ (forall n, hb (Vec n)) /\ (forall n, hb (CArr n)) /\ (forall E F, hb E -> hb F -> hb (Prod_IPS E F)) /\ (forall E m, hb E -> hb (Pow E m)).
Proof.
  split; [exact hb_R|]. split; [intro n; apply hb_pow, hb_R|]. split; [intro n; apply hb_pow, hb_prod; apply hb_R|]. split; [exact hb_prod|intros E m; apply hb_pow].
Qed.

Lemma convex_pre {E F : IPS} (g : efun F) (A : linop E F) : convex g -> convex (epre g (lapp A)).
Proof.
  intros H x y t Hx Hy Ht. cbn [edom eval epre] in *. rewrite lapp_add, !lapp_scal. exact (H _ _ t Hx Hy Ht).
Qed.
Lemma mult_iff {E F : IPS} (f : efun E) (g : efun F) (A : linop E F) x : hb F -> convex f -> convex g -> qualified f g A ->
  (is_min (eadd f (epre g (lapp A))) x <-> exists v, kktA f g A x v).
Proof.
  intros HF Cf Cg Hq. split.
  - intro Hm. exact (multiplier f g A x HF Cf Cg Hq Hm).
  - intros [v Hv]. exact (kktA_min A f g x v Hv).
Qed.
Lemma qual_id {E : IPS} (f g : efun E) y : edom f y -> interior (edom g) y -> qualified f g (id_linop E).
Proof. intros H1 H2. exists y. split; [exact H1|exact H2]. Qed.
Lemma mult_one {E : IPS} (f g : efun E) x y : hb E -> convex f -> convex g -> edom f y -> interior (edom g) y -> is_min (eadd f g) x -> exists v, is_subgrad f x (vopp v) /\ is_subgrad g x v.
Proof. intros HE Cf Cg H1 H2 Hm. exact (multiplier f g (id_linop E) x HE Cf Cg (qual_id f g y H1 H2) Hm). Qed.
Lemma vopp_vopp {E : IPS} (v : E) : vopp (vopp v) = v.
Proof. unfold vopp. vring. Qed.
Lemma mult_two {E : IPS} (f g : efun E) x : hb E -> convex f -> convex g -> qualified2 f g -> (is_min (eadd f g) x <-> exists u, kkt f g x u).
Proof.
  intros HE Cf Cg Hq. split; [|intros [u Hu]; exact (kkt_min f g x u Hu)]. intro Hm. destruct Hq as [y [[H1 H2]|[H1 H2]]].
  - destruct (mult_one f g x y HE Cf Cg H1 H2 Hm) as (v & A1 & A2). exists (vopp v). split; [exact A1|]. rewrite vopp_vopp. exact A2.
  - assert (Hm' : is_min (eadd g f) x). { destruct Hm as [[D1 D2] M]. split; [split; assumption|]. intros z [Z1 Z2]. specialize (M z (conj Z2 Z1)). cbn [eval eadd] in *. lra. }
    destruct (mult_one g f x y HE Cg Cf H1 H2 Hm') as (v & A1 & A2). exists v. split; [exact A2|exact A1].
Qed.

Lemma interior_in {E : IPS} (D : E -> Prop) z : interior D z -> D z.
Proof. intros (d & Hd & H). replace z with (z [+] vzero) by vring. apply H. rewrite norm_zero. lra. Qed.
Lemma convex_esum {E : IPS} m (f : nat -> efun E) : (forall i, (i < m)%nat -> convex (f i)) -> convex (esum m f).
Proof.
  intros H x y t Hx Hy Ht. split.
  - intros i Hi. apply (H i Hi x y t (Hx i Hi) (Hy i Hi) Ht).
  - cbn [eval esum]. rewrite <- !RS_scal, <- RS_add. apply RS_le. intros i Hi. apply (H i Hi x y t (Hx i Hi) (Hy i Hi) Ht).
Qed.
Lemma mult_sum {E : IPS} m (f : nat -> efun E) y : hb E -> (forall i, (i < m)%nat -> convex (f i) /\ interior (edom (f i)) y) ->
  forall h x, convex h -> edom h y -> is_min (eadd h (esum m f)) x ->
  exists v, (forall i, (i < m)%nat -> is_subgrad (f i) x (v i)) /\ is_subgrad h x (vopp (VS m v)).
Proof.
  intro HE. induction m as [|m IH]; intros Hf h x Ch Hy [[D1 D2] M].
  - exists (fun _ => vzero). split; [intros; lia|]. cbn [VS]. replace (vopp (vzero : E)) with (vzero : E) by (unfold vopp; vring). apply subgrad_zero_min.
    split; [exact D1|]. intros z Hz. assert (Z : edom (esum 0 f) z) by (intros i Hi; inversion Hi). specialize (M z (conj Hz Z)). cbn [eval eadd esum RS] in M. lra.
  - assert (Hf' : forall i, (i < m)%nat -> convex (f i) /\ interior (edom (f i)) y) by (intros i Hi; apply Hf; lia).
    set (g := eadd h (esum m f)).
    assert (Cg : convex g) by (apply convex_add; [exact Ch|apply convex_esum; intros i Hi; apply Hf'; exact Hi]).
    destruct (mult_one g (f m) x y HE Cg (proj1 (Hf m ltac:(lia)))) as (v & A1 & A2).
    { split; [exact Hy|]. intros i Hi. apply interior_in, Hf'. exact Hi. }
    { apply Hf. lia. }
    { split; [split; [split; [exact D1|intros i Hi; apply D2; lia]|apply D2; lia]|]. intros z [[Z1 Z2] Z3].
      assert (Z4 : edom (esum (S m) f) z) by (intros i Hi; destruct (Nat.eq_dec i m) as [->|]; [exact Z3|apply Z2; lia]).
      specialize (M z (conj Z1 Z4)). cbn [eval eadd esum RS g] in *. unfold g. cbn [eval eadd esum]. lra. }
    assert (Hmin : is_min (eadd (elin h v) (esum m f)) x).
    { destruct A1 as [[B1 B2] A1]. split; [split; [exact B1|exact B2]|]. intros z [Z1 Z2]. specialize (A1 z (conj Z1 Z2)). rewrite inner_opp_l, inner_sub_r in A1.
      unfold g in A1. cbn [eval eadd esum elin] in *. lra. }
    destruct (IH Hf' (elin h v) x (convex_lin h v Ch) Hy Hmin) as (w & W1 & W2).
    exists (fun i => if Nat.eqb i m then v else w i). split.
    + intros i Hi. destruct (Nat.eqb_spec i m) as [->|Hn]; [exact A2|apply W1; lia].
    + cbn [VS]. rewrite Nat.eqb_refl. rewrite (VS_ext m _ w). 2:{ intros i Hi. destruct (Nat.eqb_spec i m); [lia|reflexivity]. }
      apply (subgrad_lin h v x). replace (vopp (VS m w [+] v) [+] v) with (vopp (VS m w)) by (unfold vopp; vring). exact W2.
Qed.
Lemma RS_split_at m j (a : nat -> R) : RS m a = (if Nat.ltb j m then a j else 0) + RS m (fun i => if Nat.eqb i j then 0 else a i).
Proof.
  induction m as [|m IH]; cbn [RS]; [destruct j; simpl; ring|]. rewrite IH. destruct (Nat.eqb_spec m j) as [->|Hn].
  - rewrite Nat.ltb_irrefl. destruct (Nat.ltb_spec j (S j)); [ring|lia].
  - destruct (Nat.ltb_spec j m), (Nat.ltb_spec j (S m)); try lia; ring.
Qed.
Lemma VS_split_at {E : IPS} m j (a : nat -> E) : VS m a = (if Nat.ltb j m then a j else vzero) [+] VS m (fun i => if Nat.eqb i j then vzero else a i).
Proof.
  induction m as [|m IH]; cbn [VS]; [destruct j; simpl; vring|]. rewrite IH. destruct (Nat.eqb_spec m j) as [->|Hn].
  - rewrite Nat.ltb_irrefl. destruct (Nat.ltb_spec j (S j)); [vring|lia].
  - destruct (Nat.ltb_spec j m), (Nat.ltb_spec j (S m)); try lia; vring.
Qed.
Lemma zero_convex {E : IPS} : convex (etot (fun _ : E => 0)).
Proof. intros x y t _ _ _. split; [exact I|]. cbn [eval etot]. lra. Qed.
Lemma zero_subgrad {E : IPS} (x v : E) : is_subgrad (etot (fun _ => 0)) x v -> v = vzero.
Proof. intros [_ H]. specialize (H (x [+] v) I). cbn [eval etot] in H. replace (x [+] v [-] x) with v in H by vring. apply norm2_eq0. pose proof (norm2_nonneg v). unfold norm2 in *. lra. Qed.
Lemma mult_sum_lin {E : IPS} m (f : nat -> efun E) w x : hb E -> (forall i, (i < m)%nat -> convex (f i)) -> qualified_sum m f -> is_min (elin (esum m f) w) x ->
  exists v, (forall i, (i < m)%nat -> is_subgrad (f i) x (v i)) /\ w [+] VS m v = vzero.
Proof.
  intros HE Cf (y & j & Hq) [Dx M].
  set (h0 := if Nat.ltb j m then f j else etot (fun _ => 0)). set (f' := fun i => if Nat.eqb i j then etot (fun _ : E => 0) else f i).
  assert (Ev : forall z, RS m (fun i => eval (f i) z) = eval h0 z + RS m (fun i => eval (f' i) z)).
  { intro z. rewrite (RS_split_at m j). f_equal; [unfold h0; destruct (Nat.ltb j m); reflexivity|]. apply RS_ext. intros i Hi. unfold f'. destruct (Nat.eqb i j); reflexivity. }
  assert (Dm : forall z, edom (esum m f) z <-> edom h0 z /\ edom (esum m f') z).
  { intro z. split.
    - intro H. split.
      + unfold h0. destruct (Nat.ltb_spec j m) as [Hj|Hj]; [apply H; exact Hj|exact I].
      + intros i Hi. unfold f'. destruct (Nat.eqb_spec i j); [exact I|apply H; exact Hi].
    - intros [H1 H2] i Hi. specialize (H2 i Hi). unfold f' in H2. destruct (Nat.eqb_spec i j) as [Hij|]; [|exact H2]. rewrite Hij in *. unfold h0 in H1. destruct (Nat.ltb_spec j m); [exact H1|lia]. }
  assert (Ch : convex h0). { unfold h0. destruct (Nat.ltb_spec j m); [apply Cf; assumption|exact zero_convex]. }
  destruct (mult_sum m f' y HE) with (h := elin h0 w) (x := x) as (v & V1 & V2).
  - intros i Hi. unfold f'. destruct (Nat.eqb_spec i j) as [->|Hn].
    + split; [exact zero_convex|]. exists 1. split; [lra|]. intros; exact I.
    + split; [apply Cf; exact Hi|]. apply Hq; assumption.
  - apply convex_lin, Ch.
  - cbn [edom elin]. unfold h0. destruct (Nat.ltb_spec j m); [apply Hq; assumption|exact I].
  - split; [apply (proj1 (Dm x)); exact Dx|]. intros z Hz. apply (proj2 (Dm z)) in Hz. specialize (M z Hz). cbn [eval eadd elin esum] in *. rewrite !Ev in M. lra.
  - assert (Vj : (j < m)%nat -> v j = vzero). { intro Hj. specialize (V1 j Hj). unfold f' in V1. rewrite Nat.eqb_refl in V1. exact (zero_subgrad _ _ V1). }
    assert (Sub : is_subgrad h0 x (vopp (VS m v) [-] w)). { apply (subgrad_lin h0 w x). replace (vopp (VS m v) [-] w [+] w) with (vopp (VS m v)) by vring. exact V2. }
    exists (fun i => if Nat.eqb i j then vopp (VS m v) [-] w else v i). split.
    + intros i Hi. destruct (Nat.eqb_spec i j) as [->|Hn].
      * unfold h0 in Sub. destruct (Nat.ltb_spec j m); [exact Sub|lia].
      * specialize (V1 i Hi). unfold f' in V1. destruct (Nat.eqb_spec i j); [contradiction|exact V1].
    + rewrite (VS_split_at m j). rewrite Nat.eqb_refl.
      assert (EV : VS m v = VS m (fun i => if Nat.eqb i j then vzero else v i)).
      { rewrite (VS_split_at m j v). destruct (Nat.ltb_spec j m) as [Hj|Hj]; [rewrite (Vj Hj)|]; vring. }
      assert (EW : VS m (fun i => if Nat.eqb i j then vzero else if Nat.eqb i j then vopp (VS m v) [-] w else v i) = VS m v).
      { refine (eq_trans _ (eq_sym EV)). apply VS_ext. intros i Hi. destruct (Nat.eqb i j); reflexivity. }
      rewrite EW. unfold h0 in Sub. destruct (Nat.ltb_spec j m) as [Hj|Hj]; [unfold vopp; vring|].
      apply zero_subgrad in Sub. replace (w [+] (vzero [+] VS m v)) with (vopp (vopp (VS m v) [-] w)) by (unfold vopp; vring). rewrite Sub. unfold vopp. vring.
Qed.

(*! C81_multiplier : Slater's condition makes the optimality conditions exact.  f, g convex, A linear, a point of the domain of f
   mapped into the interior of the domain of g (for f + g: either role): x minimises f + g(A .) exactly when it has a
   multiplier; likewise for sums of m convex functions with a common point interior to all domains except one.  A function
   that is finite everywhere always qualifies *)
Lemma C81_multiplier_l :
  (forall (E F : IPS) (f : efun E) (g : efun F) (A : linop E F) x, hb F -> convex f -> convex g -> qualified f g A ->
     (is_min (eadd f (epre g (lapp A))) x <-> exists v, is_subgrad f x (vopp (ladj A v)) /\ is_subgrad g (lapp A x) v)) /\
  (forall (E : IPS) (f g : efun E) x, hb E -> convex f -> convex g -> qualified2 f g ->
     (is_min (eadd f g) x <-> exists u, is_subgrad f x u /\ is_subgrad g x (vopp u))) /\
  (forall (E : IPS) m (f : nat -> efun E) x, hb E -> (forall i, (i < m)%nat -> convex (f i)) -> qualified_sum m f ->
     (is_min (esum m f) x <-> exists v, (forall i, (i < m)%nat -> is_subgrad (f i) x (v i)) /\ VS m v = vzero)) /\
  (forall (E F : IPS) (f : efun E) (g : efun F) (A : linop E F), (forall z, edom g z) -> (exists x, edom f x) -> qualified f g A).
Proof.
  split; [|split; [|split]].
  - intros E F f g A x HF Cf Cg Hq. exact (mult_iff f g A x HF Cf Cg Hq).
  - intros E f g x HE Cf Cg Hq. exact (mult_two f g x HE Cf Cg Hq).
  - intros E m f x HE Cf Hq. split; [|intros [v Hv]; exact (sum_kkt_min m f x v Hv)]. intro Hm. destruct (mult_sum_lin m f vzero x HE Cf Hq) as (v & V1 & V2).
    + destruct Hm as [Dx M]. split; [exact Dx|]. intros y Hy. specialize (M y Hy). cbn [eval elin]. rewrite !inner_zero_l. lra.
    + exists v. split; [exact V1|]. rewrite <- V2. vring.
  - intros E F f g A Hg [x Hx]. exists x. split; [exact Hx|]. exists 1. split; [lra|]. intros; apply Hg.
Qed.

(*! C81_douglas_rachford : f, g convex, Slater's condition, a minimiser of f + g exists, tau > 0, 0 < eta < 2, any start, either order,
   finite dimension: the x returned by DouglasRachfordSplitting with niter = 1, 2, ... converges to a minimiser of f + g *)
Lemma C81_douglas_rachford_l : forall (E : IPS) (proxf proxg : Op E) f g x0 tau eta (gfirst : bool), bw E -> hb E ->
  impl_prox proxf f -> impl_prox proxg g -> convex f -> convex g -> 0 < tau -> 0 < eta < 2 -> qualified2 f g -> (exists m, is_min (eadd f g) m) ->
  exists xs ys l u, (forall n, exists tr, DouglasRachford proxf proxg x0 tau eta (S n) gfirst = Ok (xs n, ys n, tr)) /\
    kkt f g l u /\ is_min (eadd f g) l /\ vcv xs l /\ vcv ys (if gfirst then l [-] tau [*] u else l [+] tau [*] u).
Proof.
  intros E proxf proxg f g x0 tau eta gfirst HB HE If Ig Cf Cg Ht He Hq [m Hm]. apply C75_douglas_rachford_l; auto. exists m. apply mult_two; auto.
Qed.

(*! C81_admm : f, g convex, Slater's condition, a minimiser of f + g exists, tau > 0, any start, either order, finite dimension: the two
   vectors returned by ADMM with niter = 0, 1, 2, ... both converge to one and the same minimiser of f + g *)
Lemma C81_admm_l : forall (E : IPS) (proxf proxg : Op E) f g x0 z0 x z tau (gfirst : bool), bw E -> hb E ->
  impl_prox proxf f -> impl_prox proxg g -> convex f -> convex g -> 0 < tau -> x0z0_init x0 z0 = Ok (x, z) -> qualified2 f g -> (exists m, is_min (eadd f g) m) ->
  exists xs zs l, (forall n, exists tr, ADMM proxf proxg x0 tau n z0 gfirst = Ok (xs n, zs n, tr)) /\ is_min (eadd f g) l /\ vcv xs l /\ vcv zs l.
Proof.
  intros E proxf proxg f g x0 z0 x z tau gfirst HB HE If Ig Cf Cg Ht Hi Hq [m Hm]. apply (C75_admm_l E proxf proxg f g x0 z0 x z tau gfirst); auto. exists m. apply mult_two; auto.
Qed.

(*! C81_primal_dual : f, g convex, gs the conjugate of g, Slater's condition for f + g(A .), a minimiser of f + <z,.> + g(A .) exists,
   theta = 1, constant steps with tau mu |A a|^2 <= kappa |a|^2 for some kappa <= 1, any start, either order, finite dimension: the
   x returned by PrimalDual with niter = 0, 1, 2, ... converges to a minimiser of f + <z,.> + g(A .) *)
Lemma C81_primal_dual_l : forall (E F : IPS) (A : linop E F) proxf proxg f g gs alias x0 tau mu kappa y0 z gfirst, bw E -> bw F -> hb F ->
  impl_prox proxf f -> impl_proxdual proxg gs -> convex f -> convex g -> is_conj g gs -> (forall u, exists p, is_prox g 1 u p) ->
  0 < tau -> 0 < mu -> 0 <= kappa <= 1 -> (forall a, tau * mu * norm2 (lapp A a) <= kappa * norm2 a) -> alias = None \/ z = None ->
  qualified f g A -> (exists m, is_min (eadd (elin f (zvec z)) (epre g (lapp A))) m) ->
  exists xs ys xl yl, (forall n, exists tr, PrimalDual proxf proxg A alias x0 (Scalar tau) (Scalar mu) y0 z 1 n gfirst = Ok (xs n, ys n, tr)) /\
    is_min (eadd (elin f (zvec z)) (epre g (lapp A))) xl /\ vcv xs xl /\ vcv ys yl.
Proof.
  intros E F A proxf proxg f g gs alias x0 tau mu kappa y0 z gfirst BE BF HF If Ig Cf Cg Hc Hp Ht Hmu Hk HA Hz Hq [m Hm].
  destruct (multiplier (elin f (zvec z)) g A m HF (convex_lin f _ Cf) Cg Hq Hm) as (v & V1 & V2).
  destruct (C75_primal_dual_l E F A proxf proxg f g gs alias x0 tau mu kappa y0 z gfirst) as (xs & ys & xl & yl & H1 & _ & H2 & H3 & H4); auto.
  - exists m, v. split.
    + apply (subgrad_lin f (zvec z) m). replace (vopp (ladj A v [+] zvec z) [+] zvec z) with (vopp (ladj A v)) by (unfold vopp; vring). exact V1.
    + exact (proj1 (subgrad_conj g gs _ _ Hc V2)).
  - exists xs, ys, xl, yl. auto.
Qed.

(*! C81_linearized_admm : f, g convex, Slater's condition, a minimiser of f + g(A .) exists, tau, mu > 0 with mu |A a|^2 <= kappa tau |a|^2 for
   some kappa <= 1, either guess, finite dimension: the x returned by LinearizedADMM with niter = 0, 1, 2, ... converges to a
   minimiser xl of f + g(A .) and the returned z to A xl *)
Lemma C81_linearized_admm_l : forall (E F : IPS) (proxf : Op E) (proxg : Op F) f g (A : linop E F) tau mu kappa x0 z0 x z, bw E -> bw F -> hb F ->
  impl_prox proxf f -> impl_prox proxg g -> convex f -> convex g -> 0 < tau -> 0 < mu -> 0 <= kappa <= 1 ->
  (forall a, mu * norm2 (lapp A a) <= kappa * tau * norm2 a) -> x0z0_initA (lapp A) x0 z0 = Ok (x, z) -> qualified f g A -> (exists m, is_min (eadd f (epre g (lapp A))) m) ->
  exists xs zs xl, (forall n, exists tr, LinearizedADMM proxf proxg A x0 tau mu n z0 = Ok (xs n, zs n, tr)) /\
    is_min (eadd f (epre g (lapp A))) xl /\ vcv xs xl /\ vcv zs (lapp A xl).
Proof.
  intros E F proxf proxg f g A tau mu kappa x0 z0 x z BE BF HF If Ig Cf Cg Ht Hmu Hk HA Hi Hq [m Hm].
  apply (C75_linearized_admm_l E F proxf proxg f g A tau mu kappa x0 z0 x z); auto. exists m. apply (mult_iff f g A m); auto.
Qed.

(*! C81_admml2 : g convex with a point A x interior to its domain, tau > 0, exact inner solves, gfirst=False, either guess, unique
   least-squares solutions (c |a|^2 <= |B a|^2 + |A a|^2 for some c > 0), a minimiser of 1/2|B x - b|^2 + g(A x) exists, finite
   dimension: the x returned by ADMML2 with niter = 0, 1, 2, ... converges to a minimiser xl and the returned z to A xl *)
Lemma C81_admml2_l : forall (E F G : IPS) (B : linop E G) b (A : linop E F) proxg reginv g tau c x0 z0 x z, bw F -> hb F ->
  impl_prox proxg g -> convex g -> exact_reginv B b A reginv -> 0 < tau -> 0 < c -> (forall a, c * norm2 a <= norm2 (lapp B a) + norm2 (lapp A a)) ->
  x0z0_initA (lapp A) x0 z0 = Ok (x, z) -> (exists y, interior (edom g) (lapp A y)) ->
  (exists m, is_min (eadd (etot (fun y => 1 / 2 * norm2 (lapp B y [-] b))) (epre g (lapp A))) m) ->
  exists xs zs xl, (forall n, exists tr, ADMML2 proxg A reginv x0 tau n z0 false = Ok (xs n, zs n, tr)) /\
    is_min (eadd (etot (fun y => 1 / 2 * norm2 (lapp B y [-] b))) (epre g (lapp A))) xl /\ vcv xs xl /\ vcv zs (lapp A xl).
Proof.
  intros E F G B b A proxg reginv g tau c x0 z0 x z BF HF Ig Cg Hr Ht Hc HBA Hi [y Hy] [m Hm].
  apply (C75_admml2_l E F G B b A proxg reginv g tau c x0 z0 x z); auto. exists m. apply (mult_iff _ g A m); auto.
  - intros u v t _ _ Htt. split; [exact I|]. cbn [eval etot]. 
    assert (Eq : lapp B ((1 - t) [*] u [+] t [*] v) [-] b = (1 - t) [*] (lapp B u [-] b) [+] t [*] (lapp B v [-] b)) by (rewrite lapp_add, !lapp_scal; vring).
    rewrite Eq. set (p := lapp B u [-] b). set (q := lapp B v [-] b).
    assert (E2 : norm2 ((1 - t) [*] p [+] t [*] q) = (1 - t) * norm2 p + t * norm2 q - t * (1 - t) * norm2 (p [-] q)) by (unfold norm2; iexp; ring).
    rewrite E2. assert (0 <= t * (1 - t) * norm2 (p [-] q)) by (apply Rmult_le_pos; [apply Rmult_le_pos; lra|apply norm2_nonneg]). lra.
  - exists y. split; [exact I|exact Hy].
Qed.

(*! C81_ppxa : m >= 1 convex functions with a common point interior to all domains except one, a minimiser of the sum exists, tau > 0,
   0 < eta < 2, admissible weights, any start, finite dimension: there is one sequence x_0, x_1, ... converging to a minimiser of
   the sum such that, for every niter and every tol, PPXA returns x_k, where k is the first iteration whose change is below
   tol (niter if there is none) *)
Lemma C81_ppxa_l : forall (E : IPS) (os : list (Op E)) (f : nat -> efun E) x0 tau eta weights, bw E -> hb E ->
  let m := List.length os in
  impl_all os f -> (forall i, (i < m)%nat -> convex (f i)) -> (0 < m)%nat -> 0 < tau -> 0 < eta < 2 ->
  good_weights weights m -> ppxa_start_ok x0 weights m -> qualified_sum m f -> (exists xo, is_min (esum m f) xo) ->
  exists xs xl, (forall niter amax t, exists k, PPXA os x0 tau eta weights niter amax (Some t) = Ok (xs k, map xs (seq 1 k)) /\
       stops_when (fun j => amax (xs j [-] xs (j - 1)%nat) < t) niter k) /\
    is_min (esum m f) xl /\ vcv xs xl.
Proof.
  intros E os f x0 tau eta weights BE HE m Io Cf Hm Ht He Hw Hs Hq [xo Hxo]. apply C75_ppxa_l; auto.
  destruct (proj1 (proj1 (proj2 (proj2 C81_multiplier_l)) E m f xo HE Cf Hq) Hxo) as [v Hv]. exists xo, v. exact Hv.
Qed.

(*! C81_consensus_admm : the same for ConsensusADMM *)
Lemma C81_consensus_admm_l : forall (E : IPS) (os : list (Op E)) (f : nat -> efun E) x0 tau, bw E -> hb E -> let m := List.length os in
  impl_all os f -> (forall i, (i < m)%nat -> convex (f i)) -> (0 < m)%nat -> 0 < tau -> qualified_sum m f -> (exists xo, is_min (esum m f) xo) ->
  exists xs xl, (forall niter amax t, exists k, ConsensusADMM os x0 tau niter amax (Some t) = Ok (xs k, map xs (seq 1 k)) /\
       stops_when (fun j => amax (xs j [-] xs (j - 1)%nat) < t) niter k) /\
    is_min (esum m f) xl /\ vcv xs xl.
Proof.
  intros E os f x0 tau BE HE m Io Cf Hm Ht Hq [xo Hxo]. apply C75_consensus_admm_l; auto.
  destruct (proj1 (proj1 (proj2 (proj2 C81_multiplier_l)) E m f xo HE Cf Hq) Hxo) as [v Hv]. exists xo, v. exact Hv.
Qed.

(*! C81_gpg : smooth convex f_i (total Lipschitz constant at most L), m >= 1 convex g_j with a common point interior to all domains
   except one, positive eps_j, admissible weights, no acceleration, 0 < eta < 2 - tau L/2, a minimiser exists, finite dimension:
   the vectors returned by GeneralizedProximalGradient with niter = 0, 1, 2, ... converge to a minimiser of sum f_i + sum eps_j g_j *)
Lemma C81_gpg_l : forall (E : IPS) (fs gs : list (Op E)) f df L Lt (g : nat -> efun E) x0 tau epsg weights eta accel, bw E -> hb E ->
  let m := List.length gs in let nf := List.length fs in
  let eps := nthr (gpg_eps epsg m) in let t := match tau with None => 1 | Some t => t end in
  let F := fun x => RS nf (fun i => f i x) in
  smooth_all fs f df L -> RS nf L <= Lt -> 0 < Lt -> impl_all gs g -> (forall i, (i < m)%nat -> convex (g i)) -> (0 < m)%nat -> 0 < t -> 0 < eta < 2 - t * Lt / 2 ->
  good_weights weights m -> List.length (gpg_eps epsg m) = m -> (forall i, (i < m)%nat -> 0 < eps i) -> accel = None \/ accel = Some "None"%string ->
  qualified_sum m g -> (exists xo, is_min (eadd (etot F) (esum m (fun i => escal (eps i) (g i)))) xo) ->
  exists xs xl, (forall niter, GeneralizedProximalGradient fs gs x0 tau epsg weights eta niter accel = Ok (xs niter, map xs (seq 1 niter))) /\
    is_min (eadd (etot F) (esum m (fun i => escal (eps i) (g i)))) xl /\ vcv xs xl.
Proof.
  intros E fs gs f df L Lt g x0 tau epsg weights eta accel HB HE m nf eps t F Hf HLt HLp Hg Hc Hm Ht Het Hgw Le He Ha Hq [xo Hxo].
  apply (C75_gpg_l E fs gs f df L Lt g x0 tau epsg weights eta accel HB); auto. exists xo.
  assert (Hsm : smooth_convex F (fun x => VS nf (fun i => df i x)) Lt).
  { apply (smooth_convex_weaken _ _ (RS nf L)); auto. apply smooth_convex_sum. intros i Hi. destruct (nth_error fs i) as [o|] eqn:Eo.
    - destruct (Hf i o Eo) as [_ [_ [H1 [_ H2]]]]. apply L_smooth_convex; auto.
    - apply nth_error_None in Eo. unfold nf in Hi. lia. }
  assert (Cs : forall i, (i < m)%nat -> convex (escal (eps i) (g i))) by (intros i Hi; apply convex_scal; [left; apply He, Hi|apply Hc, Hi]).
  pose proof (min_sum_subgrad_inv F _ Lt _ xo (Rlt_le _ _ HLp) Hsm (convex_esum m _ Cs) Hxo) as Sub. cbv beta in Sub. set (d := VS nf (fun i => df i xo)) in *.
  destruct (mult_sum_lin m (fun i => escal (eps i) (g i)) d xo HE Cs) as (v & V1 & V2).
  - destruct Hq as (y & j & Hy). exists y, j. exact Hy.
  - destruct Sub as [Dx S]. split; [exact Dx|]. intros y Hy. specialize (S y Hy). rewrite inner_opp_l, inner_sub_r in S. cbn [eval elin]. lra.
  - exists (fun i => / eps i [*] v i). split.
    + intros i Hi. apply (proj1 (eq_scal_subgrad (g i) (eps i) xo (v i) (He i Hi))). apply V1. exact Hi.
    + fold d. rewrite (VS_ext m _ v); [exact V2|]. intros i Hi. change (eps i [*] (/ eps i [*] v i) = v i). pose proof (He i Hi) as Hei. revert Hei. generalize (eps i) (v i). intros r w Hr. vfield. lra.
Qed.

(*! C81_no_slater_refuted : without Slater's condition a minimiser need not have a multiplier.  In the plane, f = the indicator of the ball
   of radius 1 around (1,0) (EuclideanBall) plus <(0,1),.> (the library's + v) and g = the indicator of the half-plane x1 <= 0
   (HalfSpace): both convex, the origin is the only minimiser of f + g, no multiplier exists, and Slater's condition fails *)
Lemma C81_no_slater_refuted_l : exists f g : efun (Prod_IPS R_IPS R_IPS),
  f = elin (indic (fun x : Prod_IPS R_IPS R_IPS => norm2 (x [-] ((1, 0) : Prod_IPS R_IPS R_IPS)) <= 1)) ((0, 1) : Prod_IPS R_IPS R_IPS) /\
  g = indic (fun x : Prod_IPS R_IPS R_IPS => << ((1, 0) : Prod_IPS R_IPS R_IPS), x >> <= 0) /\
  convex f /\ convex g /\ (forall x, is_min (eadd f g) x <-> x = vzero) /\ (forall x u, ~ kkt f g x u) /\ ~ qualified2 f g.
Proof.
  set (f := elin (indic (fun x : Prod_IPS R_IPS R_IPS => norm2 (x [-] ((1, 0) : Prod_IPS R_IPS R_IPS)) <= 1)) ((0, 1) : Prod_IPS R_IPS R_IPS)).
  set (g := indic (fun x : Prod_IPS R_IPS R_IPS => << ((1, 0) : Prod_IPS R_IPS R_IPS), x >> <= 0)).
  assert (Df : forall a b : R, edom f ((a, b) : Prod_IPS R_IPS R_IPS) <-> (a - 1) * (a - 1) + b * b <= 1).
  { intros a b. cbn [edom f elin indic]. assert (Eq : norm2 (((a, b) : Prod_IPS R_IPS R_IPS) [-] ((1, 0) : Prod_IPS R_IPS R_IPS)) = (a - 1) * (a - 1) + b * b) by (unfold norm2, vsub; cbn; ring).
    unfold f. cbn [edom elin indic]. rewrite Eq. reflexivity. }
  assert (Dg : forall a b : R, edom g ((a, b) : Prod_IPS R_IPS R_IPS) <-> a <= 0).
  { intros a b. assert (Eq : << ((1, 0) : Prod_IPS R_IPS R_IPS), ((a, b) : Prod_IPS R_IPS R_IPS) >> = a) by (cbn; ring). unfold g. cbn [edom indic]. rewrite Eq. reflexivity. }
  assert (Ef : forall a b : R, eval f ((a, b) : Prod_IPS R_IPS R_IPS) = b).
  { intros a b. unfold f. cbn. ring. }
  assert (Cf : convex f).
  { apply convex_lin. intros x y t Hx Hy Ht. cbn [edom eval indic] in *. split; [|lra]. set (c := ((1, 0) : Prod_IPS R_IPS R_IPS)) in *.
    replace ((1 - t) [*] x [+] t [*] y [-] c) with ((1 - t) [*] (x [-] c) [+] t [*] (y [-] c)) by vring. set (p := x [-] c) in *. set (q := y [-] c) in *.
    assert (E2 : norm2 ((1 - t) [*] p [+] t [*] q) = (1 - t) * norm2 p + t * norm2 q - t * (1 - t) * norm2 (p [-] q)) by (unfold norm2; iexp; ring).
    rewrite E2. assert (0 <= t * (1 - t) * norm2 (p [-] q)) by (apply Rmult_le_pos; [apply Rmult_le_pos; lra|apply norm2_nonneg]).
    assert ((1 - t) * norm2 p <= (1 - t) * 1) by (apply Rmult_le_compat_l; lra). assert (t * norm2 q <= t * 1) by (apply Rmult_le_compat_l; lra). lra. }
  assert (Cg : convex g).
  { intros x y t Hx Hy Ht. unfold g in *. cbn [edom eval indic] in *. split; [|lra]. rewrite inner_add_r, !inner_scal_r.
    set (p := << _, x >>) in *. set (q := << _, y >>) in *. assert (0 <= (1 - t) * - p) by (apply Rmult_le_pos; lra). assert (0 <= t * - q) by (apply Rmult_le_pos; lra). lra. }
  assert (Only : forall x, edom f x -> edom g x -> x = vzero).
  { intros [a b] H1 H2. apply Df in H1. apply Dg in H2. assert (0 <= b * b) by apply Rle_0_sqr. assert (0 <= a * a) by apply Rle_0_sqr.
    assert (a * a = 0) by lra. assert (b * b = 0) by lra. assert (Ea : a = 0) by (apply Rsqr_0_uniq; assumption). assert (Eb : b = 0) by (apply Rsqr_0_uniq; assumption). rewrite Ea, Eb. reflexivity. }
  assert (Z : edom f vzero /\ edom g vzero). { split; [apply (proj2 (Df 0 0)); lra|apply (proj2 (Dg 0 0)); lra]. }
  assert (Min : is_min (eadd f g) vzero). { split; [exact Z|]. intros y [H1 H2]. rewrite (Only y H1 H2). lra. }
  assert (NK : forall x u, ~ kkt f g x u).
  { intros x [u1 u2] [[X1 H1] [X2 H2]]. pose proof (Only x X1 X2) as ->.
    assert (I2 : forall a b : R, << vopp ((u1, u2) : Prod_IPS R_IPS R_IPS), ((a, b) : Prod_IPS R_IPS R_IPS) [-] vzero >> = - (u1 * a + u2 * b)) by (intros a b; unfold vopp, vsub; cbn; ring).
    assert (I1 : forall a b : R, << ((u1, u2) : Prod_IPS R_IPS R_IPS), ((a, b) : Prod_IPS R_IPS R_IPS) [-] vzero >> = u1 * a + u2 * b) by (intros a b; unfold vsub; cbn; ring).
    assert (G : forall a b : R, a <= 0 -> - (u1 * a + u2 * b) <= 0). { intros a b Ha. specialize (H2 (a, b) (proj2 (Dg a b) Ha)). rewrite I2 in H2. unfold g in H2. cbn [eval indic] in H2. lra. }
    pose proof (G 0 1 ltac:(lra)) as G1. pose proof (G 0 (-1) ltac:(lra)) as G2. pose proof (G (-1) 0 ltac:(lra)) as G3. 
    assert (U2 : u2 = 0) by lra. assert (U1 : u1 <= 0) by lra.
    set (t := / (1 - u1)). assert (Ht : 0 < t) by (apply Rinv_0_lt_compat; lra). assert (Ht1 : t * (1 - u1) = 1) by (unfold t; field; lra).
    assert (Ht2 : t <= 1). { assert (0 <= t * - u1) by (apply Rmult_le_pos; lra). lra. }
    assert (Hd : (t * t - 1) * (t * t - 1) + - t * - t <= 1). { assert (0 <= (t * t) * (1 - t)) by (apply Rmult_le_pos; [apply Rle_0_sqr|lra]). assert (0 <= (t * t) * (1 - t) * t) by (apply Rmult_le_pos; lra). nra. }
    specialize (H1 (t * t, - t) (proj2 (Df _ _) Hd)). rewrite I1 in H1. rewrite (Ef (t * t) (- t)) in H1. change (eval f (@vzero (Prod_IPS R_IPS R_IPS))) with (eval f ((0, 0) : Prod_IPS R_IPS R_IPS)) in H1. rewrite (Ef 0 0), U2 in H1.
    assert (u1 * (t * t) = t * (t - 1)). { replace (u1 * (t * t)) with (t * (t - t * (1 - u1))) by ring. rewrite Ht1. reflexivity. }
    assert (0 < t * t) by (apply Rmult_lt_0_compat; lra). lra. }
  exists f, g. split; [reflexivity|]. split; [reflexivity|]. split; [exact Cf|]. split; [exact Cg|]. split; [|split; [exact NK|]].
  - intro x. split; [intros [[H1 H2] _]; apply Only; assumption|intros ->; exact Min].
  - intro Hq. destruct (proj1 (mult_two f g vzero (hb_prod _ _ hb_R hb_R) Cf Cg Hq) Min) as [u Hu]. exact (NK _ _ Hu).
Qed.

(*!ex C81_example : on the real line, f = the indicator of {1} and g = |.|: convex, Slater's condition holds (g is finite), 1 is the
   minimiser; the same for f + g(2 .) and for the three functions f, |.|, the indicator of [0,2] *)
Lemma C81_example_l : let f := indic (fun x : R_IPS => x = 1) in let g := etot (E:=R_IPS) Rabs in let h := indic (fun x : R_IPS => 0 <= x <= 2) in
  bw R_IPS /\ hb R_IPS /\ convex f /\ convex g /\ convex h /\ qualified2 f g /\ is_min (eadd f g) 1 /\ (forall A : linop R_IPS R_IPS, qualified f g A) /\
  qualified_sum 3 (fun i => nth i [f; g; h] f) /\ is_min (esum 3 (fun i => nth i [f; g; h] f)) 1.
Proof.
  intros f g h. split; [exact bw_R|]. split; [exact hb_R|].
  assert (Cf : convex f). { intros x y t Hx Hy Ht. cbn [edom eval f indic] in *. split; [|unfold f; cbn [eval indic]; lra]. unfold f in Hx, Hy. cbn [edom indic] in Hx, Hy. rewrite Hx, Hy. unfold f. cbn. lra. }
  assert (Cg : convex g). { intros x y t Hx Hy Ht. split; [exact I|]. unfold g. cbn. eapply Rle_trans; [apply Rabs_triang|]. rewrite !Rabs_mult, (Rabs_pos_eq (1 - t)), (Rabs_pos_eq t) by lra. lra. }
  assert (Ch : convex h). { intros x y t Hx Hy Ht. unfold h in *. cbn [edom eval indic] in *. split; [|lra]. change (0 <= (1 - t) * x + t * y <= 2). change R in x, y. 
    assert (0 <= (1 - t) * x) by (apply Rmult_le_pos; lra). assert (0 <= t * y) by (apply Rmult_le_pos; lra).
    assert ((1 - t) * x <= (1 - t) * 2) by (apply Rmult_le_compat_l; lra). assert (t * y <= t * 2) by (apply Rmult_le_compat_l; lra). lra. }
  split; [exact Cf|]. split; [exact Cg|]. split; [exact Ch|]. split; [|split; [|split; [|split]]].
  - exists 1. left. split; [reflexivity|]. exists 1. split; [lra|]. intros; exact I.
  - split; [split; [reflexivity|exact I]|]. intros y [Hy _]. unfold f in Hy. cbn [edom indic] in Hy. rewrite Hy. lra.
  - intro A. exists 1. split; [reflexivity|]. exists 1. split; [lra|]. intros; exact I.
  - exists 1, 0%nat. intros i Hi. destruct i as [|[|[|i]]]; [| | |lia]; cbn [nth].
    + split; [reflexivity|]. intro H. contradiction.
    + split; [exact I|]. intros _. exists 1. split; [lra|]. intros; exact I.
    + split; [unfold h; cbn [edom indic]; lra|]. intros _. exists 1. split; [lra|]. intros v Hv. unfold h. cbn [edom indic]. change (0 <= 1 + v <= 2). change R in v.
      assert (N : norm (v : R_IPS) = Rabs v) by (unfold norm; change (sqrt (v * v) = Rabs v); apply sqrt_Rsqr_abs). rewrite N in Hv. pose proof (Rle_abs v); pose proof (Rle_abs (- v)) as Hm; rewrite Rabs_Ropp in Hm; lra.
  - split.
    + intros i Hi. destruct i as [|[|[|i]]]; [| | |lia]; cbn [nth]; [reflexivity|exact I|unfold h; cbn [edom indic]; lra].
    + intros y Hy. assert (Y : y = 1) by exact (Hy 0%nat ltac:(lia)). rewrite Y. lra.
Qed.
