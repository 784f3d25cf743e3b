(** * Matrix factorisation with PALM: never fails, descends, and its limit points are block-optimal *)
From Coq Require Import ZArith Psatz.
From Verif Require Import Base Space Spec ConvexFacts VSum MatFacts M_ProxOp SpecOps P_ProxOp M_L1 S_L1 P_L1 M_Norms P_Norms M_Loop LoopFacts SeqFacts S_Seq Fejer Compact IterMath M_Bilin S_Bilin P_Bilin S_Bilin2 P_Bilin2 M_PALM S_PALM P_PALM S_Exist S_Breg2 S_Sparse P_Sparse S_Noncvx NoncvxMath P_Noncvx P_TV2 P_Iter P_Denoise.
From Verif Require Export S_Nmf.
Open Scope result_scope.
Open Scope R_scope.

(** ** Runs of PALM with fixed steps *)
Section Run.
Context {E F : IPS} (H : Bilin E F) (h : E -> F -> R) (gx : E -> F -> E) (gy : E -> F -> F) (lx : E -> R) (ly : F -> R) (HH : bilin_spec H h gx gy lx ly).
Context (f : efun E) (g : efun F) (proxf : option (Op2 E F)) (proxg : option (Op F)) (Hf : opt_impl (option_map on_x proxf) f) (Hg : opt_impl proxg g) (gf gg : R) (Gf : 1 <= gf) (Gg : 1 <= gg).

Definition xstep x y x' := is_prox f (1 / (gf * ly y)) (x [-] (1 / (gf * ly y)) [*] gx x y) x'.
Definition ystep x' y y' := is_prox g (1 / (gg * lx x')) (y [-] (1 / (gg * lx x')) [*] gy x' y) y'.
Definition nstep x y x' y' := 0 < ly y /\ 0 < lx x' /\ xstep x y x' /\ ystep x' y y'.

Lemma inv_step gm l : 1 <= gm -> 0 < l -> pydiv 1 (gm * l) = Ok (1 / (gm * l)) /\ 0 < 1 / (gm * l).
Proof. intros G1 G2. assert (0 < gm * l) by (apply Rmult_lt_0_compat; lra). split; [|apply Rdiv_lt_0_compat; lra]. unfold pydiv. destruct (Reqb_spec (gm * l) 0) as [[? _]|[_ ->]]; [lra|reflexivity]. Qed.

Lemma palm_run (P : E -> F -> Prop) hx0 x0 y0 beta nb : (forall x y, P x y -> edom f x /\ edom g y /\ 0 < ly y) -> (forall x y x', P x y -> xstep x y x' -> 0 < lx x') ->
  (forall x y x' y', P x y -> xstep x y x' -> ystep x' y y' -> P x' y') -> P x0 y0 ->
  exists ps : nat -> Prod_IPS E F, ps 0%nat = (x0, y0) /\ (forall n, PALM H hx0 y0 proxf proxg x0 y0 (Some gf) (Some gg) beta n nb = Ok (fst (ps n), snd (ps n), map ps (seq 1 n))) /\
    forall n, P (fst (ps n)) (snd (ps n)) /\ nstep (fst (ps n)) (snd (ps n)) (fst (ps (S n))) (snd (ps (S n))).
Proof.
  intros P1 P2 P3 P0.
  destruct (loop_seq (palm_body H proxf proxg (Some gf) (Some gg) beta nb) (fun _ s => ps_hy s = ps_y s /\ P (ps_x s) (ps_y s))
     (fun _ s s' => ps_tr s' = ps_tr s ++ [(ps_x s', ps_y s')] /\ nstep (ps_x s) (ps_y s) (ps_x s') (ps_y s')) (PS x0 y0 hx0 y0 None None x0 y0 [])) as (st & S0 & Hrun & HI & HR); [auto| |].
  { intros j s (I1 & I2). destruct HH as [Hc Hgx Hgy Hlx Hly Hux Huy]. destruct (P1 _ _ I2) as (_ & _ & L1). unfold palm_body, palm_fixed. rewrite I1, (proj1 (Hly (ps_y s))). cbn [bind]. destruct (inv_step gf (ly (ps_y s)) Gf L1) as [-> T1]. cbn [bind]. rewrite Hgx. cbn [bind].
    destruct (opt_prox_spec (option_map on_x proxf) f (ps_x s [-] (1 / (gf * ly (ps_y s))) [*] gx (ps_x s) (ps_y s)) _ Hf T1) as (p & -> & Hp). cbn [bind fst snd]. rewrite (proj1 (Hlx p)). cbn [bind].
    pose proof (P2 _ _ p I2 Hp) as L2. destruct (inv_step gg (lx p) Gg L2) as [-> T2]. cbn [bind]. rewrite Hgy. cbn [bind].
    destruct (opt_prox_spec proxg g (ps_y s [-] (1 / (gg * lx p)) [*] gy p (ps_y s)) _ Hg T2) as (q & -> & Hqq). cbn [bind fst snd]. eexists. split; [reflexivity|]. cbn [ps_x ps_y ps_hy ps_tr]. split; [|split; [reflexivity|exact (P3 _ _ _ _ I2 Hp Hqq)]]. split; [reflexivity|]. split; [exact L1|]. split; [exact L2|]. split; [exact Hp|exact Hqq]. }
  exists (fun k => ((ps_x (st k), ps_y (st k)) : Prod_IPS E F)). split; [rewrite S0; reflexivity|]. split; [|intro n; split; [apply HI|apply HR]].
  intro n. unfold PALM. cbn [is_none]. rewrite Hrun. cbn [bind fst snd]. do 2 f_equal. rewrite (trace_seq st ps_tr (fun k => (ps_x (st (S k)), ps_y (st (S k))))); [|rewrite S0; reflexivity|intro j; apply HR]. rewrite <- seq_shift, map_map. reflexivity.
Qed.

Definition total x y := eval f x + eval g y + h x y.
Lemma xstep_desc x y x' : edom f x -> 0 < ly y -> xstep x y x' -> edom f x' /\ total x' y + (gf - 1) * ly y / 2 * norm2 (x' [-] x) <= total x y.
Proof.
  intros D L P. destruct (inv_step gf (ly y) Gf L) as [_ T]. destruct HH as [_ _ _ _ _ Hux _]. destruct (block_descent f (fun v => h v y) (gx x y) x x' _ (ly y) T D P (Hux y x x')) as [D' B].
  split; [exact D'|]. replace (1 / (1 / (gf * ly y)) - ly y) with ((gf - 1) * ly y) in B by (field; split; lra). unfold total. lra.
Qed.
Lemma ystep_desc x y y' : edom g y -> 0 < lx x -> ystep x y y' -> edom g y' /\ total x y' + (gg - 1) * lx x / 2 * norm2 (y' [-] y) <= total x y.
Proof.
  intros D L P. destruct (inv_step gg (lx x) Gg L) as [_ T]. destruct HH as [_ _ _ _ _ _ Huy]. destruct (block_descent g (h x) (gy x y) y y' _ (lx x) T D P (Huy x y y')) as [D' B].
  split; [exact D'|]. replace (1 / (1 / (gg * lx x)) - lx x) with ((gg - 1) * lx x) in B by (field; split; lra). unfold total. lra.
Qed.
Lemma nstep_desc x y x' y' : edom f x -> edom g y -> nstep x y x' y' -> edom f x' /\ edom g y' /\ total x' y' + (gf - 1) * ly y / 2 * norm2 (x' [-] x) + (gg - 1) * lx x' / 2 * norm2 (y' [-] y) <= total x y.
Proof. intros D1 D2 (L1 & L2 & S1 & S2). destruct (xstep_desc x y x' D1 L1 S1) as [A B]. destruct (ystep_desc x' y y' D2 L2 S2) as [C D]. split; [exact A|]. split; [exact C|]. lra. Qed.

(** ** Limit points *)
Lemma run_cluster (ps : nat -> Prod_IPS E F) a b : 1 < gf -> 1 < gg -> closed f -> closed g -> cont2 gx -> cont2 gy -> scont lx -> scont ly -> 0 < lx a -> 0 < ly b ->
  (forall n, edom f (fst (ps n)) /\ edom g (snd (ps n)) /\ 0 <= total (fst (ps n)) (snd (ps n)) /\ nstep (fst (ps n)) (snd (ps n)) (fst (ps (S n))) (snd (ps (S n)))) ->
  cluster ps ((a, b) : Prod_IPS E F) -> is_prox f (1 / (gf * ly b)) (a [-] (1 / (gf * ly b)) [*] gx a b) a /\ is_prox g (1 / (gg * lx a)) (b [-] (1 / (gg * lx a)) [*] gy a b) b.
Proof.
  intros G1 G2 Cf Cg Cgx Cgy Clx Cly La Lb HP (phi & Hp & Hl). apply (prod_vcv (fun k => ps (phi k)) a b) in Hl. destruct Hl as [Ha Hb].
  assert (Hw : Un_cv (fun k => (gf - 1) * ly (snd (ps k)) / 2 * norm2 (fst (ps (S k)) [-] fst (ps k)) + (gg - 1) * lx (fst (ps (S k))) / 2 * norm2 (snd (ps (S k)) [-] snd (ps k))) 0).
  { apply (drop_vanish (fun k => total (fst (ps k)) (snd (ps k))) _ 1 Rlt_0_1); [intro k; apply HP| |].
    - intro k. destruct (HP k) as (_ & _ & _ & L1 & L2 & _). pose proof (norm2_nonneg (fst (ps (S k)) [-] fst (ps k))). pose proof (norm2_nonneg (snd (ps (S k)) [-] snd (ps k))).
      assert (0 < (gf - 1) * ly (snd (ps k))) by (apply Rmult_lt_0_compat; lra). assert (0 < (gg - 1) * lx (fst (ps (S k)))) by (apply Rmult_lt_0_compat; lra). apply Rplus_le_le_0_compat; apply Rmult_le_pos; lra.
    - intro k. destruct (HP k) as (D1 & D2 & _ & S1). destruct (nstep_desc _ _ _ _ D1 D2 S1) as (_ & _ & B). lra. }
  assert (Hly : Un_cv (fun k => ly (snd (ps (phi k)))) (ly b)) by (apply Cly; exact Hb).
  assert (Part : forall (l : nat -> R) c gm (a1 a2 : nat -> R), 1 < gm -> 0 < c -> (forall k, 0 < l k) -> Un_cv l c -> (forall k, 0 <= a1 k) -> (forall k, 0 <= a2 k) -> Un_cv (fun k => (gm - 1) * l k / 2 * a1 k + a2 k) 0 -> Un_cv a1 0).
  { intros l c gm a1 a2 Hgm Hc Hl0 Hl1 H1 H2 H3. assert (HI : Un_cv (fun k => / l k) (/ c)) by (apply Un_cv_inv; auto).
    pose proof (CV_mult _ _ _ _ H3 HI) as HM. rewrite Rmult_0_l in HM. pose proof (Un_cv_scal (2 / (gm - 1)) _ _ HM) as HM2. rewrite Rmult_0_r in HM2. refine (Un_cv_squeeze _ _ _ HM2). intro k. split; [apply H1|].
    assert (Hi : 0 < / l k) by (apply Rinv_0_lt_compat, Hl0). assert (Hg' : 0 < 2 / (gm - 1)) by (apply Rdiv_lt_0_compat; lra).
    apply Rle_trans with (2 / (gm - 1) * ((gm - 1) * l k / 2 * a1 k * / l k)); [right; field; split; [apply Rgt_not_eq, Hl0|lra]|]. apply Rmult_le_compat_l; [lra|]. apply Rmult_le_compat_r; [lra|]. specialize (H2 k). lra. }
  assert (Hmx : Un_cv (fun k => norm2 (fst (ps (S (phi k))) [-] fst (ps (phi k)))) 0).
  { apply (Part (fun k => ly (snd (ps (phi k)))) (ly b) gf _ (fun k => (gg - 1) * lx (fst (ps (S (phi k)))) / 2 * norm2 (snd (ps (S (phi k))) [-] snd (ps (phi k))))); auto.
    - intro k. apply (HP (phi k)).
    - intro k. apply norm2_nonneg.
    - intro k. destruct (HP (phi k)) as (_ & _ & _ & _ & L2 & _). apply Rmult_le_pos; [|apply norm2_nonneg]. assert (0 < (gg - 1) * lx (fst (ps (S (phi k))))) by (apply Rmult_lt_0_compat; lra). lra.
    - exact (Un_cv_sub _ 0 phi Hp Hw). }
  assert (Ha1 : vcv (fun k => fst (ps (S (phi k)))) a) by (apply (vcv_close (fun k => fst (ps (phi k)))); assumption).
  assert (Hlx : Un_cv (fun k => lx (fst (ps (S (phi k))))) (lx a)) by (apply Clx; exact Ha1).
  assert (Hmy : Un_cv (fun k => norm2 (snd (ps (S (phi k))) [-] snd (ps (phi k)))) 0).
  { apply (Part (fun k => lx (fst (ps (S (phi k))))) (lx a) gg _ (fun k => (gf - 1) * ly (snd (ps (phi k))) / 2 * norm2 (fst (ps (S (phi k))) [-] fst (ps (phi k))))); auto.
    - intro k. apply (HP (phi k)).
    - intro k. apply norm2_nonneg.
    - intro k. destruct (HP (phi k)) as (_ & _ & _ & L1 & _). apply Rmult_le_pos; [|apply norm2_nonneg]. assert (0 < (gf - 1) * ly (snd (ps (phi k)))) by (apply Rmult_lt_0_compat; lra). lra.
    - eapply Un_cv_ext; [|exact (Un_cv_sub _ 0 phi Hp Hw)]. intro k. cbv beta. ring. }
  assert (Hb1 : vcv (fun k => snd (ps (S (phi k)))) b) by (apply (vcv_close (fun k => snd (ps (phi k)))); assumption).
  assert (Stp : forall gm (l : nat -> R) c, 1 < gm -> 0 < c -> (forall k, 0 < l k) -> Un_cv l c -> Un_cv (fun k => 1 / (gm * l k)) (1 / (gm * c))).
  { intros gm l c K1 K2 K3 K4. apply (Un_cv_ext (fun k => / (gm * l k))); [intro k; unfold Rdiv; ring|]. replace (1 / (gm * c)) with (/ (gm * c)) by (unfold Rdiv; ring). apply Un_cv_inv; [apply Rmult_lt_0_compat; lra|intro k; apply Rmult_lt_0_compat; [lra|apply K3]|]. apply Un_cv_scal. exact K4. }
  assert (P1 : 0 < 1 / (gf * ly b)) by (apply inv_step; auto). assert (P2 : 0 < 1 / (gg * lx a)) by (apply inv_step; auto). split.
  - apply (prox_closed f (fun k => 1 / (gf * ly (snd (ps (phi k))))) _ (fun k => fst (ps (phi k)) [-] (1 / (gf * ly (snd (ps (phi k))))) [*] gx (fst (ps (phi k))) (snd (ps (phi k)))) (fun k => fst (ps (S (phi k))))); auto.
    + intro k. apply inv_step; [exact Gf|]. apply (HP (phi k)).
    + apply Stp; auto. intro k. apply (HP (phi k)).
    + intro k. apply (HP (phi k)).
    + apply vcv_minus; [exact Ha|]. apply vcv_scal2; [apply Stp; auto; intro k; apply (HP (phi k))|]. apply Cgx; assumption.
  - apply (prox_closed g (fun k => 1 / (gg * lx (fst (ps (S (phi k)))))) _ (fun k => snd (ps (phi k)) [-] (1 / (gg * lx (fst (ps (S (phi k)))))) [*] gy (fst (ps (S (phi k)))) (snd (ps (phi k)))) (fun k => snd (ps (S (phi k))))); auto.
    + intro k. apply inv_step; [exact Gg|]. apply (HP (phi k)).
    + apply Stp; auto. intro k. apply (HP (phi k)).
    + intro k. apply (HP (phi k)).
    + apply vcv_minus; [exact Hb|]. apply vcv_scal2; [apply Stp; auto; intro k; apply (HP (phi k))|]. apply Cgy; assumption.
Qed.
End Run.

(** ** The low-rank misfit *)
Lemma RS_term n j (h : nat -> R) : (j < n)%nat -> (forall i, (i < n)%nat -> 0 <= h i) -> h j <= RS n h.
Proof.
  intros Hj Hp.
  assert (E1 : RS n (fun i => if Nat.eq_dec i j then h i else 0) = h j).
  { transitivity (if Nat.eq_dec j j then h j else 0); [|destruct (Nat.eq_dec j j); [reflexivity|contradiction]].
    apply (RS_at n j (fun i => if Nat.eq_dec i j then h i else 0) Hj). intros i _ Hi. destruct (Nat.eq_dec i j); [contradiction|reflexivity]. }
  rewrite <- E1. apply RS_le. intros i Hi. destruct (Nat.eq_dec i j); [lra|apply Hp, Hi].
Qed.
Lemma sum_sq_pos k (G : nat -> nat -> R) a b : (a < k)%nat -> (b < k)%nat -> G a b * G a b <= RS k (fun a => RS k (fun b => G a b * G a b)).
Proof.
  intros Ha Hb. apply Rle_trans with (RS k (fun b => G a b * G a b)); [apply (RS_term k b (fun b => G a b * G a b) Hb); intros; nra|].
  apply (RS_term k a (fun a => RS k (fun b => G a b * G a b)) Ha). intros. apply RS_nonneg; intros; nra.
Qed.
Lemma frob_ge k (G : nat -> nat -> R) a b : (a < k)%nat -> (b < k)%nat -> Rabs (G a b) <= frob k G.
Proof. intros Ha Hb. unfold frob. rewrite <- sqrt_Rsqr_abs. apply sqrt_le_1_alt. unfold Rsqr. apply sum_sq_pos; auto. Qed.
Lemma frobY_ge k m (y : Vec (k * m)) : norm2 y <= INR k * frob k (gramY k m y).
Proof.
  unfold norm2. rewrite vec_inner2. rewrite <- (RS_const k (frob k (gramY k m y))). apply RS_le. intros a Ha. eapply Rle_trans; [apply Rle_abs|]. exact (frob_ge k (gramY k m y) a a Ha Ha).
Qed.
Lemma frobX_ge n k (x : Vec (n * k)) : norm2 x <= INR k * frob k (gramX n k x).
Proof.
  unfold norm2. rewrite vec_inner2. rewrite RS_swap. rewrite <- (RS_const k (frob k (gramX n k x))). apply RS_le. intros a Ha. eapply Rle_trans; [apply Rle_abs|]. exact (frob_ge k (gramX n k x) a a Ha Ha).
Qed.
Lemma frobY_pos k m (y : Vec (k * m)) : y <> vzero -> 0 < frob k (gramY k m y).
Proof. intro Hy. pose proof (norm2_pos y Hy). pose proof (frobY_ge k m y). pose proof (pos_INR k). pose proof (frob_nonneg k (gramY k m y)). nra. Qed.
Lemma frobX_pos n k (x : Vec (n * k)) : x <> vzero -> 0 < frob k (gramX n k x).
Proof. intro Hy. pose proof (norm2_pos x Hy). pose proof (frobX_ge n k x). pose proof (pos_INR k). pose proof (frob_nonneg k (gramX n k x)). nra. Qed.

Lemma vcv_coords2 a b (u : nat -> Vec (a * b)) l : (forall i j, (i < a)%nat -> (j < b)%nat -> Un_cv (fun k => get (u k) (i * b + j)) (get l (i * b + j))) -> vcv u l.
Proof.
  intro H. apply vcv_coords. intros i Hi. assert (Hb : b <> 0%nat) by (intro; subst; rewrite Nat.mul_0_r in Hi; lia).
  assert (E1 : (i / b * b + i mod b)%nat = i) by (pose proof (Nat.div_mod i b Hb); lia). rewrite <- E1. apply H; [apply Nat.div_lt_upper_bound; lia|apply Nat.mod_upper_bound; auto].
Qed.
Lemma idx_lt a b i j : (i < a)%nat -> (j < b)%nat -> (i * b + j < a * b)%nat.
Proof. nia. Qed.
Lemma mm_cv n k m (us : nat -> Vec (n * k)) (vs : nat -> Vec (k * m)) a b : vcv us a -> vcv vs b -> vcv (fun t => mm n k m (us t) (vs t)) (mm n k m a b).
Proof.
  intros Ha Hb. apply vcv_coords2. intros i j Hi Hj. rewrite get_mm by auto. apply (Un_cv_ext (fun t => RS k (fun l => get (us t) (i * k + l) * get (vs t) (l * m + j)))); [intro t; rewrite get_mm by auto; reflexivity|].
  apply RS_cv. intros l Hl. apply CV_mult; apply vcv_get; auto; apply idx_lt; auto.
Qed.
Lemma mYt_cv n k m (rs : nat -> Vec (n * m)) (vs : nat -> Vec (k * m)) r b : vcv rs r -> vcv vs b -> vcv (fun t => mYt n k m (rs t) (vs t)) (mYt n k m r b).
Proof.
  intros Ha Hb. apply vcv_coords2. intros i l Hi Hl. rewrite get_mYt by auto. apply (Un_cv_ext (fun t => RS m (fun j => get (rs t) (i * m + j) * get (vs t) (l * m + j)))); [intro t; rewrite get_mYt by auto; reflexivity|].
  apply RS_cv. intros j Hj. apply CV_mult; apply vcv_get; auto; apply idx_lt; auto.
Qed.
Lemma mXt_cv n k m (us : nat -> Vec (n * k)) (rs : nat -> Vec (n * m)) a r : vcv us a -> vcv rs r -> vcv (fun t => mXt n k m (us t) (rs t)) (mXt n k m a r).
Proof.
  intros Ha Hb. apply vcv_coords2. intros l j Hl Hj. rewrite get_mXt by auto. apply (Un_cv_ext (fun t => RS n (fun i => get (us t) (i * k + l) * get (rs t) (i * m + j)))); [intro t; rewrite get_mXt by auto; reflexivity|].
  apply RS_cv. intros i Hi. apply CV_mult; apply vcv_get; auto; apply idx_lt; auto.
Qed.
Lemma vopp_cv {E : IPS} (u : nat -> E) l : vcv u l -> vcv (fun t => vopp (u t)) (vopp l).
Proof. intros H e He. destruct (H e He) as [N HN]. exists N. intros t Ht. specialize (HN t Ht). replace (vopp (u t) [-] vopp l) with (vopp (u t [-] l)) by vring. rewrite norm_vopp. exact HN. Qed.
Lemma gX_cont n k m (d : Vec (n * m)) : cont2 (fun (x : Vec (n * k)) (y : Vec (k * m)) => vopp (mYt n k m (d [-] mm n k m x y) y)).
Proof. intros us vs a b Ha Hb. apply vopp_cv. apply mYt_cv; [|exact Hb]. apply vcv_minus; [apply vcv_const|apply mm_cv; assumption]. Qed.
Lemma gY_cont n k m (d : Vec (n * m)) : cont2 (fun (x : Vec (n * k)) (y : Vec (k * m)) => vopp (mXt n k m x (d [-] mm n k m x y))).
Proof. intros us vs a b Ha Hb. apply vopp_cv. apply mXt_cv; [exact Ha|]. apply vcv_minus; [apply vcv_const|apply mm_cv; assumption]. Qed.
Lemma sqrt_seq_cv (u : nat -> R) l : (forall k, 0 <= u k) -> 0 <= l -> Un_cv u l -> Un_cv (fun k => sqrt (u k)) (sqrt l).
Proof. intros H1 H2 H3. apply (continuity_seq sqrt u l); [apply continuity_pt_sqrt; exact H2|exact H3]. Qed.
Lemma frob_cv k (G : nat -> nat -> nat -> R) L : (forall a b, (a < k)%nat -> (b < k)%nat -> Un_cv (fun t => G t a b) (L a b)) -> Un_cv (fun t => frob k (G t)) (frob k L).
Proof.
  intro H. unfold frob. apply sqrt_seq_cv; [intro t; apply RS_nonneg; intros; apply RS_nonneg; intros; nra|apply RS_nonneg; intros; apply RS_nonneg; intros; nra|].
  apply RS_cv. intros a Ha. apply RS_cv. intros b Hb. apply CV_mult; apply H; auto.
Qed.
Lemma frobX_cont n k : scont (fun x : Vec (n * k) => frob k (gramX n k x)).
Proof. intros us a Ha. apply frob_cv. intros p q Hp Hq. unfold gramX. apply RS_cv. intros i Hi. apply CV_mult; apply vcv_get; auto; apply idx_lt; auto. Qed.
Lemma frobY_cont k m : scont (fun y : Vec (k * m) => frob k (gramY k m y)).
Proof. intros us a Ha. apply frob_cv. intros p q Hp Hq. unfold gramY. apply RS_cv. intros i Hi. apply CV_mult; apply vcv_get; auto; apply idx_lt; auto. Qed.

(** ** From fixed points of the steps to best pairs *)
Lemma fixed_min {E F : IPS} (f : efun E) (B : linop E F) (d : F) t a : convex f -> 0 < t -> is_prox f t (a [-] t [*] vopp (ladj B (d [-] B a))) a -> is_min (eadd f (etot (fun u => norm2 (d [-] B u) / 2))) a.
Proof.
  intros Cf Ht Hp. pose proof (prox_subgrad f t _ a Cf Ht Hp) as [Hd Hs]. split; [split; [exact Hd|exact I]|]. intros u [Hu _]. cbn [eval eadd etot]. specialize (Hs u Hu).
  pose proof (half_sq_lower B d a u) as Hl. set (G := vopp (ladj B (d [-] B a))) in *. replace (/ t [*] (a [-] t [*] G [-] a)) with (vopp G) in Hs by (vext w; field; lra). rewrite inner_opp_l in Hs. lra.
Qed.
Lemma fixed_pair n k m (d : Vec (n * m)) f g t s a b : convex f -> convex g -> 0 < t -> 0 < s ->
  is_prox f t (a [-] t [*] vopp (mYt n k m (d [-] mm n k m a b) b)) a -> is_prox g s (b [-] s [*] vopp (mXt n k m a (d [-] mm n k m a b))) b -> best_pair n k m d f g a b.
Proof. intros Cf Cg Ht Hs P1 P2. split; [exact (fixed_min f (mulY n k m b) d t a Cf Ht P1)|exact (fixed_min g (mulX n k m a) d s b Cg Hs P2)]. Qed.

(** ** Boxes starting at zero *)
Lemma from_zero_ok n (lu : nlist bounds n) : from_zero lu -> Forall bounds_ok (proj1_sig lu).
Proof. intro H. unfold from_zero in H. rewrite Forall_forall in *. intros b Hb. apply (H b Hb). Qed.
Lemma from_zero_nonneg n (lu : nlist bounds n) (x : Vec n) : from_zero lu -> box_set lu x -> nonneg_entries x.
Proof.
  intros H Hx i Hi. rewrite box_entries in Hx. specialize (Hx i Hi). unfold from_zero in H. rewrite Forall_forall in H.
  assert (HI : In (nth i (proj1_sig lu) (None, None)) (proj1_sig lu)) by (apply nth_In; rewrite (proj2_sig lu); exact Hi). destruct (H _ HI) as [E1 _]. exact (proj1 Hx 0 E1).
Qed.
Lemma from_zero_has n (lu : nlist bounds n) : from_zero lu -> box_set lu (vzero : Vec n).
Proof.
  intro H. rewrite box_entries. intros i Hi. unfold from_zero in H. rewrite Forall_forall in H.
  assert (HI : In (nth i (proj1_sig lu) (None, None)) (proj1_sig lu)) by (apply nth_In; rewrite (proj2_sig lu); exact Hi). destruct (H _ HI) as [E1 E2]. rewrite get_zero by exact Hi.
  split; intros c Hc; [rewrite E1 in Hc; injection Hc as <-; lra|]. destruct (nth i (proj1_sig lu) (None, None)) as [l u]. cbn [fst snd] in *. subst. exact (E2 0 c eq_refl).
Qed.
Lemma mm_nonneg n k m (x : Vec (n * k)) (y : Vec (k * m)) (d : Vec (n * m)) : nonneg_entries x -> nonneg_entries y -> nonneg_entries d -> 0 <= << mm n k m x y, d >>.
Proof.
  intros Hx Hy Hd. rewrite vec_inner2. apply RS_nonneg. intros i Hi. apply RS_nonneg. intros j Hj. rewrite get_mm by auto. apply Rmult_le_pos; [|apply Hd, idx_lt; auto].
  apply RS_nonneg. intros l Hl. apply Rmult_le_pos; [apply Hx|apply Hy]; apply idx_lt; auto.
Qed.
(** a projected step cannot land on zero *)
Lemma not_zero {E F : IPS} (C : E -> Prop) (B : linop E F) (d : F) L gm x p : convex (indic C) -> 1 < gm -> 0 < L -> (forall v, norm2 (B v) <= L * norm2 v) -> C x -> x <> vzero -> 0 <= << B x, d >> ->
  is_prox (indic C) (1 / (gm * L)) (x [-] (1 / (gm * L)) [*] vopp (ladj B (d [-] B x))) p -> p <> vzero.
Proof.
  intros Cc Hg HL HB Cx Hx Hd Hp E0. subst p. assert (Hgl : 0 < gm * L) by (apply Rmult_lt_0_compat; lra). assert (Ht : 0 < 1 / (gm * L)) by (apply Rdiv_lt_0_compat; lra).
  pose proof (prox_subgrad _ _ _ _ Cc Ht Hp) as [_ Hs]. specialize (Hs x Cx). cbn [eval indic] in Hs. set (t := 1 / (gm * L)) in *.
  replace (<< / t [*] (x [-] t [*] vopp (ladj B (d [-] B x)) [-] vzero), x [-] vzero >>) with (/ t * norm2 x + << ladj B (d [-] B x), x >>) in Hs by (unfold norm2; rewrite inner_scal_l; unfold vopp; inner_lin_all; field; lra).
  rewrite inner_sym, <- ladj_spec in Hs. rewrite inner_sub_r in Hs. fold (norm2 (B x)) in Hs. pose proof (HB x) as Hb. pose proof (norm2_pos x Hx) as Hn.
  assert (Et : / t = gm * L) by (unfold t; field; split; lra). rewrite Et in Hs. assert (0 < (gm - 1) * L * norm2 x) by (apply Rmult_lt_0_compat; [apply Rmult_lt_0_compat; lra|exact Hn]). lra.
Qed.

Lemma gain_lower gm s fr N q : 1 <= gm -> 0 < N -> 0 <= q -> s <= N * fr -> (gm - 1) * s / (2 * N) * q <= (gm - 1) * fr / 2 * q.
Proof.
  intros Hg HN Hq Hs. apply Rmult_le_compat_r; [exact Hq|]. apply Rmult_le_reg_r with (2 * N); [lra|]. replace ((gm - 1) * s / (2 * N) * (2 * N)) with ((gm - 1) * s) by (field; lra).
  replace ((gm - 1) * fr / 2 * (2 * N)) with ((gm - 1) * (N * fr)) by field. apply Rmult_le_compat_l; lra.
Qed.
Lemma k_pos k m (y : Vec (k * m)) : y <> vzero -> 0 < INR k.
Proof. intro Hy. pose proof (norm2_pos y Hy). pose proof (frobY_ge k m y). pose proof (pos_INR k). pose proof (frob_nonneg k (gramY k m y)). destruct (Req_dec (INR k) 0) as [E0|E0]; [rewrite E0 in *; lra|lra]. Qed.
Lemma prod_eta {E F : IPS} (p : Prod_IPS E F) : p = (fst p, snd p). Proof. destruct p; reflexivity. Qed.

(*! C99_nonneg_runs : non-negative matrix factorisation: data d with non-negative entries, Box objects with lower bound 0 (and any upper bounds) for both factors, non-zero starts inside the boxes, gammaf, gammag > 1, stored y equal to y0, any sizes and iteration count: PALM always returns (it never divides by zero), all iterates stay in the boxes and non-zero, 1/2 |d - XY|^2 decreases by at least the stated multiple of the squared moves, and every limit point of the iterates with two non-zero factors is a pair where neither factor can be improved alone *)
Lemma C99_nonneg_runs_l : forall H n k m (X Y0 : _) (d : Vec (n * m)) (lu : nlist bounds (n * k)) (lv : nlist bounds (k * m)) pf pg x0 gf gg beta nb,
  lr_holds H (X : Vec (n * k)) (Y0 : Vec (k * m)) d (id_linop _) -> lr_op H = None -> nonneg_entries d -> from_zero lu -> from_zero lv -> is_box (on_x pf) lu -> is_box pg lv -> 1 < gf -> 1 < gg ->
  box_set lu x0 -> box_set lv Y0 -> x0 <> vzero -> Y0 <> vzero ->
  exists ps : nat -> Prod_IPS (Vec (n * k)) (Vec (k * m)), ps 0%nat = (x0, Y0) /\
    (forall N, PALM (lr_bilin H n k m) X Y0 (Some pf) (Some pg) x0 Y0 (Some gf) (Some gg) beta N nb = Ok (fst (ps N), snd (ps N), map ps (seq 1 N))) /\
    (forall N, box_set lu (fst (ps N)) /\ box_set lv (snd (ps N)) /\ fst (ps N) <> vzero /\ snd (ps N) <> vzero /\
       misfit n k m d (fst (ps (S N))) (snd (ps (S N))) + (gf - 1) * norm2 (snd (ps N)) / (2 * INR k) * norm2 (fst (ps (S N)) [-] fst (ps N)) +
         (gg - 1) * norm2 (fst (ps (S N))) / (2 * INR k) * norm2 (snd (ps (S N)) [-] snd (ps N)) <= misfit n k m d (fst (ps N)) (snd (ps N))) /\
    forall a b, cluster ps ((a, b) : Prod_IPS _ _) -> a <> vzero -> b <> vzero -> best_pair n k m d (indic (box_set lu)) (indic (box_set lv)) a b.
Proof.
  intros H n k m X Y0 d lu lv pf pg x0 gf gg beta nb HH Ho Hd Zu Zv Bf Bg Gf Gg X0 V0 NX NY.
  pose proof (lr_bilin_spec H n k m X Y0 d HH Ho) as HS. destruct (box_facts _ _ _ Bf (from_zero_ok _ _ Zu)) as [If Cf]. destruct (box_facts _ _ _ Bg (from_zero_ok _ _ Zv)) as [Ig Cg].
  pose proof (box_convex _ lu) as Vf. pose proof (box_convex _ lv) as Vg.
  destruct (palm_run (lr_bilin H n k m) _ _ _ _ _ HS (indic (box_set lu)) (indic (box_set lv)) (Some pf) (Some pg) If Ig gf gg ltac:(lra) ltac:(lra)
    (fun x y => box_set lu x /\ box_set lv y /\ x <> vzero /\ y <> vzero) X x0 Y0 beta nb) as (ps & E0 & Er & Hs).
  - intros x y (A1 & A2 & A3 & A4). split; [exact A1|]. split; [exact A2|]. apply frobY_pos, A4.
  - intros x y x' (A1 & A2 & A3 & A4) S1. apply frobX_pos. refine (not_zero (box_set lu) (mulY n k m y) d _ gf x x' Vf Gf (frobY_pos k m y A4) (fun v => mm_bound_Y n k m v y) A1 A3 _ S1).
    apply (mm_nonneg n k m x y d); auto; eapply from_zero_nonneg; eauto.
  - intros x y x' y' (A1 & A2 & A3 & A4) S1 S2. assert (D1 : box_set lu x') by exact (proj1 S1). assert (D2 : box_set lv y') by exact (proj1 S2).
    assert (N1 : x' <> vzero). { refine (not_zero (box_set lu) (mulY n k m y) d _ gf x x' Vf Gf (frobY_pos k m y A4) (fun v => mm_bound_Y n k m v y) A1 A3 _ S1). apply (mm_nonneg n k m x y d); auto; eapply from_zero_nonneg; eauto. }
    split; [exact D1|]. split; [exact D2|]. split; [exact N1|].
    refine (not_zero (box_set lv) (mulX n k m x') d _ gg y y' Vg Gg (frobX_pos n k x' N1) (fun v => mm_bound_X n k m x' v) A2 A4 _ S2). apply (mm_nonneg n k m x' y d); auto; eapply from_zero_nonneg; eauto.
  - auto.
  - exists ps. split; [exact E0|]. split; [exact Er|]. split.
    + intro N. destruct (Hs N) as [(A1 & A2 & A3 & A4) S1]. repeat (split; [assumption|]).
      destruct (nstep_desc (lr_bilin H n k m) _ _ _ _ _ HS (indic (box_set lu)) (indic (box_set lv)) gf gg ltac:(lra) ltac:(lra) _ _ _ _ A1 A2 S1) as (_ & _ & B). unfold total in B. cbn [eval indic] in B. unfold lr_fun in B. cbn [id_linop lapp] in B. unfold misfit.
      pose proof (k_pos k m _ A4) as Hk.
      pose proof (gain_lower gf _ _ _ _ ltac:(lra) Hk (norm2_nonneg (fst (ps (S N)) [-] fst (ps N))) (frobY_ge k m (snd (ps N)))).
      pose proof (gain_lower gg _ _ _ _ ltac:(lra) Hk (norm2_nonneg (snd (ps (S N)) [-] snd (ps N))) (frobX_ge n k (fst (ps (S N))))). lra.
    + intros a b Hc Na Nb. assert (La := frobX_pos n k a Na). assert (Lb := frobY_pos k m b Nb).
      destruct (run_cluster (lr_bilin H n k m) _ _ _ _ _ HS (indic (box_set lu)) (indic (box_set lv)) gf gg ltac:(lra) ltac:(lra) ps a b Gf Gg Cf Cg (gX_cont n k m d) (gY_cont n k m d) (frobX_cont n k) (frobY_cont k m) La Lb) as [P1 P2]; [|exact Hc|].
      { intro N. destruct (Hs N) as [(A1 & A2 & A3 & A4) S1]. split; [exact A1|]. split; [exact A2|]. split; [|exact S1]. unfold total, lr_fun. cbn [eval indic]. pose proof (norm2_nonneg (d [-] id_linop (Vec (n * m)) (mm n k m (fst (ps N)) (snd (ps N))))). lra. }
      refine (fixed_pair n k m d _ _ _ _ a b Vf Vg _ _ P1 P2); apply Rdiv_lt_0_compat; try lra; apply Rmult_lt_0_compat; lra.
Qed.

(** ** Starts better than the zero product *)
Lemma mm_zero_l n k m (y : Vec (k * m)) : mm n k m vzero y = vzero.
Proof. apply norm_eq0. pose proof (mm_norm n k m vzero y) as H. rewrite norm_zero, Rmult_0_l in H. pose proof (norm_nonneg (mm n k m vzero y)). lra. Qed.
Lemma mm_zero_r n k m (x : Vec (n * k)) : mm n k m x vzero = vzero.
Proof. apply norm_eq0. pose proof (mm_norm n k m x vzero) as H. rewrite norm_zero, Rmult_0_r in H. pose proof (norm_nonneg (mm n k m x vzero)). lra. Qed.
Lemma prod_lower n k m (d : Vec (n * m)) x y J : misfit n k m d x y <= J -> norm d - sqrt (2 * J) <= norm (mm n k m x y).
Proof.
  intro H. unfold misfit in H. pose proof (norm_triangle (d [-] mm n k m x y) (mm n k m x y)) as T. replace (d [-] mm n k m x y [+] mm n k m x y) with d in T by vring.
  assert (norm (d [-] mm n k m x y) <= sqrt (2 * J)) by (unfold norm; apply sqrt_le_1_alt; lra). lra.
Qed.
Lemma slack_pos {E : IPS} (d : E) J : 0 <= J -> J < norm2 d / 2 -> 0 < norm d - sqrt (2 * J).
Proof. intros HJ H. assert (sqrt (2 * J) < norm d); [|lra]. unfold norm. apply sqrt_lt_1; [lra|apply norm2_nonneg|lra]. Qed.
Lemma factors_pos n k m (x : Vec (n * k)) (y : Vec (k * m)) c : 0 < c -> c <= norm (mm n k m x y) -> x <> vzero /\ y <> vzero.
Proof. intros Hc Hm. split; intro E0; subst; [rewrite mm_zero_l in Hm|rewrite mm_zero_r in Hm]; rewrite norm_zero in Hm; lra. Qed.

Lemma better_runs H n k m (X : Vec (n * k)) (Y0 : Vec (k * m)) (d : Vec (n * m)) f g proxf proxg x0 gf gg beta nb :
  lr_holds H X Y0 d (id_linop _) -> lr_op H = None -> opt_impl (option_map on_x proxf) f -> opt_impl proxg g -> 1 <= gf -> 1 <= gg ->
  (forall x, edom f x -> 0 <= eval f x) -> (forall y, edom g y -> 0 <= eval g y) -> edom f x0 -> edom g Y0 -> eval f x0 + eval g Y0 + misfit n k m d x0 Y0 < norm2 d / 2 ->
  let J := fun p : Prod_IPS (Vec (n * k)) (Vec (k * m)) => eval f (fst p) + eval g (snd p) + misfit n k m d (fst p) (snd p) in
  exists ps : nat -> Prod_IPS (Vec (n * k)) (Vec (k * m)), ps 0%nat = (x0, Y0) /\
    (forall N, PALM (lr_bilin H n k m) X Y0 proxf proxg x0 Y0 (Some gf) (Some gg) beta N nb = Ok (fst (ps N), snd (ps N), map ps (seq 1 N))) /\
    (forall N, edom f (fst (ps N)) /\ edom g (snd (ps N)) /\ J (ps N) <= J (ps 0%nat) /\ norm d - sqrt (2 * J (ps 0%nat)) <= norm (mm n k m (fst (ps N)) (snd (ps N))) /\
       J (ps (S N)) + (gf - 1) * norm2 (snd (ps N)) / (2 * INR k) * norm2 (fst (ps (S N)) [-] fst (ps N)) +
         (gg - 1) * norm2 (fst (ps (S N))) / (2 * INR k) * norm2 (snd (ps (S N)) [-] snd (ps N)) <= J (ps N)) /\
    (1 < gf -> 1 < gg -> convex f -> convex g -> closed f -> closed g -> forall a b, cluster ps ((a, b) : Prod_IPS _ _) -> best_pair n k m d f g a b).
Proof.
  intros HH Ho Hf Hg Gf Gg Nf Ng D1 D2 HJ J. pose proof (lr_bilin_spec H n k m X Y0 d HH Ho) as HS. set (J0 := eval f x0 + eval g Y0 + misfit n k m d x0 Y0) in *.
  assert (Mn : forall x y, 0 <= misfit n k m d x y) by (intros x y; unfold misfit; pose proof (norm2_nonneg (d [-] mm n k m x y)); lra).
  assert (J00 : 0 <= J0) by (unfold J0; pose proof (Nf _ D1); pose proof (Ng _ D2); pose proof (Mn x0 Y0); lra).
  pose proof (slack_pos d J0 J00 HJ) as Hc.
  assert (LV : forall x y, edom f x -> edom g y -> total (lr_fun (id_linop _) d) f g x y <= J0 -> norm d - sqrt (2 * J0) <= norm (mm n k m x y)).
  { intros x y E1 E2 E3. apply prod_lower. pose proof (Nf _ E1). pose proof (Ng _ E2). unfold total in E3. change (lr_fun (id_linop (Vec (n * m))) d x y) with (misfit n k m d x y) in E3. lra. }
  assert (XS : forall x y x', (edom f x /\ edom g y /\ total (lr_fun (id_linop _) d) f g x y <= J0) ->
     xstep (fun x y => vopp (mYt n k m (d [-] mm n k m x y) y)) (fun y => frob k (gramY k m y)) f gf x y x' -> edom f x' /\ total (lr_fun (id_linop _) d) f g x' y <= J0 /\ 0 < frob k (gramX n k x')).
  { intros x y x' (E1 & E2 & E3) S1. destruct (factors_pos _ _ _ _ _ _ Hc (LV x y E1 E2 E3)) as [_ Ny]. pose proof (frobY_pos k m y Ny) as Lp.
    destruct (xstep_desc (lr_bilin H n k m) _ _ _ _ _ HS f g gf Gf x y x' E1 Lp S1) as [E4 E5]. assert (E6 : total (lr_fun (id_linop _) d) f g x' y <= J0).
    { assert (0 <= (gf - 1) * frob k (gramY k m y) / 2 * norm2 (x' [-] x)); [|lra]. apply Rmult_le_pos; [|apply norm2_nonneg]. assert (0 <= (gf - 1) * frob k (gramY k m y)) by (apply Rmult_le_pos; lra). lra. }
    split; [exact E4|]. split; [exact E6|]. apply frobX_pos. apply (factors_pos _ _ _ _ _ _ Hc (LV x' y E4 E2 E6)). }
  destruct (palm_run (lr_bilin H n k m) _ _ _ _ _ HS f g proxf proxg Hf Hg gf gg Gf Gg (fun x y => edom f x /\ edom g y /\ total (lr_fun (id_linop _) d) f g x y <= J0) X x0 Y0 beta nb) as (ps & E0 & Er & Hs).
  - intros x y (E1 & E2 & E3). split; [exact E1|]. split; [exact E2|]. apply frobY_pos. apply (factors_pos _ _ _ _ _ _ Hc (LV x y E1 E2 E3)).
  - intros x y x' HP S1. apply (XS x y x' HP S1).
  - intros x y x' y' HP S1 S2. destruct (XS x y x' HP S1) as (E4 & E5 & E6). destruct HP as (_ & E2 & _). destruct (ystep_desc (lr_bilin H n k m) _ _ _ _ _ HS f g gg Gg x' y y' E2 E6 S2) as [E7 E8].
    split; [exact E4|]. split; [exact E7|]. assert (0 <= (gg - 1) * frob k (gramX n k x') / 2 * norm2 (y' [-] y)); [|lra]. apply Rmult_le_pos; [|apply norm2_nonneg]. assert (0 <= (gg - 1) * frob k (gramX n k x')) by (apply Rmult_le_pos; lra). lra.
  - split; [exact D1|]. split; [exact D2|]. apply Rle_refl.
  - assert (EJ : J (ps 0%nat) = J0) by (rewrite E0; reflexivity). exists ps. split; [exact E0|]. split; [exact Er|]. split.
    + intro N. rewrite EJ. destruct (Hs N) as [(A1 & A2 & A3) S1]. split; [exact A1|]. split; [exact A2|]. split; [exact A3|]. split; [exact (LV _ _ A1 A2 A3)|].
      destruct (nstep_desc (lr_bilin H n k m) _ _ _ _ _ HS f g gf gg Gf Gg _ _ _ _ A1 A2 S1) as (_ & _ & B). change (total (lr_fun (id_linop (Vec (n * m))) d) f g) with (fun x y => J (x, y)) in B. cbv beta in B. rewrite <- !prod_eta in B.
      destruct (factors_pos _ _ _ _ _ _ Hc (LV _ _ A1 A2 A3)) as [_ Ny]. pose proof (k_pos k m _ Ny) as Hk.
      pose proof (gain_lower gf _ _ _ _ Gf Hk (norm2_nonneg (fst (ps (S N)) [-] fst (ps N))) (frobY_ge k m (snd (ps N)))).
      pose proof (gain_lower gg _ _ _ _ Gg Hk (norm2_nonneg (snd (ps (S N)) [-] snd (ps N))) (frobX_ge n k (fst (ps (S N))))). lra.
    + intros Gf' Gg' Vf Vg Cf Cg a b Hcl.
      assert (Hab : norm d - sqrt (2 * J0) <= norm (mm n k m a b)).
      { destruct Hcl as (phi & Hp & Hl). apply (prod_vcv (fun k => ps (phi k)) a b) in Hl. destruct Hl as [Ha Hb]. pose proof (vcv_norm _ _ (mm_cv n k m _ _ a b Ha Hb)) as Hn. apply Rnot_lt_le. intro Hlt.
        destruct (Hn (norm d - sqrt (2 * J0) - norm (mm n k m a b)) ltac:(lra)) as [M HM]. specialize (HM M (le_n M)). unfold R_dist in HM. apply Rabs_def2 in HM. destruct (Hs (phi M)) as [(A1 & A2 & A3) _]. pose proof (LV _ _ A1 A2 A3). lra. }
      destruct (factors_pos _ _ _ _ _ _ Hc Hab) as [Na Nb]. assert (La := frobX_pos n k a Na). assert (Lb := frobY_pos k m b Nb).
      destruct (run_cluster (lr_bilin H n k m) _ _ _ _ _ HS f g gf gg Gf Gg ps a b Gf' Gg' Cf Cg (gX_cont n k m d) (gY_cont n k m d) (frobX_cont n k) (frobY_cont k m) La Lb) as [P1 P2]; [|exact Hcl|].
      { intro N. destruct (Hs N) as [(A1 & A2 & A3) S1]. split; [exact A1|]. split; [exact A2|]. split; [|exact S1]. unfold total. pose proof (Nf _ A1). pose proof (Ng _ A2). pose proof (Mn (fst (ps N)) (snd (ps N))) as Q. change (misfit n k m d (fst (ps N)) (snd (ps N))) with (lr_fun (id_linop (Vec (n * m))) d (fst (ps N)) (snd (ps N))) in Q. lra. }
      refine (fixed_pair n k m d _ _ _ _ a b Vf Vg _ _ P1 P2); apply Rdiv_lt_0_compat; try lra; apply Rmult_lt_0_compat; lra.
Qed.

(*! C99_better_runs : any f >= 0 and g >= 0 with correct proximal operators (or none), gammaf, gammag >= 1, a start that is better than the zero product (f(x0) + g(y0) + 1/2 |d - x0 y0|^2 < |d|^2/2), any sizes and iteration count: PALM always returns, the objective decreases by at least the stated multiple of the squared moves, and |XY| stays at least |d| - sqrt(2 J(x0, y0)); if moreover gammaf, gammag > 1 and f, g are convex and closed, every limit point of the iterates is a pair where neither factor can be improved alone *)
Lemma C99_better_runs_l : forall H n k m (X : Vec (n * k)) (Y0 : Vec (k * m)) (d : Vec (n * m)) f g proxf proxg x0 gf gg beta nb,
  lr_holds H X Y0 d (id_linop _) -> lr_op H = None -> opt_impl (option_map on_x proxf) f -> opt_impl proxg g -> 1 <= gf -> 1 <= gg ->
  (forall x, edom f x -> 0 <= eval f x) -> (forall y, edom g y -> 0 <= eval g y) -> edom f x0 -> edom g Y0 -> eval f x0 + eval g Y0 + misfit n k m d x0 Y0 < norm2 d / 2 ->
  let J := fun p : Prod_IPS (Vec (n * k)) (Vec (k * m)) => eval f (fst p) + eval g (snd p) + misfit n k m d (fst p) (snd p) in
  exists ps : nat -> Prod_IPS (Vec (n * k)) (Vec (k * m)), ps 0%nat = (x0, Y0) /\
    (forall N, PALM (lr_bilin H n k m) X Y0 proxf proxg x0 Y0 (Some gf) (Some gg) beta N nb = Ok (fst (ps N), snd (ps N), map ps (seq 1 N))) /\
    (forall N, edom f (fst (ps N)) /\ edom g (snd (ps N)) /\ norm d - sqrt (2 * J (ps 0%nat)) <= norm (mm n k m (fst (ps N)) (snd (ps N))) /\
       J (ps (S N)) + (gf - 1) * norm2 (snd (ps N)) / (2 * INR k) * norm2 (fst (ps (S N)) [-] fst (ps N)) +
         (gg - 1) * norm2 (fst (ps (S N))) / (2 * INR k) * norm2 (snd (ps (S N)) [-] snd (ps N)) <= J (ps N)) /\
    (1 < gf -> 1 < gg -> convex f -> convex g -> closed f -> closed g -> forall a b, cluster ps ((a, b) : Prod_IPS _ _) -> best_pair n k m d f g a b).
Proof.
  intros H n k m X Y0 d f g proxf proxg x0 gf gg beta nb HH Ho Hf Hg Gf Gg Nf Ng D1 D2 HJ J.
  destruct (better_runs H n k m X Y0 d f g proxf proxg x0 gf gg beta nb HH Ho Hf Hg Gf Gg Nf Ng D1 D2 HJ) as (ps & E0 & Er & Hs & Hc). exists ps. split; [exact E0|]. split; [exact Er|]. split; [|exact Hc].
  intro N. destruct (Hs N) as (A1 & A2 & _ & A3 & A4). split; [exact A1|]. split; [exact A2|]. split; [exact A3|exact A4].
Qed.

Lemma exists_small (a : nat -> R) B N : (0 < N)%nat -> RS N a <= B -> exists j, (j < N)%nat /\ a j <= B / INR N.
Proof.
  intros HN HB. assert (HI : 0 < INR N) by (apply lt_0_INR; exact HN).
  assert (D : (exists j, (j < N)%nat /\ a j <= B / INR N) \/ forall j, (j < N)%nat -> B / INR N < a j).
  { clear HN HB HI. generalize N at 1 3. intro M. induction M as [|M [(j & Hj & Ha)|IH]]; [right; intros; lia|left; exists j; split; [lia|exact Ha]|]. destruct (Rle_dec (a M) (B / INR N)) as [Hl|Hl]; [left; exists M; split; [lia|exact Hl]|right].
    intros j Hj. destruct (Nat.eq_dec j M) as [->|Hne]; [lra|apply IH; lia]. }
  destruct D as [D|D]; [exact D|]. exfalso. destruct N as [|N]; [lia|]. assert (G : RS N (fun _ => B / INR (S N)) <= RS N a) by (apply RS_le; intros j Hj; left; apply D; lia). rewrite RS_const in G. cbn [RS] in HB. pose proof (D N (Nat.lt_succ_diag_r N)) as D'.
  assert (E1 : INR (S N) * (B / INR (S N)) = B) by (field; lra). rewrite S_INR in E1 at 1. lra.
Qed.

(*! C99_rate : under the hypotheses of C99_better_runs with gammaf, gammag > 1, if moreover the pairs that are no worse than the start have factors of norm at most R (for example because the boxes are bounded): among the first N iterations there is one with squared moves |dx|^2 + |dy|^2 <= 2 k J(x0,y0) R^2 / ((min(gammaf, gammag) - 1) c^2 N), c = |d| - sqrt(2 J(x0,y0)), and for convex and closed f, g the iterates approach the set of pairs where neither factor can be improved alone *)
Lemma C99_rate_l : forall H n k m (X : Vec (n * k)) (Y0 : Vec (k * m)) (d : Vec (n * m)) f g proxf proxg x0 gf gg beta nb Rm,
  lr_holds H X Y0 d (id_linop _) -> lr_op H = None -> opt_impl (option_map on_x proxf) f -> opt_impl proxg g -> 1 < gf -> 1 < gg ->
  (forall x, edom f x -> 0 <= eval f x) -> (forall y, edom g y -> 0 <= eval g y) -> edom f x0 -> edom g Y0 -> eval f x0 + eval g Y0 + misfit n k m d x0 Y0 < norm2 d / 2 ->
  let J := fun p : Prod_IPS (Vec (n * k)) (Vec (k * m)) => eval f (fst p) + eval g (snd p) + misfit n k m d (fst p) (snd p) in
  (forall p, edom f (fst p) -> edom g (snd p) -> J p <= J (x0, Y0) -> norm (fst p) <= Rm /\ norm (snd p) <= Rm) ->
  let c := norm d - sqrt (2 * J (x0, Y0)) in
  exists ps : nat -> Prod_IPS (Vec (n * k)) (Vec (k * m)), ps 0%nat = (x0, Y0) /\ 0 < c /\
    (forall N, PALM (lr_bilin H n k m) X Y0 proxf proxg x0 Y0 (Some gf) (Some gg) beta N nb = Ok (fst (ps N), snd (ps N), map ps (seq 1 N))) /\
    (forall N, (0 < N)%nat -> exists j, (j < N)%nat /\ norm2 (fst (ps (S j)) [-] fst (ps j)) + norm2 (snd (ps (S j)) [-] snd (ps j)) <= 2 * INR k * J (x0, Y0) * (Rm * Rm) / ((Rmin gf gg - 1) * (c * c) * INR N)) /\
    (convex f -> convex g -> closed f -> closed g -> approaches (fun p : Prod_IPS (Vec (n * k)) (Vec (k * m)) => best_pair n k m d f g (fst p) (snd p)) ps).
Proof.
  intros H n k m X Y0 d f g proxf proxg x0 gf gg beta nb Rm HH Ho Hf Hg Gf Gg Nf Ng D1 D2 HJ J HR c.
  destruct (better_runs H n k m X Y0 d f g proxf proxg x0 gf gg beta nb HH Ho Hf Hg ltac:(lra) ltac:(lra) Nf Ng D1 D2 HJ) as (ps & E0 & Er & Hs & Hcl). fold J in Hs. rewrite E0 in Hs.
  assert (JN : forall p, edom f (fst p) -> edom g (snd p) -> 0 <= J p). { intros p A1 A2. unfold J, misfit. pose proof (Nf _ A1). pose proof (Ng _ A2). pose proof (norm2_nonneg (d [-] mm n k m (fst p) (snd p))). lra. }
  assert (Hc : 0 < c) by (apply slack_pos; [apply JN; assumption|exact HJ]). fold c in Hs.
  assert (HB : forall N, norm (fst (ps N)) <= Rm /\ norm (snd (ps N)) <= Rm) by (intro N; destruct (Hs N) as (A1 & A2 & A3 & _); apply HR; assumption).
  assert (HRm : 0 < Rm). { destruct (Hs 0%nat) as (A1 & A2 & _ & A4 & _). destruct (factors_pos _ _ _ _ _ _ Hc A4) as [Nx _]. destruct (HB 0%nat) as [B1 _]. pose proof (norm2_pos _ Nx) as P. rewrite <- norm_sq in P. pose proof (norm_nonneg (fst (ps 0%nat))). nra. }
  assert (HL : forall N, c * c <= Rm * Rm * norm2 (fst (ps N)) /\ c * c <= Rm * Rm * norm2 (snd (ps N))).
  { intro N. destruct (Hs N) as (_ & _ & _ & A4 & _). destruct (HB N) as [B1 B2]. pose proof (mm_norm n k m (fst (ps N)) (snd (ps N))) as Mm. rewrite <- !norm_sq. set (a := norm (fst (ps N))) in *. set (b := norm (snd (ps N))) in *.
    assert (0 <= a) by apply norm_nonneg. assert (0 <= b) by apply norm_nonneg. assert (c <= a * b) by exact (Rle_trans _ _ _ A4 Mm). assert (a * b <= a * Rm) by (apply Rmult_le_compat_l; auto). assert (a * b <= Rm * b) by (apply Rmult_le_compat_r; auto). split.
    - replace (Rm * Rm * (a * a)) with ((a * Rm) * (a * Rm)) by ring. apply Rmult_le_compat; lra.
    - replace (Rm * Rm * (b * b)) with ((Rm * b) * (Rm * b)) by ring. apply Rmult_le_compat; lra. }
  assert (Hk : 0 < INR k). { destruct (Hs 0%nat) as (_ & _ & _ & A4 & _). destruct (factors_pos _ _ _ _ _ _ Hc A4) as [_ Ny]. exact (k_pos k m _ Ny). }
  set (mu := Rmin gf gg - 1). assert (Hmu : 0 < mu) by (unfold mu; apply Rmin_case; lra). assert (M1 : mu <= gf - 1) by (unfold mu; pose proof (Rmin_l gf gg); lra). assert (M2 : mu <= gg - 1) by (unfold mu; pose proof (Rmin_r gf gg); lra).
  set (w := mu * (c * c) / (2 * INR k * (Rm * Rm))). assert (HR2 : 0 < Rm * Rm) by (apply Rmult_lt_0_compat; lra). assert (Hcc : 0 < c * c) by (apply Rmult_lt_0_compat; lra).
  assert (Hw : 0 < w) by (unfold w; apply Rdiv_lt_0_compat; [apply Rmult_lt_0_compat; lra|apply Rmult_lt_0_compat; lra]).
  assert (WG : forall gm s, mu <= gm -> c * c <= Rm * Rm * s -> w <= gm * s / (2 * INR k)).
  { intros gm s Q1 Q2. unfold w. apply Rmult_le_reg_r with (2 * INR k * (Rm * Rm)); [apply Rmult_lt_0_compat; lra|]. replace (mu * (c * c) / (2 * INR k * (Rm * Rm)) * (2 * INR k * (Rm * Rm))) with (mu * (c * c)) by (field; split; lra).
    replace (gm * s / (2 * INR k) * (2 * INR k * (Rm * Rm))) with (gm * (Rm * Rm * s)) by (field; lra). apply Rmult_le_compat; lra. }
  assert (DS : forall N, J (ps (S N)) + w * (norm2 (fst (ps (S N)) [-] fst (ps N)) + norm2 (snd (ps (S N)) [-] snd (ps N))) <= J (ps N)).
  { intro N. destruct (Hs N) as (_ & _ & _ & _ & B). pose proof (norm2_nonneg (fst (ps (S N)) [-] fst (ps N))) as Q1. pose proof (norm2_nonneg (snd (ps (S N)) [-] snd (ps N))) as Q2.
    pose proof (Rmult_le_compat_r _ _ _ Q1 (WG (gf - 1) (norm2 (snd (ps N))) M1 (proj2 (HL N)))). pose proof (Rmult_le_compat_r _ _ _ Q2 (WG (gg - 1) (norm2 (fst (ps (S N)))) M2 (proj1 (HL (S N))))). rewrite Rmult_plus_distr_l. eapply Rle_trans; [|exact B]. unfold J. lra. }
  exists ps. split; [exact E0|]. split; [exact Hc|]. split; [exact Er|]. split.
  - intros N HN. set (a := fun N => norm2 (fst (ps (S N)) [-] fst (ps N)) + norm2 (snd (ps (S N)) [-] snd (ps N))).
    assert (HSum : forall M, J (ps M) + w * RS M a <= J (x0, Y0)). { induction M as [|M IH]; [cbn [RS]; rewrite E0; lra|]. cbn [RS]. specialize (DS M). fold (a M) in DS. lra. }
    assert (HS2 : RS N a <= J (x0, Y0) / w). { apply Rmult_le_reg_l with w; [exact Hw|]. replace (w * (J (x0, Y0) / w)) with (J (x0, Y0)) by (field; lra). specialize (HSum N). destruct (Hs N) as (A1 & A2 & _). pose proof (JN _ A1 A2). lra. }
    destruct (exists_small a _ N HN HS2) as (j & Hj & Ha). exists j. split; [exact Hj|]. eapply Rle_trans; [exact Ha|]. right. unfold w. pose proof (lt_0_INR N HN). field. repeat split; lra.
  - intros Vf Vg Cf Cg. apply (approach_cluster (fun p : Prod_IPS (Vec (n * k)) (Vec (k * m)) => best_pair n k m d f g (fst p) (snd p)) ps (Rm + Rm)).
    + apply (proj1 (proj2 (proj2 (proj2 C75_arrays_l)))); apply bw_vec.
    + intro N. destruct (HB N) as [B1 B2]. apply norm_le_of_sq; [lra|]. change (norm2 (ps N)) with (norm2 (fst (ps N)) + norm2 (snd (ps N))). rewrite <- !norm_sq. pose proof (norm_nonneg (fst (ps N))). pose proof (norm_nonneg (snd (ps N))). nra.
    + intros l Hl. rewrite (prod_eta l) in Hl. exact (Hcl Gf Gg Vf Vg Cf Cg _ _ Hl).
Qed.

(** ** Entrywise optimality *)
Lemma box_ls {n} {F : IPS} (B : linop (Vec n) F) d (lu : nlist bounds n) x : is_min (eadd (indic (box_set lu)) (etot (fun u => norm2 (d [-] B u) / 2))) x <-> is_min (bounded_ls B d 1 lu) x.
Proof.
  assert (D : forall u, edom (eadd (indic (box_set lu)) (etot (fun u => norm2 (d [-] B u) / 2))) u <-> edom (bounded_ls B d 1 lu) u) by (intro u; cbn [edom eadd indic etot bounded_ls]; rewrite box_entries; unfold within, lower_of, upper_of; tauto).
  assert (V : forall u, eval (eadd (indic (box_set lu)) (etot (fun u => norm2 (d [-] B u) / 2))) u = eval (bounded_ls B d 1 lu) u) by (intro u; cbn [eval eadd indic etot bounded_ls]; rewrite (norm2_sub_sym d); field).
  split; intros [H1 H2]; (split; [apply D, H1|]); intros u Hu; [rewrite <- !V|rewrite !V]; apply H2, D, Hu.
Qed.
Lemma slopex_entry n k m (d : Vec (n * m)) x y i l : (i < n)%nat -> (l < k)%nat -> get (mYt n k m (d [-] mm n k m x y) y) (i * k + l) = - slopex n k m d x y i l.
Proof. intros Hi Hl. rewrite get_mYt by auto. unfold slopex. rewrite <- RS_opp. apply RS_ext. intros j Hj. rewrite get_sub by (apply idx_lt; auto). ring. Qed.
Lemma slopey_entry n k m (d : Vec (n * m)) x y l j : (l < k)%nat -> (j < m)%nat -> get (mXt n k m x (d [-] mm n k m x y)) (l * m + j) = - slopey n k m d x y l j.
Proof. intros Hl Hj. rewrite get_mXt by auto. unfold slopey. rewrite <- RS_opp. apply RS_ext. intros i Hi. rewrite get_sub by (apply idx_lt; auto). ring. Qed.
Lemma idx_split a b p : (p < a * b)%nat -> exists i j, (i < a)%nat /\ (j < b)%nat /\ p = (i * b + j)%nat.
Proof.
  intro Hp. assert (Hb : b <> 0%nat) by (intro; subst; rewrite Nat.mul_0_r in Hp; lia). exists (p / b)%nat, (p mod b)%nat. split; [apply Nat.div_lt_upper_bound; lia|]. split; [apply Nat.mod_upper_bound; auto|]. pose proof (Nat.div_mod p b Hb). lia.
Qed.

(*! C99_kkt : Box objects with any bounds for both factors: a pair is one where neither factor can be improved alone if and only if both factors are in their boxes and, at every entry, the derivative of 1/2 |d - XY|^2 is negative only at the upper bound and positive only at the lower bound *)
Lemma C99_kkt_l : forall n k m (d : Vec (n * m)) (lu : nlist bounds (n * k)) (lv : nlist bounds (k * m)) x y,
  best_pair n k m d (indic (box_set lu)) (indic (box_set lv)) x y <-> box_set lu x /\ box_set lv y /\
    (forall i l, (i < n)%nat -> (l < k)%nat -> (slopex n k m d x y i l < 0 -> upper_of lu (i * k + l) = Some (get x (i * k + l))) /\ (0 < slopex n k m d x y i l -> lower_of lu (i * k + l) = Some (get x (i * k + l)))) /\
    (forall l j, (l < k)%nat -> (j < m)%nat -> (slopey n k m d x y l j < 0 -> upper_of lv (l * m + j) = Some (get y (l * m + j))) /\ (0 < slopey n k m d x y l j -> lower_of lv (l * m + j) = Some (get y (l * m + j)))).
Proof.
  intros n k m d lu lv x y. unfold best_pair, misfit.
  pose proof (box_ls (mulY n k m y) d lu x) as B1. pose proof (box_ls (mulX n k m x) d lv y) as B2. cbn [mulY mulX lapp] in B1, B2.
  rewrite B1, B2. rewrite !C92_box_optimality_l by lra. cbn [mulY mulX lapp ladj].
  assert (D1 : edom (bounded_ls (mulY n k m y) d 1 lu) x <-> box_set lu x) by (cbn [edom bounded_ls]; rewrite box_entries; reflexivity). assert (D2 : edom (bounded_ls (mulX n k m x) d 1 lv) y <-> box_set lv y) by (cbn [edom bounded_ls]; rewrite box_entries; reflexivity).
  unfold mulY, mulX in D1, D2. rewrite D1, D2. split.
  - intros ((A1 & A2) & (A3 & A4)). split; [exact A1|]. split; [exact A3|]. split.
    + intros i l Hi Hl. specialize (A2 (i * k + l)%nat (idx_lt _ _ _ _ Hi Hl)). cbv zeta in A2. rewrite slopex_entry in A2 by auto. destruct A2 as [Q1 Q2]. split; intro Hs; [apply Q1|apply Q2]; lra.
    + intros l j Hl Hj. specialize (A4 (l * m + j)%nat (idx_lt _ _ _ _ Hl Hj)). cbv zeta in A4. rewrite slopey_entry in A4 by auto. destruct A4 as [Q1 Q2]. split; intro Hs; [apply Q1|apply Q2]; lra.
  - intros (A1 & A3 & A2 & A4). split; (split; [assumption|]).
    + intros p Hp. destruct (idx_split _ _ _ Hp) as (i & l & Hi & Hl & ->). cbv zeta. rewrite slopex_entry by auto. destruct (A2 i l Hi Hl) as [Q1 Q2]. split; intro Hs; [apply Q1|apply Q2]; lra.
    + intros p Hp. destruct (idx_split _ _ _ Hp) as (l & j & Hl & Hj & ->). cbv zeta. rewrite slopey_entry by auto. destruct (A4 l j Hl Hj) as [Q1 Q2]. split; intro Hs; [apply Q1|apply Q2]; lra.
Qed.

Lemma only_zero_nth n (lu : nlist bounds n) i : only_zero lu -> (i < n)%nat -> nth i (proj1_sig lu) (None, None) = (Some 0, None).
Proof. intros H Hi. unfold only_zero in H. rewrite Forall_forall in H. apply H. apply nth_In. rewrite (proj2_sig lu). exact Hi. Qed.
Lemma only_zero_box n (lu : nlist bounds n) (x : Vec n) : only_zero lu -> (box_set lu x <-> nonneg_entries x).
Proof.
  intro H. rewrite box_entries. split; intros Hx i Hi; specialize (Hx i Hi); rewrite (only_zero_nth _ _ _ H Hi) in *; [exact (proj1 Hx 0 eq_refl)|]. split; intros c Hc; cbn [fst snd] in Hc; [injection Hc as <-; exact Hx|discriminate].
Qed.
Lemma slope_zero (a s : R) (u l : option R) : u = None -> l = Some 0 -> ((s < 0 -> u = Some a) /\ (0 < s -> l = Some a)) <-> 0 <= s /\ a * s = 0.
Proof.
  intros -> ->. split.
  - intros [H1 H2]. assert (0 <= s) by (apply Rnot_lt_le; intro Hs; specialize (H1 Hs); discriminate). split; [assumption|]. destruct (Req_dec s 0) as [->|Hs]; [ring|]. assert (Hp : 0 < s) by lra. specialize (H2 Hp). injection H2 as <-. ring.
  - intros [H1 H2]. split; intro Hs; [lra|]. f_equal. symmetry. apply Rmult_integral in H2. destruct H2; [assumption|lra].
Qed.

(*! C99_kkt_nonneg : Box(lower=0) for both factors: a pair is one where neither factor can be improved alone if and only if all entries of both factors are non-negative, all derivatives of 1/2 |d - XY|^2 are non-negative, and at every entry the entry or its derivative is zero *)
Lemma C99_kkt_nonneg_l : forall n k m (d : Vec (n * m)) (lu : nlist bounds (n * k)) (lv : nlist bounds (k * m)) x y, only_zero lu -> only_zero lv ->
  (best_pair n k m d (indic (box_set lu)) (indic (box_set lv)) x y <-> nonneg_entries x /\ nonneg_entries y /\
    (forall i l, (i < n)%nat -> (l < k)%nat -> 0 <= slopex n k m d x y i l /\ get x (i * k + l) * slopex n k m d x y i l = 0) /\
    (forall l j, (l < k)%nat -> (j < m)%nat -> 0 <= slopey n k m d x y l j /\ get y (l * m + j) * slopey n k m d x y l j = 0)).
Proof.
  intros n k m d lu lv x y Zu Zv. rewrite C99_kkt_l, (only_zero_box _ _ _ Zu), (only_zero_box _ _ _ Zv).
  assert (U : forall i l, (i < n)%nat -> (l < k)%nat -> upper_of lu (i * k + l) = None /\ lower_of lu (i * k + l) = Some 0) by (intros i l Hi Hl; unfold upper_of, lower_of; rewrite (only_zero_nth _ _ _ Zu (idx_lt _ _ _ _ Hi Hl)); auto).
  assert (V : forall l j, (l < k)%nat -> (j < m)%nat -> upper_of lv (l * m + j) = None /\ lower_of lv (l * m + j) = Some 0) by (intros l j Hl Hj; unfold upper_of, lower_of; rewrite (only_zero_nth _ _ _ Zv (idx_lt _ _ _ _ Hl Hj)); auto).
  split; intros (A1 & A2 & A3 & A4); (split; [exact A1|]); (split; [exact A2|]); split; intros p q Hp Hq.
  - destruct (U p q Hp Hq) as [U1 U2]. exact (proj1 (slope_zero _ _ _ _ U1 U2) (A3 p q Hp Hq)).
  - destruct (V p q Hp Hq) as [U1 U2]. exact (proj1 (slope_zero _ _ _ _ U1 U2) (A4 p q Hp Hq)).
  - destruct (U p q Hp Hq) as [U1 U2]. exact (proj2 (slope_zero _ _ _ _ U1 U2) (A3 p q Hp Hq)).
  - destruct (V p q Hp Hq) as [U1 U2]. exact (proj2 (slope_zero _ _ _ _ U1 U2) (A4 p q Hp Hq)).
Qed.

(** ** Counterexamples *)
Definition zb (n : nat) : nlist bounds n := exist _ (repeat (Some 0, None) n) (repeat_length _ n).
Lemma zb_zero n : only_zero (zb n).
Proof. unfold only_zero, zb. cbn [proj1_sig]. apply Forall_forall. intros b Hb. exact (repeat_spec _ _ _ Hb). Qed.
Lemma only_from n (lu : nlist bounds n) : only_zero lu -> from_zero lu.
Proof. unfold only_zero, from_zero. rewrite !Forall_forall. intros H b Hb. rewrite (H b Hb). split; [reflexivity|]. intros l u E1. discriminate. Qed.
Definition v1 (a : R) : Vec (1 * 1) := exist _ [a] eq_refl.
Definition lr1 (d x y : R) : LR := mkLR 1 1 1 [x] [y] [d] None.
Lemma lr1_holds d x y : lr_holds (lr1 d x y) (v1 x) (v1 y) (v1 d) (id_linop (Vec (1 * 1))).
Proof. unfold lr_holds, lr1, op_spec. simpl. repeat split; auto. Qed.
Lemma v1_eq a b : a = b -> v1 a = v1 b. Proof. intros ->. reflexivity. Qed.
Lemma frobX1 a : frob 1 (gramX 1 1 (v1 a)) = a * a.
Proof. unfold frob, gramX, RS, get, lst. cbn -[Rplus Rmult sqrt]. replace (0 + (0 + (0 + a * a) * (0 + a * a))) with ((a * a) * (a * a)) by ring. apply sqrt_square. nra. Qed.
Lemma frobY1 a : frob 1 (gramY 1 1 (v1 a)) = a * a.
Proof. unfold frob, gramY, RS, get, lst. cbn -[Rplus Rmult sqrt]. replace (0 + (0 + (0 + a * a) * (0 + a * a))) with ((a * a) * (a * a)) by ring. apply sqrt_square. nra. Qed.
Lemma gX1 d x y : vopp (mYt 1 1 1 (v1 d [-] mm 1 1 1 (v1 x) (v1 y)) (v1 y)) = v1 ((x * y - d) * y).
Proof. apply lst_inj. unfold mYt, mm, vtab, get, lst. cbn -[Rplus Rmult Ropp Rminus]. f_equal. ring. Qed.
Lemma gY1 d x y : vopp (mXt 1 1 1 (v1 x) (v1 d [-] mm 1 1 1 (v1 x) (v1 y))) = v1 ((x * y - d) * x).
Proof. apply lst_inj. unfold mXt, mm, vtab, get, lst. cbn -[Rplus Rmult Ropp Rminus]. f_equal. ring. Qed.
Lemma box1 t a : 0 < t -> o_prox (obj 2 (box_body (zb (1 * 1)))) (v1 a) t = Ok (v1 (Rmax a 0)).
Proof. intro Ht. unfold obj, o_prox. cbn [d_prox b_prox box_body]. rewrite check_tau_pos by exact Ht. f_equal. apply nlist_eq. reflexivity. Qed.
Lemma axpy1 z c g : v1 z [-] c [*] v1 g = v1 (z - c * g).
Proof. apply lst_inj. unfold lst. cbn -[Rplus Rmult Ropp Rminus]. f_equal. ring. Qed.
Lemma extr1 x a o : v1 x [+] a [*] (v1 x [-] v1 o) = v1 (x + a * (x - o)).
Proof. apply lst_inj. unfold lst. cbn -[Rplus Rmult Ropp Rminus]. f_equal. ring. Qed.
Definition b1 : Op (Vec (1 * 1)) := obj 2 (box_body (zb (1 * 1))).
Lemma fix1 d X Y z y gm : y <> 0 -> 0 < gm -> palm_fixed (h_ly (lr_bilin (lr1 d X Y) 1 1 1) (v1 y)) (h_gradx (lr_bilin (lr1 d X Y) 1 1 1) (v1 y)) (Some b1) gm (v1 z) = Ok (v1 (Rmax (z - 1 / (gm * (y * y)) * ((z * y - d) * y)) 0)).
Proof.
  intros Hy Hg. destruct (lr_bilin_spec _ 1 1 1 _ _ _ (lr1_holds d X Y) eq_refl) as [_ Hgx _ _ Hly _ _]. unfold palm_fixed. rewrite (proj1 (Hly (v1 y))). cbn [bind]. rewrite frobY1.
  assert (Hyy : 0 < y * y) by (apply Rsqr_pos_lt in Hy; exact Hy). assert (Hc : 0 < gm * (y * y)) by (apply Rmult_lt_0_compat; auto). rewrite pydiv_ok by lra. cbn [bind]. rewrite Hgx. cbn [bind opt_prox]. rewrite gX1, axpy1. apply box1. apply Rdiv_lt_0_compat; lra.
Qed.
Lemma fix1y d X Y x z gm : x <> 0 -> 0 < gm -> palm_fixed (h_lx (lr_bilin (lr1 d X Y) 1 1 1) (v1 x)) (h_grady (lr_bilin (lr1 d X Y) 1 1 1) (v1 x)) (Some b1) gm (v1 z) = Ok (v1 (Rmax (z - 1 / (gm * (x * x)) * ((x * z - d) * x)) 0)).
Proof.
  intros Hx Hg. destruct (lr_bilin_spec _ 1 1 1 _ _ _ (lr1_holds d X Y) eq_refl) as [_ _ Hgy Hlx _ _ _]. unfold palm_fixed. rewrite (proj1 (Hlx (v1 x))). cbn [bind]. rewrite frobX1.
  assert (Hyy : 0 < x * x) by (apply Rsqr_pos_lt in Hx; exact Hx). assert (Hc : 0 < gm * (x * x)) by (apply Rmult_lt_0_compat; auto). rewrite pydiv_ok by lra. cbn [bind]. rewrite Hgy. cbn [bind opt_prox]. rewrite gY1, axpy1. apply box1. apply Rdiv_lt_0_compat; lra.
Qed.
Lemma fix1y_zero d X Y z gm : palm_fixed (h_lx (lr_bilin (lr1 d X Y) 1 1 1) (v1 0)) (h_grady (lr_bilin (lr1 d X Y) 1 1 1) (v1 0)) (Some b1) gm z = Err ZeroDivisionError.
Proof.
  destruct (lr_bilin_spec _ 1 1 1 _ _ _ (lr1_holds d X Y) eq_refl) as [_ _ _ Hlx _ _ _]. unfold palm_fixed. rewrite (proj1 (Hlx (v1 0))). cbn [bind]. rewrite frobX1. unfold pydiv.
  destruct (Reqb_spec (gm * (0 * 0)) 0) as [[_ ->]|[Hn _]]; [reflexivity|exfalso; apply Hn; ring].
Qed.
Lemma v1_nz a : a <> 0 -> v1 a <> vzero.
Proof. intros Ha E0. apply (f_equal (fun v => get v 0)) in E0. rewrite get_zero in E0 by (cbn; lia). exact (Ha E0). Qed.
Lemma v1_nonneg a : 0 <= a -> nonneg_entries (v1 a).
Proof. intros Ha [|i] Hi; [exact Ha|cbn in Hi; lia]. Qed.

(*! C99_negative_refuted : without the sign condition on the data PALM can fail: one negative datum d = -1, Box(lower=0) for both factors, start x0 = y0 = 1, gammaf = gammag = 2: the first x step gives 0 and PALM raises ZeroDivisionError for every iteration count >= 1 *)
Lemma C99_negative_refuted_l : forall bx (bg : Op (Vec (1 * 1))) beta N nb, is_box bx (zb (1 * 1)) -> is_box bg (zb (1 * 1)) -> (1 <= N)%nat ->
  PALM (lr_bilin (lr1 (-1) 1 1) 1 1 1) (v1 1) (v1 1) (Some (mkOp2 bx bg)) (Some bg) (v1 1) (v1 1) (Some 2) (Some 2) beta N nb = Err ZeroDivisionError.
Proof.
  intros bx bg beta N nb -> -> HN. destruct N as [|N]; [lia|]. unfold PALM. cbn [for_loop]. unfold palm_body at 1. cbn [ps_x ps_y ps_hy ps_tauf ps_taug option_map on_x is_none].
  change (obj 2 (box_body (zb (1 * 1)))) with b1. rewrite (fix1 (-1) 1 1 1 1 2) by lra. cbn [bind fst snd].
  replace (Rmax (1 - 1 / (2 * (1 * 1)) * ((1 * 1 - -1) * 1)) 0) with 0 by (rewrite Rmax_right; lra). rewrite fix1y_zero. reflexivity.
Qed.

(*! C99_gamma_one_refuted : gamma > 1 cannot be weakened to gamma = 1 in C99_nonneg_runs: zero data, Box(lower=0), start x0 = y0 = 1 and gammaf = 1 give x = 0 after one step and ZeroDivisionError *)
Lemma C99_gamma_one_refuted_l : forall bx (bg : Op (Vec (1 * 1))) gg beta N nb, is_box bx (zb (1 * 1)) -> is_box bg (zb (1 * 1)) -> (1 <= N)%nat ->
  PALM (lr_bilin (lr1 0 1 1) 1 1 1) (v1 1) (v1 1) (Some (mkOp2 bx bg)) (Some bg) (v1 1) (v1 1) (Some 1) (Some gg) beta N nb = Err ZeroDivisionError.
Proof.
  intros bx bg gg beta N nb -> -> HN. destruct N as [|N]; [lia|]. unfold PALM. cbn [for_loop]. unfold palm_body at 1. cbn [ps_x ps_y ps_hy ps_tauf ps_taug option_map on_x is_none].
  change (obj 2 (box_body (zb (1 * 1)))) with b1. rewrite (fix1 0 1 1 1 1 1) by lra. cbn [bind fst snd].
  replace (Rmax (1 - 1 / (1 * (1 * 1)) * ((1 * 1 - 0) * 1)) 0) with 0 by (rewrite Rmax_right; lra). rewrite fix1y_zero. reflexivity.
Qed.

Lemma istep1 d X Y x y hx xo yo tr x' y' beta nb i : y <> 0 -> x' <> 0 -> x' = Rmax (x + 4 / 5 * (x - xo) - 1 / (2 * (y * y)) * (((x + 4 / 5 * (x - xo)) * y - d) * y)) 0 ->
  y' = Rmax (y + 4 / 5 * (y - yo) - 1 / (2 * (x' * x')) * ((x' * (y + 4 / 5 * (y - yo)) - d) * x')) 0 ->
  ipalm_body (lr_bilin (lr1 d X Y) 1 1 1) (Some (mkOp2 b1 b1)) (Some b1) (Some 2) (Some 2) (4 / 5) (4 / 5) beta nb i (PS (v1 x) (v1 y) hx (v1 y) None None (v1 xo) (v1 yo) tr) =
    Ok (PS (v1 x') (v1 y') (v1 x') (v1 y') None None (v1 x) (v1 y) (tr ++ [(v1 x', v1 y')]), false).
Proof.
  intros Hy Hx E1 E2. unfold ipalm_body. cbn [ps_x ps_y ps_hy ps_xo ps_yo ps_tauf ps_taug ps_tr option_map on_x]. rewrite extr1, fix1 by lra. cbn [bind fst snd]. rewrite <- E1. rewrite extr1, fix1y by lra. cbn [bind fst snd]. rewrite <- E2. reflexivity.
Qed.

(*! C99_ipalm_refuted : the inertial variant does not share this: one positive datum d = 1, Box(lower=0), start x0 = y0 = 10, gammaf = gammag = 2 and a = [0.8, 0.8] as in the tutorial: PALM returns for every iteration count, iPALM raises ZeroDivisionError for every iteration count >= 3 *)
Lemma C99_ipalm_refuted_l : forall bx (bg : Op (Vec (1 * 1))) beta nb, is_box bx (zb (1 * 1)) -> is_box bg (zb (1 * 1)) ->
  (forall N, exists r, PALM (lr_bilin (lr1 1 10 10) 1 1 1) (v1 10) (v1 10) (Some (mkOp2 bx bg)) (Some bg) (v1 10) (v1 10) (Some 2) (Some 2) beta N nb = Ok r) /\
  forall N, (3 <= N)%nat -> iPALM (lr_bilin (lr1 1 10 10) 1 1 1) (v1 10) (v1 10) (Some (mkOp2 bx bg)) (Some bg) (v1 10) (v1 10) (Some 2) (Some 2) (4 / 5) (4 / 5) beta N nb = Err ZeroDivisionError.
Proof.
  intros bx bg beta nb Bx Bg. split.
  - intro N. destruct (C99_nonneg_runs_l (lr1 1 10 10) 1 1 1 (v1 10) (v1 10) (v1 1) (zb (1 * 1)) (zb (1 * 1)) (mkOp2 bx bg) bg (v1 10) 2 2 beta nb) as (ps & _ & Er & _);
      [apply lr1_holds|reflexivity|apply v1_nonneg; lra|apply only_from, zb_zero|apply only_from, zb_zero|exact Bx|exact Bg|lra|lra|apply (only_zero_box _ _ _ (zb_zero _)), v1_nonneg; lra|apply (only_zero_box _ _ _ (zb_zero _)), v1_nonneg; lra|apply v1_nz; lra|apply v1_nz; lra|].
    eexists. apply Er.
  - intros N HN. rewrite Bx, Bg. change (obj 2 (box_body (zb (1 * 1)))) with b1. destruct N as [|[|[|N]]]; try lia. unfold iPALM. cbn [for_loop is_none].
    rewrite (istep1 1 10 10 10 10 (v1 10) 10 10 [] (101 / 20) (515 / 101)); [|lra|lra|rewrite Rmax_left; lra|rewrite Rmax_left; lra]. cbn [bind fst snd].
    rewrite (istep1 1 10 10 (101 / 20) (515 / 101) _ 10 10 _ (13247 / 20600) (3656993 / 2675894)); [|lra|lra|rewrite Rmax_left; lra|rewrite Rmax_left; lra]. cbn [bind fst snd].
    unfold ipalm_body at 1. cbn [ps_x ps_y ps_hy ps_xo ps_yo ps_tauf ps_taug ps_tr option_map on_x]. rewrite extr1, fix1 by lra. cbn [bind fst snd].
    match goal with |- context [Rmax ?a 0] => replace (Rmax a 0) with 0 by (rewrite Rmax_right; lra) end. rewrite fix1y_zero. reflexivity.
Qed.

Definition gd : Vec (2 * 2) := exist _ [2; 0; 0; 1] eq_refl.
Definition gx0 : Vec (2 * 1) := exist _ [0; 1] eq_refl.
Definition gy0 : Vec (1 * 2) := exist _ [0; 1] eq_refl.
Definition gx1 : Vec (2 * 1) := exist _ [2; 0] eq_refl.
Definition gy1 : Vec (1 * 2) := exist _ [1; 0] eq_refl.
Definition glr : LR := mkLR 2 1 2 [0; 1] [0; 1] [2; 0; 0; 1] None.
Lemma glr_holds : lr_holds glr gx0 gy0 gd (id_linop (Vec (2 * 2))).
Proof. unfold lr_holds, glr, op_spec. simpl. repeat split; auto. Qed.
Lemma g_stuckX : vopp (mYt 2 1 2 (gd [-] mm 2 1 2 gx0 gy0) gy0) = vzero.
Proof. apply lst_inj. unfold mYt, mm, vtab, get, lst. cbn -[Rplus Rmult Ropp Rminus]. repeat f_equal; ring. Qed.
Lemma g_stuckY : vopp (mXt 2 1 2 gx0 (gd [-] mm 2 1 2 gx0 gy0)) = vzero.
Proof. apply lst_inj. unfold mXt, mm, vtab, get, lst. cbn -[Rplus Rmult Ropp Rminus]. repeat f_equal; ring. Qed.
Lemma gx0_nz : gx0 <> vzero. Proof. intro E0. apply (f_equal (fun v => get v 1)) in E0. rewrite get_zero in E0 by (cbn; lia). unfold get, lst in E0. cbn in E0. lra. Qed.
Lemma gy0_nz : gy0 <> vzero. Proof. intro E0. apply (f_equal (fun v => get v 1)) in E0. rewrite get_zero in E0 by (cbn; lia). unfold get, lst in E0. cbn in E0. lra. Qed.
Lemma nn2 (a b : R) e : 0 <= a -> 0 <= b -> nonneg_entries (exist _ [a; b] e : Vec 2).
Proof. intros Ha Hb [|[|i]] Hi; [exact Ha|exact Hb|lia]. Qed.
Lemma own_prox {E : IPS} (C : E -> Prop) t x p : convex (indic C) -> 0 < t -> C x -> is_prox (indic C) t (x [-] t [*] vzero) p -> p = x.
Proof.
  intros Cc Ht Cx Hp. apply (prox_unique (indic C) t (x [-] t [*] vzero) p x Cc Ht Hp). split; [exact Cx|]. intros u Hu. cbn [eval indic]. replace (x [-] (x [-] t [*] vzero)) with (vzero : E) by vring. rewrite norm2_zero.
  assert (0 <= / (2 * t) * norm2 (u [-] (x [-] t [*] vzero))); [|lra]. apply Rmult_le_pos; [left; apply Rinv_0_lt_compat; lra|apply norm2_nonneg].
Qed.

Lemma map_const {A} (ps : nat -> A) c N s : (forall j, ps j = c) -> map ps (seq s N) = repeat c N.
Proof. intro H. revert s. induction N as [|N IH]; intro s; [reflexivity|]. cbn [seq map repeat]. rewrite H, IH. reflexivity. Qed.

(*! C99_global_refuted : a pair where neither factor can be improved alone need not be a best factorisation, and PALM can stay there: d = diag(2, 1), rank 1, Box(lower=0), start x0 = (0, 1), y0 = (0, 1): for every gammaf, gammag >= 1 and iteration count PALM returns the start, with misfit 2, although the non-negative factors (2, 0), (1, 0) have misfit 1/2 *)
Lemma C99_global_refuted_l : forall bx (bo : Op (Vec (1 * 2))) (bg : Op (Vec (1 * 2))) gf gg beta nb, is_box bx (zb (2 * 1)) -> is_box bg (zb (1 * 2)) -> 1 <= gf -> 1 <= gg ->
  (forall N, PALM (lr_bilin glr 2 1 2) gx0 gy0 (Some (mkOp2 bx bo)) (Some bg) gx0 gy0 (Some gf) (Some gg) beta N nb = Ok (gx0, gy0, repeat (gx0, gy0) N)) /\
  misfit 2 1 2 gd gx0 gy0 = 2 /\ nonneg_entries gx1 /\ nonneg_entries gy1 /\ misfit 2 1 2 gd gx1 gy1 = 1 / 2.
Proof.
  intros bx bo bg gf gg beta nb Bx Bg Gf Gg. split; [|split; [|split; [|split]]].
  - pose proof (lr_bilin_spec glr 2 1 2 gx0 gy0 gd glr_holds eq_refl) as HS. destruct (box_facts _ _ _ Bx (from_zero_ok _ _ (only_from _ _ (zb_zero _)))) as [If _]. destruct (box_facts _ _ _ Bg (from_zero_ok _ _ (only_from _ _ (zb_zero _)))) as [Ig _].
    pose proof (frobX_pos 2 1 gx0 gx0_nz) as Lx. pose proof (frobY_pos 1 2 gy0 gy0_nz) as Ly.
    assert (Bx0 : box_set (zb (2 * 1)) gx0) by (apply (only_zero_box _ _ _ (zb_zero _)), nn2; lra). assert (By0 : box_set (zb (1 * 2)) gy0) by (apply (only_zero_box _ _ _ (zb_zero _)), nn2; lra).
    assert (SX : forall x', xstep (fun x y => vopp (mYt 2 1 2 (gd [-] mm 2 1 2 x y) y)) (fun y => frob 1 (gramY 1 2 y)) (indic (box_set (zb (2 * 1)))) gf gx0 gy0 x' -> x' = gx0).
    { intros x' S1. unfold xstep in S1. rewrite g_stuckX in S1. refine (own_prox _ _ _ _ (box_convex _ _) _ Bx0 S1). apply Rdiv_lt_0_compat; [lra|apply Rmult_lt_0_compat; lra]. }
    destruct (palm_run (lr_bilin glr 2 1 2) _ _ _ _ _ HS (indic (box_set (zb (2 * 1)))) (indic (box_set (zb (1 * 2)))) (Some (mkOp2 bx bo)) (Some bg) If Ig gf gg Gf Gg (fun x y => x = gx0 /\ y = gy0) gx0 gx0 gy0 beta nb) as (ps & E0 & Er & Hs).
    + intros x y [-> ->]. split; [exact Bx0|]. split; [exact By0|exact Ly].
    + intros x y x' [-> ->] S1. rewrite (SX x' S1). exact Lx.
    + intros x y x' y' [-> ->] S1 S2. rewrite (SX x' S1) in *. split; [reflexivity|]. unfold ystep in S2. rewrite g_stuckY in S2. refine (own_prox _ _ _ _ (box_convex _ _) _ By0 S2). apply Rdiv_lt_0_compat; [lra|apply Rmult_lt_0_compat; lra].
    + auto.
    + assert (Hps : forall j, ps j = (gx0, gy0)) by (intro j; rewrite (prod_eta (ps j)); destruct (Hs j) as [[-> ->] _]; reflexivity). intro N. rewrite Er, (Hps N). cbn [fst snd]. do 2 f_equal. exact (map_const ps _ N 1 Hps).
  - unfold misfit. unfold norm2; rewrite vec_inner. unfold mm, vtab, get, lst. cbn -[Rplus Rmult Ropp Rminus Rdiv]. lra.
  - apply nn2; lra.
  - apply nn2; lra.
  - unfold misfit. unfold norm2; rewrite vec_inner. unfold mm, vtab, get, lst. cbn -[Rplus Rmult Ropp Rminus Rdiv]. lra.
Qed.

(** ** The hypotheses can be met *)
Definition ub (n : nat) : nlist bounds n := exist _ (repeat (Some 0, Some 3) n) (repeat_length _ n).
Definition ed : Vec (2 * 2) := exist _ [2; 1; 1; 1] eq_refl.
Definition ex1 : Vec (2 * 1) := exist _ [1; 1] eq_refl.
Definition ey1 : Vec (1 * 2) := exist _ [1; 1] eq_refl.
Definition elr : LR := mkLR 2 1 2 [1; 1] [1; 1] [2; 1; 1; 1] None.
Definition ebx : Op (Vec (2 * 1)) := obj 2 (box_body (ub (2 * 1))).
Definition eby : Op (Vec (1 * 2)) := obj 2 (box_body (ub (1 * 2))).
Lemma ub_from n : from_zero (ub n).
Proof. unfold from_zero, ub. cbn [proj1_sig]. apply Forall_forall. intros b Hb. rewrite (repeat_spec _ _ _ Hb). split; [reflexivity|]. intros l u E1. injection E1 as <- <-. lra. Qed.
Lemma ub_norm (x : Vec 2) : box_set (ub 2) x -> norm x <= 5.
Proof.
  intro H. apply norm_le_of_sq; [lra|]. rewrite box_entries in H. pose proof (H 0%nat ltac:(lia)) as [A1 A2]. pose proof (H 1%nat ltac:(lia)) as [B1 B2]. specialize (A1 0 eq_refl). specialize (A2 3 eq_refl). specialize (B1 0 eq_refl). specialize (B2 3 eq_refl).
  unfold norm2. rewrite vec_inner. unfold RS. nra.
Qed.
Lemma ub_in (a b : R) e : 0 <= a <= 3 -> 0 <= b <= 3 -> box_set (ub 2) (exist _ [a; b] e : Vec 2).
Proof. intros Ha Hb. unfold box_set, ub. cbn [proj1_sig repeat]. constructor; [|constructor; [|constructor]]; (split; cbn [fst snd]; intros c Hc; injection Hc as <-; lra). Qed.

(*!ex C99_example : the hypotheses of the theorems hold for d = [[2, 1], [1, 1]], rank 1, Box(0, 3) for both factors and the start x0 = y0 = (1, 1), gamma = 2, with R = 5; and the pair (0, 1), (0, 1) for diag(2, 1) is one where neither factor can be improved alone *)
Lemma C99_example_l : lr_holds elr ex1 ey1 ed (id_linop (Vec (2 * 2))) /\ lr_op elr = None /\ nonneg_entries ed /\ from_zero (ub (2 * 1)) /\ from_zero (ub (1 * 2)) /\ is_box ebx (ub (2 * 1)) /\ is_box eby (ub (1 * 2)) /\
  box_set (ub (2 * 1)) ex1 /\ box_set (ub (1 * 2)) ey1 /\ ex1 <> vzero /\ ey1 <> vzero /\
  opt_impl (Some ebx) (indic (box_set (ub (2 * 1)))) /\ opt_impl (Some eby) (indic (box_set (ub (1 * 2)))) /\ convex (indic (box_set (ub (2 * 1)))) /\ convex (indic (box_set (ub (1 * 2)))) /\ closed (indic (box_set (ub (2 * 1)))) /\ closed (indic (box_set (ub (1 * 2)))) /\
  misfit 2 1 2 ed ex1 ey1 < norm2 ed / 2 /\ (forall x, box_set (ub (2 * 1)) x -> norm x <= 5) /\ (forall y, box_set (ub (1 * 2)) y -> norm y <= 5) /\
  best_pair 2 1 2 gd (indic (box_set (zb (2 * 1)))) (indic (box_set (zb (1 * 2)))) gx0 gy0.
Proof.
  destruct (box_facts _ ebx (ub (2 * 1)) eq_refl (from_zero_ok _ _ (ub_from _))) as [If Cf]. destruct (box_facts _ eby (ub (1 * 2)) eq_refl (from_zero_ok _ _ (ub_from _))) as [Ig Cg].
  split; [unfold lr_holds, elr, op_spec; simpl; repeat split; auto|]. split; [reflexivity|].
  split; [intros [|[|[|[|i]]]] Hi; unfold get, lst; cbn [ed proj1_sig nth]; try lra; cbn in Hi; lia|]. do 2 (split; [apply ub_from|]). do 2 (split; [reflexivity|]). do 2 (split; [apply ub_in; lra|]).
  do 2 (split; [intro E0; apply (f_equal (fun v => get v 1)) in E0; rewrite get_zero in E0 by (cbn; lia); unfold get, lst in E0; cbn in E0; lra|]).
  split; [exact If|]. split; [exact Ig|]. do 2 (split; [apply box_convex|]). split; [exact Cf|]. split; [exact Cg|].
  split; [unfold misfit, norm2; rewrite !vec_inner; unfold mm, vtab, get, lst; cbn -[Rplus Rmult Ropp Rminus Rdiv]; lra|]. split; [exact ub_norm|]. split; [exact ub_norm|].
  apply (C99_kkt_nonneg_l 2 1 2 gd _ _ gx0 gy0 (zb_zero _) (zb_zero _)). split; [apply nn2; lra|]. split; [apply nn2; lra|].
  split; [intros [|[|i]] [|l] Hi Hl; try lia|intros [|l] [|[|j]] Hl Hj; try lia]; unfold slopex, slopey, mm, vtab, get, lst; cbn -[Rplus Rmult Ropp Rminus Rdiv]; lra.
Qed.
