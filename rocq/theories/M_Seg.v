(** * Image segmentation (optimization/segmentation.py:12-142)

    Images are flat arrays in C order; the array x of the solver has one row of [nprod dims] entries per class.
    The pylops Gradient is an argument [G] (with its adjoint); BlockDiag and everything else is built here.
    [P] is the projection of one vector used by Simplex (M_Proj.v), with its options.  Callbacks are recorded. *)
From Verif Require Import Base Space M_ProxOp VSum MatFacts M_Bilin M_L1 M_VStack M_Loop M_PG M_PD M_Proj M_TV.
Open Scope result_scope.
Open Scope R_scope.

(** x.reshape(ndim, len(x) // ndim): fails when the length is not a multiple (0 // 0 and reshape(0, _) are outside: ndim >= 1) *)
Definition resh {A} (ndim : nat) (x : list R) (k : nat -> result A) : result A :=
  if Nat.eqb (length x) (ndim * (length x / ndim)) then k (length x / ndim)%nat else Err ValueError.
(** np.sqrt(np.sum(x**2, axis=0)) *)
Definition colnorm (ndim k : nat) (x : list R) (i : nat) : R := sqrt (RS ndim (fun a => ent k x a i * ent k x a i)).
(** L21 on flat arrays (proximal/L21.py:61-77); its grad is the base class's, with sigmame = 1 *)
Definition l21_lprox (ndim : nat) (sigma : R) (x : list R) (tau : R) : result (list R) :=
  check_tau tau (resh ndim x (fun k => Ok (tab ndim k (fun a i => (1 - tau * sigma / Rmax (colnorm ndim k x i) (tau * sigma)) * ent k x a i)))).
Definition l21_lop (ndim : nat) (sigma : R) : LOp :=
  mkLOp (fun x => resh ndim x (fun k => Ok (VNum (sigma * RS k (colnorm ndim k x)))))
    (l21_lprox ndim sigma)
    (fun x => p <- l21_lprox ndim sigma x 1 ;; Ok (Some (map2 (fun a b => (a - b) / 1) x p))) false.

(** an array of n entries *)
Definition as_vec (n : nat) (l : list R) : result (Vec n) :=
  match Nat.eq_dec (length l) n with left e => Ok (exist _ l e : Vec n) | right _ => Err ValueError end.
Fixpoint all_some (l : list (option R)) : option (list R) :=
  match l with [] => Some [] | Some a :: l => match all_some l with Some l => Some (a :: l) | None => None end | None :: _ => None end.
(** a VStack used on arrays of n entries: VStack defines call, prox and grad; proxdual is inherited *)
Definition vstack_op (n : nat) (v : vstack) : Op (Vec n) :=
  obj 2 (mkBody (Some (fun x : Vec n => c <- vstack_call v (lst x) ;; Ok (VNum c)))
    (Some (fun (x : Vec n) tau => p <- vstack_prox v (lst x) tau ;; as_vec n p)) None
    (Some (fun x : Vec n => g <- vstack_grad v (lst x) ;; match all_some g with Some l => g <- as_vec n l ;; Ok (Some g) | None => Err TypeError end)) (vs_hasgrad v) 1).

(** Simplex with dims = (ncl, dimsprod), axis = 0 (proximal/Simplex.py:25-89) *)
Definition simplex_op {r c} (P : Vec r -> result (Vec r)) : Op (Vec (r * c)) :=
  obj 2 (mkBody (Some (fun x => Ok (VBool (simplex_call_cols (r:=r) (c:=c) 1 (1 / 10 ^ 8) x)))) (Some (fun x tau => simplex_prox_cols P x tau)) None None false 1).

(** pylops.BlockDiag([G] * m) *)
Section Block.
Context {n k : nat} (m : nat) (G : linop (Vec n) (Vec k)).
Definition bd_app (x : Vec (m * n)) : Vec (m * k) := vtab (m * k) (fun p => get (G (rowv x (p / k))) (p mod k)).
Definition bd_adj (y : Vec (m * k)) : Vec (m * n) := vtab (m * n) (fun p => get (ladj G (rowv y (p / n))) (p mod n)).
Lemma row_add {r c} (x y : Vec (r * c)) i : (i < r)%nat -> rowv (x [+] y) i = rowv x i [+] rowv y i.
Proof. intro Hi. apply vec_ext. intros j Hj. unfold rowv. rewrite get_add, !get_vtab by auto. apply get_add. apply flat_lt; auto. Qed.
Lemma row_scal {r c} a (x : Vec (r * c)) i : (i < r)%nat -> rowv (a [*] x) i = a [*] rowv x i.
Proof. intro Hi. apply vec_ext. intros j Hj. unfold rowv. rewrite get_scal, !get_vtab by auto. apply get_scal. apply flat_lt; auto. Qed.
Lemma flat_inv r c p : (p < r * c)%nat -> (p / c < r /\ p mod c < c)%nat.
Proof. intro H. assert (c <> 0)%nat by nia. split; [apply Nat.div_lt_upper_bound; lia|apply Nat.mod_upper_bound; auto]. Qed.
Lemma flat_inner r c (x y : Vec (r * c)) : << x, y >> = RS r (fun i => << rowv x i, rowv y i >>).
Proof. rewrite vec_inner, RS_flat. apply RS_ext. intros i Hi. rewrite vec_inner. apply RS_ext. intros j Hj. unfold rowv. rewrite !get_vtab by auto. reflexivity. Qed.
Lemma row_bd_app x i : (i < m)%nat -> rowv (bd_app x) i = G (rowv x i).
Proof.
  intro Hi. apply vec_ext. intros j Hj. unfold rowv at 1. rewrite get_vtab by auto. unfold bd_app. rewrite get_vtab by (apply flat_lt; auto). destruct (divmod_flat k i j Hj) as [-> ->]. reflexivity.
Qed.
Lemma row_bd_adj y i : (i < m)%nat -> rowv (bd_adj y) i = ladj G (rowv y i).
Proof.
  intro Hi. apply vec_ext. intros j Hj. unfold rowv at 1. rewrite get_vtab by auto. unfold bd_adj. rewrite get_vtab by (apply flat_lt; auto). destruct (divmod_flat n i j Hj) as [-> ->]. reflexivity.
Qed.
Definition blockdiag : linop (Vec (m * n)) (Vec (m * k)).
Proof.
  refine (mkLinop _ _ bd_app bd_adj _ _ _).
  - intros x y. apply vec_ext. intros p Hp. destruct (flat_inv m k p Hp). rewrite get_add by auto. unfold bd_app. rewrite !get_vtab by auto. rewrite row_add, lapp_add, get_add by auto. reflexivity.
  - intros a x. apply vec_ext. intros p Hp. destruct (flat_inv m k p Hp). rewrite get_scal by auto. unfold bd_app. rewrite !get_vtab by auto. rewrite row_scal, lapp_scal, get_scal by auto. reflexivity.
  - intros x y. rewrite !flat_inner. apply RS_ext. intros i Hi. rewrite row_bd_app, row_bd_adj by auto. apply ladj_spec.
Defined.
End Block.

(** 97-101: the data term; a vector of standard deviations of another length (not 1) does not broadcast; a zero one
    (inf or nan in numpy) is outside the model *)
Definition seg_sigmas (ncl : nat) (clsigmas : option (list R)) : result (nat -> R) :=
  match clsigmas with
  | None => Ok (fun _ => 1)
  | Some s =>
      if existsb (fun a => Reqb a 0) s then Err ZeroDivisionError
      else if Nat.eqb (length s) ncl then Ok (fun c => nth c s 0)
      else if Nat.eqb (length s) 1 then Ok (fun _ => nth 0 s 0)
      else Err ValueError
  end.
Definition seg_data (N ncl : nat) (sigma : R) (y : Vec N) (cl : list R) (s : nat -> R) : Vec (ncl * N) :=
  vtab (ncl * N) (fun p => sigma / 2 * ((get y (p mod N) - nth (p / N) cl 0) * (get y (p mod N) - nth (p / N) cl 0)) / s (p / N)%nat).

(** np.argmax of one row: the first largest entry *)
Fixpoint argmax_from (best : R) (bi i : nat) (l : list R) : nat :=
  match l with [] => bi | a :: l => if Rltb best a then argmax_from a i (S i) l else argmax_from best bi (S i) l end.
Definition argmax (l : list R) : nat := match l with [] => 0%nat | a :: l => argmax_from a 0 1 l end.

(** Segment; [x.reshape(ncl, dimsprod).T] is the transposed matrix.  With no classes (cl empty) BlockDiag/VStack have nothing to stack: the
    error of VStack's cum_nn[-1] is reported. *)
Definition Segment (dims : list nat) (G : linop (Vec (nprod dims)) (Vec (length dims * nprod dims))) (y : Vec (nprod dims)) (cl : list R) (sigma alpha : R)
  (clsigmas : option (list R)) (z : option (Vec (length cl * nprod dims))) (niter : nat) (x0 : option (Vec (length cl * nprod dims)))
  (P : Vec (length cl) -> result (Vec (length cl)))
  : result (Vec (nprod dims * length cl) * list nat * list (Vec (length cl * nprod dims))) :=
  let N := nprod dims in let ncl := length cl in let d := length dims in
  s <- seg_sigmas ncl clsigmas ;;
  let g := seg_data N ncl sigma y cl s in
  v <- vstack_init (repeat (l21_lop d (1 / 2 * alpha)) ncl) (Some (repeat (d * N)%nat ncl)) None ;;
  let tau := 1 in let mu := 1 / (tau * 8) in
  r <- PrimalDual (simplex_op P) (vstack_op (ncl * (d * N)) v) (blockdiag ncl G) None (match x0 with Some x => x | None => vzero end)
         (Scalar tau) (Scalar mu) None (Some (match z with None => g | Some z => g [+] z end)) 1 niter true ;;
  let x := fst (fst r) in
  let xt := transp (r:=ncl) (c:=N) x in
  Ok (xt, map (fun i => argmax (lst (rowv (r:=N) (c:=ncl) xt i))) (seq 0 N), map fst (snd r)).
