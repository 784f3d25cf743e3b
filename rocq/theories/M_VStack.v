(** * VStack (proximal/VStack.py:50-128)

    One-dimensional arrays are lists.  An operator on arrays of varying size is the
    record [LOp]; [l_grad] returns [Ok None] when the python method returns None (only the
    operators made by chain do; the base class returns the gradient of the Moreau envelope). Restriction operators (pylops) are given by their index lists [iava]:
    matvec gathers [x[iava]]. *)
From Verif Require Import Base M_ProxOp.
Open Scope result_scope.
Open Scope R_scope.

Record LOp := mkLOp { l_call : list R -> result pyval; l_prox : list R -> R -> result (list R); l_grad : list R -> result (option (list R)); l_hasgrad : bool }.

Inductive vblocks := Sizes (nn : list nat) | Restr (iavas : list (list nat)).
Record vstack := VStk { vs_ops : list LOp; vs_blocks : vblocks; vs_nx : nat; vs_hasgrad : bool }.

Definition nsum (l : list nat) : nat := fold_right Nat.add 0%nat l.
(** __init__, VStack.py:50-73: nn wins when both are given; [cum_nn[-1]] needs a non-empty nn *)
Definition vstack_init (ops : list LOp) (nn : option (list nat)) (restr : option (list (list nat))) : result vstack :=
  let hg := existsb l_hasgrad ops in
  match nn with
  | Some [] => Err IndexError
  | Some nn => Ok (VStk ops (Sizes nn) (nsum nn) hg)
  | None =>
      match restr with
      | Some r => Ok (VStk ops (Restr r) (nsum (map (@length nat) r)) hg)
      | None => Err ValueError
      end
  end.

(** x[a:b] *)
Definition slice {A} (x : list A) (a b : nat) : list A := firstn (b - a) (skipn a x).
(** cum_nn[i-1] (0 for i = 0), VStack.py:60-63 *)
Definition xin (nn : list nat) (i : nat) : nat := nsum (firstn i nn).
(** x[self.xin[iop] : self.xend[iop]] *)
Definition block_nn (nn : list nat) (x : list R) (i : nat) : result (list R) :=
  if Nat.ltb i (length nn) then Ok (slice x (xin nn i) (xin nn (S i))) else Err IndexError.
(** restr.matvec(x) = x[iava] *)
Definition gather (iava : list nat) (x : list R) : result (list R) :=
  if forallb (fun j => Nat.ltb j (length x)) iava then Ok (map (fun j => nth j x 0) iava) else Err IndexError.
(** f[iava] = v: a value list of another length does not fit (broadcasting a single value is not modelled) *)
Fixpoint scatter1 {A} (f : list A) (j : nat) (a : A) : list A :=
  match f, j with [], _ => [] | _ :: f, O => a :: f | b :: f, S j => b :: scatter1 f j a end.
Fixpoint scatter {A} (f : list A) (iava : list nat) (v : list A) : result (list A) :=
  match iava, v with
  | [], [] => Ok f
  | j :: iava, a :: v => if Nat.ltb j (length f) then scatter (scatter1 f j a) iava v else Err IndexError
  | _, _ => Err ValueError
  end.

(** the loops over [enumerate(self.ops)] and [zip(self.ops, self.restr, strict=True)] *)
Fixpoint loop_nn {A} (m : LOp -> list R -> result A) (ops : list LOp) (nn : list nat) (x : list R) (i : nat) : result (list A) :=
  match ops with
  | [] => Ok []
  | op :: ops => xi <- block_nn nn x i ;; a <- m op xi ;; l <- loop_nn m ops nn x (S i) ;; Ok (a :: l)
  end.
Fixpoint loop_restr {A S} (m : LOp -> list R -> result A) (acc : S -> list nat -> A -> result S) (ops : list LOp) (iavas : list (list nat)) (x : list R) (s : S) : result S :=
  match ops, iavas with
  | [], [] => Ok s
  | op :: ops, iava :: iavas => xi <- gather iava x ;; a <- m op xi ;; s' <- acc s iava a ;; loop_restr m acc ops iavas x s'
  | _, _ => Err ValueError
  end.

Definition size_check {A} (v : vstack) (x : list R) (k : result A) : result A := if Nat.eqb (length x) (vs_nx v) then k else Err ValueError.

(** __call__, VStack.py:75-88: numbers and Booleans are added up *)
Definition vstack_call (v : vstack) (x : list R) : result R :=
  size_check v x
    (match vs_blocks v with
     | Sizes nn => l <- loop_nn l_call (vs_ops v) nn x 0 ;; Ok (fold_left (fun f a => f + as_num a) l 0)
     | Restr r => loop_restr l_call (fun f _ a => Ok (f + as_num a)) (vs_ops v) r x 0
     end).
(** prox, VStack.py:90-109; np.hstack of an empty list raises *)
Definition vstack_prox (v : vstack) (x : list R) (tau : R) : result (list R) :=
  check_tau tau (size_check v x
    (match vs_blocks v with
     | Sizes nn => l <- loop_nn (fun op xi => l_prox op xi tau) (vs_ops v) nn x 0 ;; if Nat.eqb (length l) 0 then Err ValueError else Ok (concat l)
     | Restr r => loop_restr (fun op xi => l_prox op xi tau) (fun f iava a => scatter f iava a) (vs_ops v) r x (repeat 0 (length x))
     end)).
(** grad, VStack.py:111-128.  An entry [None] of the result is not a number: None in an object
    array for nn, nan for restr. *)
Definition vstack_grad (v : vstack) (x : list R) : result (list (option R)) :=
  size_check v x
    (match vs_blocks v with
     | Sizes nn => l <- loop_nn l_grad (vs_ops v) nn x 0 ;;
                   if Nat.eqb (length l) 0 then Err ValueError else Ok (concat (map (fun o => match o with Some g => map Some g | None => [None] end) l))
     | Restr r => loop_restr l_grad (fun f iava o => match o with Some g => scatter f iava (map Some g) | None => scatter f iava (map (fun _ => None) iava) end)
                    (vs_ops v) r x (repeat (Some 0) (length x))
     end).
