(** Specification vocabulary for the dimension bookkeeping, in terms of the
    attributes of the systems only. *)
From Verif Require Import Py QDimModel.
#[local] Open Scope Z_scope.

(** The dimension of a system: its own for a single system, the product over
    its sub-systems for a composite one. *)
Inductive has_dim (h : heap) : oid -> Z -> Prop :=
| HD_single : forall i, isComp (h i) = false -> has_dim h i (dim (h i))
| HD_comp : forall i d, isComp (h i) = true -> has_dims h (subs (h i)) d -> has_dim h i d
with has_dims (h : heap) : list oid -> Z -> Prop :=
| HD_nil : has_dims h [] 1
| HD_cons : forall i l d r, has_dim h i d -> has_dims h l r -> has_dims h (i :: l) (d * r).

(** [placed h r s b a]: system s is in the tree below r (or is r) and the
    systems to its left / right in that tree have total dimension b / a. *)
Inductive placed (h : heap) (r : oid) : oid -> Z -> Z -> Prop :=
| P_root : placed h r r 1 1
| P_sub : forall p b a l s l' bl al, placed h r p b a -> isComp (h p) = true -> subs (h p) = l ++ s :: l' ->
    has_dims h l bl -> has_dims h l' al -> placed h r s (b * bl) (a * al).

(** The bookkeeping of the whole tree below r is right. *)
Definition booked (h : heap) (r : oid) : Prop :=
  (exists d, has_dim h r d) /\
  forall s b a, placed h r s b a -> dB (h s) = b /\ dA (h s) = a.

(** A root: a system that is not inside another. *)
Definition root (h : heap) (r : oid) : Prop := sup (h r) = None.

(** [nested h i n]: system i has at most n levels of systems. *)
Inductive nested (h : heap) : oid -> nat -> Prop :=
| N_single : forall i n, isComp (h i) = false -> nested h i (S n)
| N_comp : forall i n, isComp (h i) = true -> (forall s, In s (subs (h i)) -> nested h s n) -> nested h i (S n).

(** The calls for which the bookkeeping is claimed.  Dimensions have to stay
    below 2^53 and nesting below half the recursion limit; a system is only
    added to a system that is not inside another, and only when it is itself
    not inside another (or is already there); only single systems are removed. *)
Definition fine (lim : nat) (h : heap) (o : op) : Prop :=
  match o with
  | OSetDim i d => forall r b a, root h r -> placed h r i b a -> isComp (h i) = false -> b * d * a < 2 ^ 53
  | OAdd p c => In c (subs (h p)) \/
      (root h p /\ root h c /\ p <> c /\ (forall dp dc, has_dim h p dp -> has_dim h c dc -> dp * dc < 2 ^ 53) /\
       exists n, nested h c n /\ (2 * (n + 1) <= lim)%nat)
  | ORemove p c => In c (subs (h p)) /\ isComp (h c) = false
  | _ => True
  end.
Fixpoint allFine (lim : nat) (os : list op) (h : heap) : Prop :=
  match os with [] => True | o :: os' => fine lim h o /\ allFine lim os' (fst (exec lim o h)) end.

(** No operator of the term is a Pauli operator. *)
Definition noPauli (t : term) : Prop := match t with TSingle _ p => p = false | TMulti _ ps => Forall (fun p => p = false) ps end.
