(** Vocabulary for the properties of + and -. *)
From Verif Require Import Py QDimModel QDimSpec PlusModel.
#[local] Open Scope Z_scope.

(** s1 + s2 + ... + sn as Python reads it: ((s1 + s2) + s3) + ...  Every +
    comes with its own two spare identities. *)
Definition sum (s1 : oid) (rest : list (oid * oid * oid)) : expr :=
  fold_left (fun e x => match x with (new, cp, s) => EPlus new cp e (ESys s) end) rest (ESys s1).

(** A QuantumSystem that has just been made. *)
Definition untouched (h : heap) (n : oid) : Prop :=
  comp (h n) = None /\ subs (h n) = [] /\ sup (h n) = None /\ dim (h n) = 1.
(** A system that was declared single and stands alone. *)
Definition single (h : heap) (i : oid) : Prop := comp (h i) = Some false /\ root h i.
(** A composite that is not inside another. *)
Definition composite (h : heap) (i : oid) : Prop := comp (h i) = Some true /\ root h i.

(** The two systems fit together: the product of the dimensions is below 2^53
    and c has at most lim/2 - 1 levels. *)
Definition fits (lim : nat) (h : heap) (p c : oid) : Prop :=
  (forall dp dc, has_dim h p dp -> has_dim h c dc -> dp * dc < 2 ^ 53) /\
  exists n, nested h c n /\ (2 * (n + 1) <= lim)%nat.

(** Systems j outside the trees of a and b keep all their attributes. *)
Definition apart (h : heap) (a b j : oid) : Prop :=
  exists r x y, root h r /\ r <> a /\ r <> b /\ placed h r j x y.

Definition prod (l : list Z) : Z := fold_right Z.mul 1 l.
