(** Chains of bounds. *)
From Coq Require Import QArith Qround.
From Verif Require Import Py TimeModel.
#[local] Open Scope nat_scope.

(** [chain h k o n e]: following the bounds of parameter k from object o leads in
    n steps to object e, whose own parameter is not bound. *)
Inductive chain (h : heap) (k : key) : nat -> nat -> nat -> Prop :=
| chain_end o : (forall b, p_bound (t_par (h o) k) <> BObj b) -> chain h k o 0 o
| chain_step o b n e : p_bound (t_par (h o) k) = BObj b -> chain h k b n e -> chain h k o (S n) e.

(** The chain from o passes through (or starts at, or ends in) x. *)
Inductive passes (h : heap) (k : key) : nat -> nat -> Prop :=
| pass_here o : passes h k o o
| pass_step o b x : p_bound (t_par (h o) k) = BObj b -> passes h k b x -> passes h k o x.

(** Bounds are created from lower to higher objects: protocols to systems to
    simulations. *)
Definition upward (rank : nat -> nat) (op : top) : Prop :=
  match op with Bind _ a b => rank a < rank b | _ => True end.
