(** Ordered sets, and what it means for the code's dictionary to be one. *)
From Verif Require Import Py AliasModel AliasSpec NamedModel NamedSpec RecurseModel RecurseSpec ContainerModel.

Definition oset_add (l : list nat) (x : nat) : list nat :=
  if existsb (Nat.eqb x) l then l else l ++ [x].

Definition oset_remove (l : list nat) (x : nat) : list nat :=
  filter (fun y => negb (Nat.eqb y x)) l.

(** [refers s r o]: the argument r means the existing object o. *)
Definition refers (s : cstate) (r : ref) (o : nat) : Prop :=
  current (c_named s) o /\
  match r with
  | RObj o' => o' = o
  | RStr t => owns (n_world (c_named s)) o t
  | RCls _ | ROther => False
  end.

(** Arguments only mention existing objects and classes of the session, and
    aliases do not have the form of default names (see C05). *)
Definition ref_ok (s : cstate) (classes : list nat) (r : ref) : Prop :=
  match r with
  | RObj o => current (c_named s) o
  | RCls k => In k classes
  | _ => True
  end.

Definition cop_ok (label : nat -> string) (classes : list nat) (s : cstate) (o : cop) : Prop :=
  match o with
  | CNew k _ => In k classes
  | CAlias x a => current (c_named s) x /\ ~ default_like label classes a
  | CAdd c x | CRemove c x | CSet c x =>
      current (c_named s) c /\ Forall (ref_ok s classes) (leaves x)
  | CReset c => current (c_named s) c
  end.

Inductive chistory (label : nat -> string) (classes : list nat) : list cop -> Prop :=
| CH_nil : chistory label classes []
| CH_snoc ops o : chistory label classes ops -> cop_ok label classes (crun label ops) o ->
    chistory label classes (ops ++ [o]).
