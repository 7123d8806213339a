(** Vocabulary for the properties of names. *)
From Coq Require Import Ascii.
From Verif Require Import Py AliasModel NamedModel.
Local Open Scope string_scope.

Definition is_digit (c : ascii) : bool :=
  let n := nat_of_ascii c in andb (Nat.leb 48 n) (Nat.leb n 57).

(** The label does not end with a digit (and is not empty). *)
Fixpoint ends_nondigit (s : string) : bool :=
  match s with
  | EmptyString => false
  | String c EmptyString => negb (is_digit c)
  | String _ r => ends_nondigit r
  end.

(** Conditions on the labels of the classes in use: they do not end with a
    digit, are pairwise different, and none is an underscore followed by another. *)
Definition labels_ok (label : nat -> string) (classes : list nat) : Prop :=
  (forall c, In c classes -> ends_nondigit (label c) = true)
  /\ (forall c c', In c classes -> In c' classes -> label c = label c' -> c = c')
  /\ (forall c c', In c classes -> In c' classes -> label c <> "_" ++ label c').

(** A string that has the form of a default name of one of the classes. *)
Definition default_like (label : nat -> string) (classes : list nat) (s : string) : Prop :=
  exists c b n, In c classes /\ s = namer (label c) b n.

(** Operations that only use the given classes and existing objects. *)
Definition uses_classes (classes : list nat) (o : nop) : Prop :=
  match o with NCreate c _ => In c classes | _ => True end.

(** An alias assignment that does not take the form of a default name. *)
Definition plain_alias (label : nat -> string) (classes : list nat) (o : nop) : Prop :=
  match o with NAlias _ a => ~ default_like label classes a | _ => True end.

(** Objects created since the last reset. *)
Definition current (s : nstate) (o : nat) : Prop := n_epoch s <= o < n_next s.

(** Alias assignments only concern objects of the current session. *)
Definition on_current (s : nstate) (o : nop) : Prop :=
  match o with NAlias x _ => current s x | _ => True end.

(** A history all of whose operations satisfy P in the state they act on. *)
Inductive history (label : nat -> string) (P : nstate -> nop -> Prop) : list nop -> Prop :=
| H_nil : history label P []
| H_snoc ops o : history label P ops -> P (nrun label ops) o -> history label P (ops ++ [o]).

(** Number of creations of a kind since the last reset. *)
Fixpoint count_created (ops : list nop) (c : nat) (b : bool) (acc : nat) : nat :=
  match ops with
  | [] => acc
  | NCreate c' b' :: r => count_created r c b (if andb (Nat.eqb c c') (Bool.eqb b b') then S acc else acc)
  | NReset :: r => count_created r c b 0
  | _ :: r => count_created r c b acc
  end.

(** The classes of the library. *)
Definition lib_label (c : nat) : string := nth c library_labels "".
Definition lib_classes : list nat := seq 0 (List.length library_labels).
