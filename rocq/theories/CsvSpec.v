(** Specification of the saved files: nested results, and which file each
    innermost table goes to. *)
From Coq Require Import Ascii.
From Verif Require Import Py NamedModel NamedSpec CsvModel.
Local Open Scope string_scope.

Section Spec.
Variable V : Type.

(** Results of sweeps: a table of numbers, or a list of results. *)
Inductive nested := Tab (rows : list (list V)) | Deep (parts : list nested).

(** The Python lists. *)
Fixpoint toPy (t : nested) : pyval V :=
  match t with
  | Tab rows => PList (map (fun r => PList (map PNum r)) rows)
  | Deep parts => PList (map toPy parts)
  end.

(** The first row of a table has an entry, and no list of results is empty. *)
Inductive regular : nested -> Prop :=
| RTab v r rows : regular (Tab ((v :: r) :: rows))
| RDeep t parts : regular t -> Forall regular parts -> regular (Deep (t :: parts)).

(** At most [n] parts in each list of results. *)
Inductive upTo (n : nat) : nested -> Prop :=
| UTab rows : upTo n (Tab rows)
| UDeep parts : List.length parts <= n -> Forall (upTo n) parts -> upTo n (Deep parts).

(** The same depth everywhere, and at most ten parts at the levels marked false. *)
Inductive levels : list bool -> nested -> Prop :=
| LTab rows : levels [] (Tab rows)
| LDeep w ws parts : (w = false -> List.length parts <= 10) -> Forall (levels ws) parts -> levels (w :: ws) (Deep parts).

(** The tables of a result with their positions. *)
Inductive tableAt : nested -> list nat -> list (list V) -> Prop :=
| AtTab rows : tableAt (Tab rows) [] rows
| AtDeep parts i t p rows : nth_error parts i = Some t -> tableAt t p rows -> tableAt (Deep parts) (i :: p) rows.

(** The name of the file: the positions are written one after the other. *)
Definition tableName (prefix : string) (p : list nat) : string := prefix ++ String.concat "" (map str_nat p).

(** Reading a table back gives its rows (a single row without the outer list). *)
Definition readsAs (rows : list (list V)) : table V :=
  match rows with [r] => Row r | _ => Rows rows end.

(** Texts of numbers: not empty, no commas, and read back as the number. *)
Definition roundTrip (str : pyval V -> string) (parse : string -> option V) : Prop :=
  forall v, str (PNum v) <> "" /\ index 0 "," (str (PNum v)) = None /\ parse (str (PNum v)) = Some v.

(** One string followed by digits only. *)
Definition digitsAfter (k k' : string) : Prop :=
  exists d, k' = k ++ d /\ forall c, In c (list_ascii_of_string d) -> is_digit c = true.

End Spec.
Arguments Tab {V} rows. Arguments Deep {V} parts.
