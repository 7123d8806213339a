(** Specification of an ordered map with aliases, independent of hashing:
    an entry belongs to an identity (an object, or a string that no object
    owns), and each identity has at most one entry. *)
From Verif Require Import Py AliasModel.

Inductive ident := IdObj (o : nat) | IdStr (s : string).

Definition ident_eqb (a b : ident) : bool :=
  match a, b with
  | IdObj x, IdObj y => Nat.eqb x y
  | IdStr x, IdStr y => String.eqb x y
  | _, _ => false
  end.

(** [owns w o s]: s is the name or one of the aliases of o. *)
Definition owns (w : world) (o : nat) (s : string) : Prop :=
  s = w_name w o \/ In s (w_alias w o).

(** Equality of keys: one shared string. *)
Definition spec_equal (w : world) (a b : key) : Prop :=
  match a, b with
  | KStr x, KStr y => x = y
  | KObj o, KStr s | KStr s, KObj o => owns w o s
  | KObj o, KObj p => exists s, owns w o s /\ owns w p s
  end.

(** [denotes w objs k i]: key k refers to identity i. *)
Definition denotes (w : world) (objs : list nat) (k : key) (i : ident) : Prop :=
  match k, i with
  | KObj o, IdObj p => o = p /\ In o objs
  | KStr s, IdObj o => In o objs /\ owns w o s
  | KStr s, IdStr s' => s = s' /\ (forall o, In o objs -> ~ owns w o s)
  | KObj _, IdStr _ => False
  end.

(** No string belongs to two different objects. *)
Definition exclusive (w : world) (objs : list nat) : Prop :=
  forall o p s, In o objs -> In p objs -> owns w o s -> owns w p s -> o = p.

Section Spec.
Context {V : Type}.
Definition smap := list (ident * V).

Fixpoint slookup (m : smap) (i : ident) : option V :=
  match m with
  | [] => None
  | (j, v) :: r => if ident_eqb j i then Some v else slookup r i
  end.

(** Assignment: in place if present, at the end otherwise. *)
Fixpoint sset (m : smap) (i : ident) (v : V) : smap :=
  match m with
  | [] => [(i, v)]
  | (j, x) :: r => if ident_eqb j i then (j, v) :: r else (j, x) :: sset r i v
  end.

Definition sdel (m : smap) (i : ident) : smap :=
  filter (fun e => negb (ident_eqb (fst e) i)) m.

(** A new entry of an object is created with the object itself as the key (the
    library always does so: [subSys[obj.name] = obj]); overwriting an existing
    entry may use any alias. *)
Definition insertable (m : smap) (k : key) (i : ident) : Prop :=
  slookup m i <> None
  \/ match k, i with KStr _, IdObj _ => False | _, _ => True end.

(** One operation on the specification map: new map and expected answer.
    The relation [denotes] resolves each key. *)
Inductive sstep (w : world) (objs : list nat) : smap -> op V -> smap -> out V -> Prop :=
| S_get m k i : denotes w objs k i ->
    sstep w objs m (OGet k) m
      (RVal (match slookup m i with Some v => Ok v | None => Err KeyError end))
| S_getd m k v i : denotes w objs k i ->
    sstep w objs m (OGetDefault k v) m
      (RVal (Ok (match slookup m i with Some x => x | None => v end)))
| S_set m k v i : denotes w objs k i -> insertable m k i ->
    sstep w objs m (OSet k v) (sset m i v) RNone
| S_del m k i : denotes w objs k i ->
    sstep w objs m (ODel k) (sdel m i)
      (match slookup m i with Some _ => RNone | None => RVal (Err KeyError) end)
| S_contains m k i : denotes w objs k i ->
    sstep w objs m (OContains k) m
      (RBool (match slookup m i with Some _ => true | None => false end))
| S_update_nil m : sstep w objs m (OUpdate []) m RNone
| S_update_cons m m' k v kvs i : denotes w objs k i -> insertable m k i ->
    sstep w objs (sset m i v) (OUpdate kvs) m' RNone ->
    sstep w objs m (OUpdate ((k, v) :: kvs)) m' RNone
| S_setdefault m k v i : denotes w objs k i -> insertable m k i ->
    sstep w objs m (OSetDefault k v)
      (match slookup m i with Some _ => m | None => sset m i v end)
      (RVal (Ok (match slookup m i with Some x => x | None => v end)))
| S_pop m k dflt i : denotes w objs k i ->
    sstep w objs m (OPop k dflt) (sdel m i)
      (RVal (match slookup m i, dflt with
             | Some v, _ => Ok v | None, Some v => Ok v | None, None => Err KeyError
             end))
| S_clear m : sstep w objs m OClear [] RNone
| S_alias m o s :
    In o objs -> (* a new alias of an object must not belong to another object ... *)
    (forall p, In p objs -> owns w p s -> p = o) ->
    (* ... and must not be in use as a plain string key *)
    slookup m (IdStr s) = None ->
    sstep w objs m (OAddAlias o s) m RNone.

Definition world_after (w : world) (o : op V) : world :=
  match o with OAddAlias x s => addAlias w x s | _ => w end.

(** Histories of the specification. *)
Inductive sruns (objs : list nat) : world -> smap -> list (op V) -> smap -> list (out V) -> Prop :=
| R_nil w m : sruns objs w m [] m []
| R_cons w m o m1 x ops m2 xs :
    sstep w objs m o m1 x -> sruns objs (world_after w o) m1 ops m2 xs ->
    sruns objs w m (o :: ops) m2 (x :: xs).

(** The key under which an identity is stored. *)
Definition key_of (i : ident) : key :=
  match i with IdObj o => KObj o | IdStr s => KStr s end.

(** A dictionary represents a map: same entries in the same order, the key of
    an object's entry being the object, with one entry per identity. *)
Definition represents (w : world) (objs : list nat) (d : dict V) (m : smap) : Prop :=
  d = map (fun e => (key_of (fst e), snd e)) m
  /\ NoDup (map fst m)
  /\ Forall (fun e => denotes w objs (key_of (fst e)) (fst e)) m.
End Spec.
Arguments smap V : clear implicits.
