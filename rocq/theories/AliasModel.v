(** Model of aliasClass, keySearch and aliasDict
    (src/quanguru/classes/base.py 74-302). *)
From Verif Require Import Py.

(** A dictionary key is a plain string or an aliasClass object, referred to by
    its identity (base.py 74-94).  Simplification: the name is a string (not
    None) and aliases are strings. *)
Inductive key := KStr (s : string) | KObj (o : nat).

(** Contents of the aliasClass objects: name and alias list (base.py 83-94). *)
Record world := World { w_name : nat -> string; w_alias : nat -> list string }.

(** aliasClass.__members (base.py 135-139). *)
Definition members (w : world) (o : nat) : list string :=
  w_name w o :: w_alias w o.

(** aliasClass._allStringSum (base.py 141-147). *)
Definition allStringSum (w : world) (o : nat) : string :=
  String.concat "" (members w o).

(** aliasClass alias setter for one string: unconditional append
    (base.py 130-133). *)
Definition addAlias (w : world) (o : nat) (s : string) : world :=
  World (w_name w)
        (fun x => if Nat.eqb x o then w_alias w x ++ [s] else w_alias w x).

(** aliasClass.__eq__ (base.py 169-183); a string on the left defers to the
    reflected method of the object. *)
Definition keq (w : world) (a b : key) : bool :=
  match a, b with
  | KStr x, KStr y => String.eqb x y
  | KObj o, KStr y => existsb (fun it => String.eqb it y) (members w o)
  | KStr x, KObj o => existsb (fun it => String.eqb it x) (members w o)
  | KObj o, KObj p =>
      existsb (fun it => existsb (fun it' => String.eqb it it') (members w o))
              (members w p)
  end.

(** aliasClass.__hash__ = hash of the name (base.py 185-189).  Simplification:
    the hash of a string is represented by the string itself, i.e. hash
    collisions between different strings are not modelled. *)
Definition hkey (w : world) (k : key) : string :=
  match k with KStr s => s | KObj o => w_name w o end.

(** A Python dict: entries in insertion order. *)
Notation dict V := (list (key * V)).

Section Dict.
Context {V : Type}.

(** dict lookup by hash and equality (interpreter); equal hashes mean equal
    names here, which makes the keys equal. *)
Fixpoint raw_find (w : world) (d : dict V) (k : key) : option V :=
  match d with
  | [] => None
  | (k', v) :: r => if String.eqb (hkey w k') (hkey w k) then Some v else raw_find w r k
  end.

(** dict assignment: replaces the value and keeps the stored key, or appends. *)
Fixpoint raw_set (w : world) (d : dict V) (k : key) (v : V) : dict V :=
  match d with
  | [] => [(k, v)]
  | (k', v') :: r =>
      if String.eqb (hkey w k') (hkey w k) then (k', v) :: r
      else (k', v') :: raw_set w r k v
  end.

(** dict deletion. *)
Fixpoint raw_del (w : world) (d : dict V) (k : key) : dict V :=
  match d with
  | [] => []
  | (k', v') :: r =>
      if String.eqb (hkey w k') (hkey w k) then r else (k', v') :: raw_del w r k
  end.

(** [k in obj.keys()] (base.py 212). *)
Definition raw_mem (w : world) (d : dict V) (k : key) : bool :=
  match raw_find w d k with Some _ => true | None => false end.

(** The loop of keySearch (base.py 213-216). *)
Fixpoint first_equal (w : world) (d : dict V) (k : key) : option key :=
  match d with
  | [] => None
  | (k', _) :: r => if keq w k k' then Some k' else first_equal w r k
  end.

(** keySearch (base.py 191-217). *)
Definition keySearch (w : world) (d : dict V) (k : key) : key :=
  if raw_mem w d k then k
  else match first_equal w d k with Some k' => k' | None => k end.

(** aliasDict.__getitem__ (base.py 228-234). *)
Definition getitem (w : world) (d : dict V) (k : key) : result V :=
  match raw_find w d (keySearch w d k) with Some v => Ok v | None => Err KeyError end.

(** aliasDict.get (base.py 236-243): the default on any exception. *)
Definition get (w : world) (d : dict V) (k : key) (dflt : option V) : option V :=
  match getitem w d k with Ok v => Some v | Err _ => dflt end.

(** aliasDict.__setitem__ (base.py 245-253). *)
Definition setitem (w : world) (d : dict V) (k : key) (v : V) : dict V :=
  raw_set w d (keySearch w d k) v.

(** aliasDict.__delitem__ (base.py 255-261). *)
Definition delitem (w : world) (d : dict V) (k : key) : result (dict V) :=
  let k' := keySearch w d k in
  if raw_mem w d k' then Ok (raw_del w d k') else Err KeyError.

(** aliasDict.__contains__ (base.py 263-268). *)
Definition contains (w : world) (d : dict V) (k : key) : bool :=
  raw_mem w d (keySearch w d k).

(** aliasDict.update with a sequence of pairs or a mapping (base.py 270-281). *)
Definition update (w : world) (d : dict V) (m : list (key * V)) : dict V :=
  fold_left (fun acc kv => setitem w acc (fst kv) (snd kv)) m d.

(** aliasDict.setdefault (base.py 283-289). *)
Definition setdefault (w : world) (d : dict V) (k : key) (v : V) : dict V * result V :=
  let d' := if contains w d k then d else setitem w d k v in
  (d', getitem w d' k).

(** aliasDict.pop with an optional default (base.py 291-296). *)
Definition pop (w : world) (d : dict V) (k : key) (dflt : option V) : dict V * result V :=
  let k' := keySearch w d k in
  match raw_find w d k' with
  | Some v => (raw_del w d k', Ok v)
  | None => (d, match dflt with Some v => Ok v | None => Err KeyError end)
  end.

(** Operations on one dictionary and on the objects used as its keys. *)
Inductive op :=
| OGet (k : key)
| OGetDefault (k : key) (v : V)
| OSet (k : key) (v : V)
| ODel (k : key)
| OContains (k : key)
| OUpdate (m : list (key * V))
| OSetDefault (k : key) (v : V)
| OPop (k : key) (dflt : option V)
| OClear
| OAddAlias (o : nat) (s : string).

Inductive out :=
| RVal (r : result V)       (* a value or an exception *)
| RBool (b : bool)
| RNone.

Definition step (st : world * dict V) (o : op) : (world * dict V) * out :=
  let (w, d) := st in
  match o with
  | OGet k => ((w, d), RVal (getitem w d k))
  | OGetDefault k v =>
      ((w, d), match get w d k (Some v) with Some x => RVal (Ok x) | None => RNone end)
  | OSet k v => ((w, setitem w d k v), RNone)
  | ODel k => match delitem w d k with
              | Ok d' => ((w, d'), RNone)
              | Err e => ((w, d), RVal (Err e))
              end
  | OContains k => ((w, d), RBool (contains w d k))
  | OUpdate m => ((w, update w d m), RNone)
  | OSetDefault k v => let (d', r) := setdefault w d k v in ((w, d'), RVal r)
  | OPop k dflt => let (d', r) := pop w d k dflt in ((w, d'), RVal r)
  | OClear => ((w, []), RNone)
  | OAddAlias x s => ((addAlias w x s, d), RNone)
  end.

Fixpoint run (st : world * dict V) (ops : list op) : (world * dict V) * list out :=
  match ops with
  | [] => (st, [])
  | o :: r => let (st1, x) := step st o in
              let (st2, xs) := run st1 r in (st2, x :: xs)
  end.
End Dict.
Arguments op V : clear implicits.
Arguments out V : clear implicits.
