(** Model of the sub-system dictionary of plain container objects
    (src/quanguru/classes/base.py 524-700: addDecorator, qBase). *)
From Verif Require Import Py AliasModel NamedModel RecurseModel.

(** A single argument of addSubSys/removeSubSys: an object, a string (name or
    alias), a class, or anything else. *)
Inductive ref := RObj (o : nat) | RStr (s : string) | RCls (c : nat) | ROther.

(** The naming state and the __subSys dictionary of each object (base.py
    606-609). *)
Record cstate := CState { c_named : nstate; c_sub : nat -> dict nat }.

(** getByNameOrAlias for an argument (base.py 388-398): an object is returned
    as it is; a class or anything else is not found. *)
Definition resolve (s : cstate) (r : ref) : result nat :=
  match r with
  | RObj o => Ok o
  | RStr t => match getByNameOrAlias (c_named s) (KStr t) with
              | Ok (Some o) => Ok o
              | Ok None => Err AttributeError   (* None has no _named__setKwargs *)
              | Err e => Err e
              end
  | RCls _ | ROther => Err ValueError
  end.

(** The body of qBase.addSubSys for an object (base.py 658-668). *)
Definition addObj (c : nat) (o : nat) (s : cstate) : cstate :=
  CState (c_named s)
    (upd (c_sub s) c (setitem (n_world (c_named s)) (c_sub s c) (KObj o) o)).

(** addSubSys for one argument: the cases of addDecorator (base.py 560-575). *)
Definition add1 (label : nat -> string) (c : nat) (r : ref) (s : cstate) : cstate * result nat :=
  match r with
  | RObj o => (addObj c o s, Ok o)
  | RStr _ => match resolve s r with
              | Ok o => (addObj c o s, Ok o)
              | Err e => (s, Err e)
              end
  | RCls k => let o := n_next (c_named s) in
              let s1 := CState (create label (c_named s) k false) (upd (c_sub s) o []) in
              (addObj c o s1, Ok o)
  | ROther => (s, Err TypeError)
  end.

(** removeSubSys for one argument (base.py 676-693). *)
Definition remove1 (c : nat) (r : ref) (s : cstate) : cstate * result unit :=
  match resolve s r with
  | Err e => (s, Err e)
  | Ok o => let (d, x) := pop (n_world (c_named s)) (c_sub s c) (KObj o) None in
            match x with
            | Ok _ => (CState (c_named s) (upd (c_sub s) c d), Ok tt)
            | Err e => (s, Err e)
            end
  end.

(** resetSubSys (base.py 695-699). *)
Definition reset1 (c : nat) (s : cstate) : cstate := CState (c_named s) (upd (c_sub s) c []).

Inductive cop :=
| CNew (k : nat) (internal : bool)     (* instantiate a class *)
| CAlias (o : nat) (a : string)
| CAdd (c : nat) (x : arg ref)
| CRemove (c : nat) (x : arg ref)
| CReset (c : nat)
| CSet (c : nat) (x : arg ref).        (* subSys = x, base.py 651-654 *)

Definition cstep (label : nat -> string) (s : cstate) (o : cop) : cstate * result unit :=
  match o with
  | CNew k i => (CState (create label (c_named s) k i) (upd (c_sub s) (n_next (c_named s)) []), Ok tt)
  | CAlias x a => match set_alias (c_named s) x a with
                  | Ok n => (CState n (c_sub s), Ok tt)
                  | Err e => (s, Err e)
                  end
  | CAdd c x => let (s', r) := recurse (add1 label c) x s in
                (s', match r with Ok _ => Ok tt | Err e => Err e end)
  | CRemove c x => let (s', r) := recurse (remove1 c) x s in
                   (s', match r with Ok _ => Ok tt | Err e => Err e end)
  | CReset c => (reset1 c s, Ok tt)
  | CSet c x => let (s', r) := recurse (add1 label c) x (reset1 c s) in
                (s', match r with Ok _ => Ok tt | Err e => Err e end)
  end.

Definition cinit : cstate := CState ninit (fun _ => []).

Definition crun (label : nat -> string) (ops : list cop) : cstate :=
  fold_left (fun s o => fst (cstep label s o)) ops cinit.

(** list(obj.subSys.values()) *)
Definition subs (s : cstate) (c : nat) : list nat := map snd (c_sub s c).
