(** The systems and protocols of a simulation: classes/QSim.py. *)
From Verif Require Import Py SweepModel.
From mathcomp Require Import all_ssreflect.
Set Implicit Arguments.
Unset Strict Implicit.
Unset Printing Implicit Defensive.

(** Objects are numbers.  [simulation], [_freeEvol] and [superSys] of an object
    (the last one is None or any object), and whether it is a Simulation. *)
Record world := World { w_sim : nat -> nat; w_free : nat -> nat; w_super : nat -> option nat; w_isSim : nat -> bool }.

(** The keys of the subSys dictionary of a simulation: the name of a system
    (QSim.py 207), [(false, s)] for the one of [s], or a protocol, [(true, p)].  Names
    are unique and no alias is shared (C04, C05), so the dictionary is an ordered
    map (C01). *)
Definition key : Type := (bool * nat)%type.
Definition KName (s : nat) : key := (false, s).
Definition KPro (p : nat) : key := (true, p).
Definition dict := list (key * nat).
Definition hasKey (d : dict) (k : key) : bool := k \in map fst d.

(** [d[k] = v]: an existing key keeps its place. *)
Definition dset (d : dict) (k : key) (v : nat) : dict :=
  if hasKey d k then [seq if e.1 == k then (k, v) else e | e <- d] else rcons d (k, v).
Fixpoint dget (d : dict) (k : key) : option nat :=
  if d is e :: d' then (if e.1 == k then Some e.2 else dget d' k) else None.
Definition dpop (d : dict) (k : key) : dict := [seq e <- d | e.1 != k].

(** What a simulation has of it: the dictionary; the sweeps of [Sweep] and of
    [timeDependency] of every simulation. *)
Definition sweeps := list (nat * list nat).
Record st := St { s_dict : dict; s_sweep : nat -> sweeps; s_tdep : nat -> sweeps }.
Definition withDict (s : st) (d : dict) : st := St d (s_sweep s) (s_tdep s).
Definition fset (f : nat -> sweeps) (i : nat) (x : sweeps) : nat -> sweeps := fun j => if j == i then x else f j.

Section Sim.
Variables (w : world) (me : nat).

(** Simulation.qSystems and Simulation.protocols (QSim.py 158-163 and 130-135) *)
Definition qSystems (s : st) : list nat := map snd (s_dict s).
Definition protocols (s : st) : list key := map fst (s_dict s).

(** addQSystems (QSim.py 175-220) of one system, given as the object or by its
    name: a string is never among the values (198).  Binding the simulation of
    the system (216-219) is not modelled here. *)
Definition addOne (byName : bool) (q : nat) (Protocol : option nat) (s : st) : st :=
  let d0 := s_dict s in
  let d1 := if byName || (q \notin map snd d0) then dpop (dset d0 (KName q) q) (KName q) else d0 in
  let d2 := match Protocol with
            | Some p => dset d1 (KPro p) q
            | None => if q \in map snd d1 then d1 else dset d1 (KName q) q
            end in
  withDict s d2.
(** A list of systems: the protocol is not handed on (193-195). *)
Definition addList (qs : list nat) (Protocol : option nat) (s : st) : st :=
  foldl (fun s q => addOne false q None s) s qs.

(** removeSweep (QSim.py 241-249) of one object, in the simulation [m].  The
    simulation removes itself from its own sweeps (248-249). *)
Definition removeIn (m : nat) (o : nat) (s : st) : st * result unit :=
  let a := removeSweep (RemSystem o) (s_sweep s m) in
  let s1 := St (s_dict s) (fset (s_sweep s) m a.1) (s_tdep s) in
  if a.2 is Err e then (s1, Err e) else
  let b := removeSweep (RemSystem o) (s_tdep s m) in
  let s2 := St (s_dict s) (s_sweep s1) (fset (s_tdep s) m b.1) in
  if b.2 is Err e then (s2, Err e) else (s2, Ok tt).
Definition removeSweepOf (o : nat) (s : st) : st * result unit :=
  let a := removeIn me o s in
  if a.2 is Err e then (a.1, Err e) else
  if w_isSim w o && (o != me) then removeIn o o a.1 else a.
(** The same for a list (the decorator _recurseIfList). *)
Fixpoint removeSweepAll (os : list nat) (s : st) : st * result unit :=
  if os is o :: os' then
    let a := removeSweepOf o s in
    if a.2 is Err e then (a.1, Err e) else removeSweepAll os' a.1
  else (s, Ok tt).

(** removeQSystems (QSim.py 230-239) with the object or with a name.  A string
    has no attribute [simulation] (239). *)
Definition removeQSystems (byName : bool) (q : nat) (s : st) : st * result unit :=
  if ~~ hasKey (s_dict s) (KName q) then (s, Err KeyError)
  else
    let s1 := withDict s (dpop (s_dict s) (KName q)) in
    if byName then (s1, Err AttributeError)
    else removeSweepAll [:: q; w_sim w q; w_free w q; w_sim w (w_free w q)] s1.

(** removeProtocol (QSim.py 251-262); None stands for None.  A name has no
    attribute [simulation] (260). *)
Definition removeProtocol (k : option key) (s : st) : st * result unit :=
  if k is Some k then
    if dget (s_dict s) k is Some q then
      let s1 := withDict s (dpop (s_dict s) k) in
      if k.1 then
        let a := removeSweepAll [:: k.2; w_sim w k.2] s1 in
        if a.2 is Err e then (a.1, Err e)
        else if q \notin qSystems a.1 then removeSweepOf q a.1 else a
      else (s1, Err AttributeError)
    else (s, Ok tt)
  else (s, Ok tt).

(** addProtocol (QSim.py 264-288) of one protocol *)
Definition addProtocolTo (p : nat) (system : nat) (protocolRemove : option key) (s : st) : st * result unit :=
  if w_super w p is Some q then
    if system == q then removeProtocol protocolRemove (addOne false system (Some p) s) else (s, Err TypeError)
  else (s, Ok tt).
Definition addProtocol (p : nat) (system : option nat) (protocolRemove : option key) (s : st) : st * result unit :=
  match system with
  | None => if w_super w p is Some q then addProtocolTo p q protocolRemove s else (s, Err TypeError)
  | Some q => addProtocolTo p q protocolRemove s
  end.

(** _freeEvol (QSim.py 137-156) *)
Fixpoint freeLoop (keys : list key) (d : dict) : dict * result unit :=
  if keys is k :: keys' then
    if dget d k is Some q then
      let d1 := dpop d k in
      freeLoop keys' (if k.1 then dset d1 k q else dset d1 (KPro (w_free w q)) q)
    else (d, Err KeyError)
  else (d, Ok tt).
Definition freeEvol (s : st) : st * result unit :=
  let a := freeLoop (protocols s) (s_dict s) in (withDict s a.1, a.2).

(** qEvolutions (QSim.py 165-173): the protocol itself if there is only one *)
Definition qEvolutions (s : st) : st * result (list key) :=
  let a := freeEvol s in
  match a.2 with
  | Err e => (a.1, Err e)
  | Ok _ => (a.1, if protocols a.1 is [::] then Err IndexError else Ok (protocols a.1))
  end.

(** The beginning of run (QSim.py 343-345) *)
Definition runStart (s : st) : st * result unit :=
  if s_dict s is [::] then
    if w_super w me is Some q then freeEvol (addOne false q None s) else (s, Err TypeError)
  else freeEvol s.

(** Histories.  Exceptions are caught by the caller. *)
Inductive op :=
| Add (q : nat)
| AddByName (q : nat)
| AddWith (q p : nat)
| AddList (qs : list nat) (p : option nat)
| AddPro (p : nat) (q : option nat) (rem : option key)
| RemSys (byName : bool) (q : nat)
| RemPro (k : key)
| Evolutions
| Run.
Definition step (s : st) (o : op) : st :=
  match o with
  | Add q => addOne false q None s
  | AddByName q => addOne true q None s
  | AddWith q p => addOne false q (Some p) s
  | AddList qs p => addList qs p s
  | AddPro p q rem => (addProtocol p q rem s).1
  | RemSys b q => (removeQSystems b q s).1
  | RemPro k => (removeProtocol (Some k) s).1
  | Evolutions => (qEvolutions s).1
  | Run => (runStart s).1
  end.
Definition run (s : st) (os : list op) : st := foldl step s os.

End Sim.
