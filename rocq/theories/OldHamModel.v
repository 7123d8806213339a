(** The Hamiltonians of the older system classes and the matrices kept for them (src/quanguru/classes/QSys.py 418-442,
    645-752, 794-830, 870-910, 987-1037): every term, every single system and the composite system keep a matrix and take
    it again until it is dropped or marked as out of date.  Modelled: single systems (qSystem) with their terms, and one
    composite system (compQSystem) of single systems; they may be read, changed, added and taken out in any order.
    Left out: couplings (OldCoupModel.v; without any, couplingHam is 0), time dependence, protocols and simulations.
    The dimensions before and after a system are those that C94 proves the bookkeeping to keep. *)
From Verif Require Import Py.
From mathcomp Require Import all_ssreflect.
Set Implicit Arguments.
Unset Strict Implicit.
Unset Printing Implicit Defensive.
#[local] Notation "'let!' x := m 'in' k" := (bind m (fun x => k)) (at level 200, x name, k at level 200).

Section OldHam.
(** Frequencies, operators and matrices.  [base o d b a] is compositeOp(o(d), b, a), where the functions for spins are given
    (d-1)/2 and the Pauli functions nothing (QSys.py 814-825), [mpow] is _matPower for a natural number (which raises for 0), [scale] and [add]
    are * and +, and [zero] is the 0 with which sum starts. *)
Variables (F O M : Type).
Variable eqF : F -> F -> bool.
Variable eqO : O -> O -> bool.
Variable base : O -> nat -> nat -> nat -> result M.
Variable mpow : M -> nat -> result M.
Variable scale : F -> M -> result M.
Variable add : M -> M -> result M.
Variable zero : M.

(** What the user assigned: dimensions, terms with frequency, operator and order, the systems in the composite system,
    and those that ever were in it: superSys and the entry in __paramBound stay (QSys.py 490, 533, 464). *)
Record term := Term { t_freq : F; t_op : O; t_ord : nat }.
Record content := Content { dims : nat -> nat; terms : nat -> seq term; members : seq nat; bound : seq nat }.
(** What is kept: __matrix of the terms, of the systems and of the composite system, and _paramUpdated of the latter two
    (that of a term is never read). *)
Record cache := Cache { tm : nat -> nat -> option M; sm : nat -> option M; su : nat -> bool; cm : option M; cu : bool }.
Definition st := (content * cache)%type.

Definition at1 {A} (f : nat -> A) (i : nat) (x : A) : nat -> A := fun j => if j == i then x else f j.
Definition at2 {A} (f : nat -> nat -> A) (i k : nat) (x : A) : nat -> nat -> A :=
  fun j l => if (j == i) && (l == k) then x else f j l.

(** _dimsBefore and _dimsAfter (C94_flat). *)
Definition dimsBefore (c : content) (s : nat) : nat :=
  if s \in members c then foldr muln 1 (map (dims c) (take (index s (members c)) (members c))) else 1.
Definition dimsAfter (c : content) (s : nat) : nat :=
  if s \in members c then foldr muln 1 (map (dims c) (drop (index s (members c)).+1 (members c))) else 1.

(** _paramUpdated = True for a system or one of its terms, and on to the composite system (baseClasses.py 191-203). *)
Definition mark (c : content) (s : nat) (a : cache) : cache :=
  Cache (tm a) (sm a) (at1 (su a) s true) (cm a) (cu a || (s \in bound c)).
(** delMatrices of the composite system (baseClasses.py 205-236): all systems in it and their terms. *)
Definition clearAll (c : content) (a : cache) : cache :=
  Cache (fun s k => if s \in members c then None else tm a s k) (fun s => if s \in members c then None else sm a s) (su a) None (cu a).
(** delMatrices of a term of the system [s]: the term is bound to its system, and that, if it was ever added, to the
    composite system. *)
Definition clearFrom (c : content) (s : nat) (a : cache) : cache :=
  let a1 := Cache (fun j k => if j == s then None else tm a j k) (at1 (sm a) s None) (su a) (cm a) (cu a) in
  if s \in bound c then clearAll c a1 else a1.
(** for sys in self.subSys.values(): sys.delMatrices(_exclude=[]), where subSys are the terms. *)
Definition clearTerms (c : content) (s : nat) (a : cache) : cache := if terms c s is [::] then a else clearFrom c s a.
(** The setters of _dimsBefore and _dimsAfter (QSys.py 230-258): setAttr marks if the number changes. *)
Definition setPlace (c : content) (s : nat) (changed : bool) (a : cache) : cache :=
  clearTerms c s (if changed then mark c s a else a).

(** ** Reading *)
(** _constructMatrices of a term (QSys.py 803-830) *)
Definition construct (c : content) (s : nat) (t : term) : result M :=
  let! m := base (t_op t) (dims c s) (dimsBefore c s) (dimsAfter c s) in mpow m (t_ord t).
(** freeMat of the k-th term (QSys.py 732-752) *)
Definition freeMat (c : content) (s k : nat) (t : term) (a : cache) : cache * result M :=
  match tm a s k with
  | Some m => (a, Ok m)
  | None => match construct c s t with
            | Ok m => (Cache (at2 (tm a) s k (Some m)) (sm a) (su a) (cm a) (cu a), Ok m)
            | Err e => (a, Err e)
            end
  end.
(** sum((obj.frequency * obj.freeMat) for obj in self.subSys.values()) from the k-th term on *)
Fixpoint sumTerms (c : content) (s k : nat) (ts : seq term) (acc : M) (a : cache) : cache * result M :=
  match ts with
  | [::] => (a, Ok acc)
  | t :: ts' =>
      match freeMat c s k t a with
      | (a1, Ok m) => match (let! x := scale (t_freq t) m in add acc x) with
                      | Ok acc' => sumTerms c s k.+1 ts' acc' a1
                      | Err e => (a1, Err e)
                      end
      | (a1, Err e) => (a1, Err e)
      end
  end.
(** totalHam of a single system (QSys.py 893-902) *)
Definition sysHam (c : content) (s : nat) (a : cache) : cache * result M :=
  match (if su a s then None else sm a s) with
  | Some m => (a, Ok m)
  | None => match sumTerms c s 0 (terms c s) zero a with
            | (a1, Ok m) => (Cache (tm a1) (at1 (sm a1) s (Some m)) (at1 (su a1) s false) (cm a1) (cu a1), Ok m)
            | (a1, Err e) => (a1, Err e)
            end
  end.
(** freeHam of the composite system (QSys.py 418-424) *)
Fixpoint sumSys (c : content) (l : seq nat) (acc : M) (a : cache) : cache * result M :=
  match l with
  | [::] => (a, Ok acc)
  | s :: l' => match sysHam c s a with
               | (a1, Ok m) => match add acc m with
                               | Ok acc' => sumSys c l' acc' a1
                               | Err e => (a1, Err e)
                               end
               | (a1, Err e) => (a1, Err e)
               end
  end.
(** totalHam of the composite system (QSys.py 426-434), couplingHam (436-442) is sum of nothing. *)
Definition compHam (c : content) (a : cache) : cache * result M :=
  match (if cu a then None else cm a) with
  | Some m => (a, Ok m)
  | None => match sumSys c (members c) zero a with
            | (a1, Ok h) => match add h zero with
                            | Ok m => (Cache (tm a1) (sm a1) (su a1) (Some m) false, Ok m)
                            | Err e => (a1, Err e)
                            end
            | (a1, Err e) => (a1, Err e)
            end
  end.

(** ** Changing *)
Definition withTerms (c : content) (s : nat) (ts : seq term) : content := Content (dims c) (at1 (terms c) s ts) (members c) (bound c).
(** The k-th term gets other values; setAttr marks if the value is another one (QSimBase.py 39-47). *)
Definition setTerm (c : content) (s k : nat) (t : term) (changed : bool) (a : cache) : st :=
  if changed then let c' := withTerms c s (set_nth t (terms c s) k t) in (c', mark c s a) else (c, a).

Inductive op :=
| AddTerm (s : nat) (f : F) (o : O) (n : nat)
| RemoveTerm (s k : nat)
| Freq (s k : nat) (f : F) | Oper (s k : nat) (o : O) | Order (s k n : nat)
| Dim (s d : nat) | Add (s : nat) | Remove (s : nat)
| ReadTerm (s k : nat) | ReadSys (s : nat) | ReadComp.

Definition onTerm (x : st) (s k : nat) (f : term -> st * result unit) : st * result unit :=
  if ohead (drop k (terms x.1 s)) is Some t then f t else (x, Err IndexError).

(** Each with what it raises. *)
Definition does (x : st) (p : op) : st * result unit :=
  let: (c, a) := x in
  match p with
  (* addTerm and addSubSys (QSys.py 1024-1029, 987-999) *)
  | AddTerm s f o n =>
      ((withTerms c s (rcons (terms c s) (Term f o n)),
        mark c s (Cache (at2 (tm a) s (size (terms c s)) None) (sm a) (su a) (cm a) (cu a))), Ok tt)
  (* removeTerm (QSys.py 1031-1037, 1001-1013).  In a composite system, its _removeSubSysExc (493-539) ends with the
     assignment of _dimsAfter to the term, which has no such slot; otherwise the term is taken out (base.py 676-684). *)
  | RemoveTerm s k => onTerm x s k (fun _ =>
      if s \in bound c then (x, Err AttributeError)
      else ((withTerms c s (take k (terms c s) ++ drop k.+1 (terms c s)),
             Cache (fun j l => if j == s then tm a s (if l < k then l else l.+1) else tm a j l) (sm a) (su a) (cm a) (cu a)), Ok tt))
  (* frequency (QSys.py 715-721) *)
  | Freq s k f => onTerm x s k (fun t => (setTerm c s k (Term f (t_op t) (t_ord t)) (~~ eqF f (t_freq t)) a, Ok tt))
  (* operator (QSys.py 688-691) *)
  | Oper s k o => onTerm x s k (fun t =>
      (setTerm c s k (Term (t_freq t) o (t_ord t)) (~~ eqO o (t_op t)) (Cache (at2 (tm a) s k None) (sm a) (su a) (cm a) (cu a)), Ok tt))
  (* order (QSys.py 700-704): a kept matrix is made again *)
  | Order s k n => onTerm x s k (fun t =>
      let t' := Term (t_freq t) (t_op t) n in
      let: (c1, a1) := setTerm c s k t' (n != t_ord t) a in
      if tm a1 s k is Some _ then
        match construct c1 s t' with
        | Ok m => ((c1, Cache (at2 (tm a1) s k (Some m)) (sm a1) (su a1) (cm a1) (cu a1)), Ok tt)
        | Err e => ((c1, a1), Err e)
        end
      else ((c1, a1), Ok tt))
  (* dimension (QSys.py 870-891) and updateDimension (595-643) *)
  | Dim s d =>
      let c' := Content (at1 (dims c) s d) (terms c) (members c) (bound c) in
      let a1 := clearTerms c s a in
      let a2 := if d == dims c s then a1 else mark c s a1 in
      if s \in members c then
        let a3 := foldl (fun a t => if t == s then a
                    else setPlace c t ((dimsBefore c t != dimsBefore c' t) || (dimsAfter c t != dimsAfter c' t)) a) a2 (members c) in
        ((c', clearAll c (Cache (tm a3) (sm a3) (su a3) (cm a3) true)), Ok tt)
      else ((c', a2), Ok tt)
  (* addSubSys and __addSub (QSys.py 451-466, 474-491) *)
  | Add s =>
      if s \in members c then (x, Ok tt) else
      let c' := Content (dims c) (terms c) (rcons (members c) s) (s :: bound c) in
      let a1 := foldl (fun a t => setPlace c s (dims c t != 1) (setPlace c t (dims c s != 1) a)) a (members c) in
      let a2 := if sm a1 s is Some _ then Cache (fun j k => if j == s then None else tm a1 j k) (sm a1) (su a1) (cm a1) (cu a1) else a1 in
      ((c', Cache (tm a2) (sm a2) (su a2) (cm a2) true), Ok tt)
  (* _removeSubSysExc (QSys.py 493-539) for a system that is in the composite system *)
  | Remove s =>
      if s \notin members c then (x, Err KeyError) else
      let c' := Content (dims c) (terms c) (rem s (members c)) (bound c) in
      let a1 := foldl (fun a t => if t == s then a
                  else setPlace c t ((dimsBefore c t != dimsBefore c' t) || (dimsAfter c t != dimsAfter c' t)) a) a (members c) in
      let a2 := setPlace c' s (dimsAfter c s != 1) a1 in
      let a3 := setPlace c' s (dimsBefore c s != 1) a2 in
      ((c', clearAll c' a3), Ok tt)
  | ReadTerm s k => onTerm x s k (fun t => let: (a', r) := freeMat c s k t a in ((c, a'), let! _ := r in Ok tt))
  | ReadSys s => let: (a', r) := sysHam c s a in ((c, a'), let! _ := r in Ok tt)
  | ReadComp => let: (a', r) := compHam c a in ((c, a'), let! _ := r in Ok tt)
  end.
(** A session goes on after an exception. *)
Definition run (x : st) (l : seq op) : st := foldl (fun x p => (does x p).1) x l.

(** New systems without terms, in no composite system; nothing is kept and everything is marked (baseClasses.py 134-155). *)
Definition start (ds : nat -> nat) : st :=
  (Content ds (fun _ => [::]) [::] [::], Cache (fun _ _ => None) (fun _ => None) (fun _ => true) None true).
End OldHam.
Arguments RemoveTerm {F O}. Arguments Order {F O}. Arguments Dim {F O}. Arguments Add {F O}. Arguments Remove {F O}.
Arguments Freq {F O}. Arguments Oper {F O}. Arguments AddTerm {F O}. Arguments ReadTerm {F O}. Arguments ReadSys {F O}. Arguments ReadComp {F O}.
