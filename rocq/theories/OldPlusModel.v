(** What +, - and N * between the older systems build (src/quanguru/classes/QSys.py 134-206, base.py 701-707).  Systems are
    those of OldDimModel.v with their dimensions; a new one gets the next free number.  Left out: the terms of single
    systems, simulations, compute functions and initial states that copy and + hand on. *)
From Verif Require Import Py.
From mathcomp Require Import all_ssreflect.
From Verif Require Import OldDimModel.
Set Implicit Arguments.
Unset Strict Implicit.
Unset Printing Implicit Defensive.

Definition world := (heap * nat)%type.
Definition N (A : Type) := world -> world * result A.
Definition retN {A} (x : A) : N A := fun w => (w, Ok x).
Definition bindN {A B} (m : N A) (f : A -> N B) : N B :=
  fun w => match m w with (w', Ok x) => f x w' | (w', Err e) => (w', Err e) end.
#[local] Notation "x <~ m ;; k" := (bindN m (fun x => k)) (at level 61, m at next level, right associativity).
Definition lift {A} (m : M A) : N A := fun w => let: (h, r) := m w.1 in ((h, w.2), r).
(** A new object: compQSystem() or a new single system (QSys.py 389-398, 847-860). *)
Definition alloc (x : obj) : N nat := fun w => ((upd w.1 w.2 x, w.2.+1), Ok w.2).
Definition newComp : obj := Obj true None 1 1 [::] None.
Definition newOne (d : option nat) : obj := Obj false d 1 1 [::] None.

Section Plus.
Variable fdiv : nat -> nat -> nat.
Variable lim : nat.
Definition addTo (c s : nat) : N unit := lift (addSub fdiv lim c s).
Fixpoint addAll (c : nat) (l : seq nat) : N unit :=
  match l with [::] => retN tt | s :: l' => _ <~ addTo c s ;; addAll c l' end.
Fixpoint mapN (f : nat -> N nat) (l : seq nat) : N (seq nat) :=
  match l with [::] => retN [::] | s :: l' => x <~ f s ;; xs <~ mapN f l' ;; retN (x :: xs) end.

(** copy (QSys.py 188-206): the systems in it are copied first.  [fuel] bounds Python's recursion. *)
Fixpoint copy (fuel o : nat) : N nat :=
  if fuel is fuel'.+1 then
    x <~ lift (get o) ;;
    l <~ mapN (copy fuel') (subs x) ;;
    if isComp x then n <~ alloc newComp ;; _ <~ addAll n l ;; retN n
    else alloc (newOne (dim x))
  else lift (raise RecursionError).

(** newComp.addSubSys([self, other.copy() if (other is self) else other]) for a new composite system *)
Definition both (a b : nat) : N nat :=
  n <~ alloc newComp ;; b' <~ (if b == a then copy lim b else retN b) ;; _ <~ addAll n [:: a; b'] ;; retN n.
(** __add__ (QSys.py 134-161) *)
Definition plus (a b : nat) : N nat :=
  x <~ lift (get a) ;; y <~ lift (get b) ;;
  if isComp x && ~~ isComp y then _ <~ addTo a b ;; retN a
  else if isComp x && isComp y then if size (subs x) == 0 then retN b else both a b
  else if ~~ isComp x && ~~ isComp y then both a b
  else _ <~ addTo b a ;; retN b.
(** the loop of __rmul__: k more copies of q *)
Fixpoint addCopies (k n q : nat) : N unit :=
  if k is k'.+1 then c <~ copy lim q ;; _ <~ addTo n c ;; addCopies k' n q else retN tt.
(** __rmul__ (QSys.py 177-186): range(other - 1) is empty for 0 *)
Definition times (k q : nat) : N nat :=
  n <~ alloc newComp ;; _ <~ addTo n q ;; _ <~ addCopies k.-1 n q ;; retN n.
(** __sub__ (QSys.py 169-175) *)
Definition minus (a b : nat) : N nat := _ <~ lift (rm fdiv lim a b [::]) ;; retN a.
End Plus.
