(** The bookkeeping of dimensions of the older system classes (src/quanguru/classes/QSys.py 208-282, 452-539,
    595-643, 871-891): every system keeps its dimension and the dimensions before and after it in its composite
    system.  Modelled: single systems (qSystem) and composite systems (compQSystem), nested to any depth.
    Left out: the couplings (OldCoupModel.v), the terms of single systems, the matrices and states that are dropped
    on the way, and the binding of simulations. *)
From Verif Require Import Py.
From mathcomp Require Import all_ssreflect.
Set Implicit Arguments.
Unset Strict Implicit.
Unset Printing Implicit Defensive.

(** __dimension, __dimsBefore, __dimsAfter (QSys.py 115-131), superSys and subSys (base.py 600-603); the dictionary
    __qSystems of a composite system has the same systems as subSys. *)
Record obj := Obj { isComp : bool; dim : option nat; bef : nat; aft : nat; subs : seq nat; sup : option nat }.
Definition heap := nat -> obj.
Definition M (A : Type) := heap -> heap * result A.
Definition ret {A} (x : A) : M A := fun h => (h, Ok x).
Definition raise {A} (e : exn) : M A := fun h => (h, Err e).
Definition bindM {A B} (m : M A) (f : A -> M B) : M B :=
  fun h => match m h with (h', Ok x) => f x h' | (h', Err e) => (h', Err e) end.
Notation "x <- m ;; k" := (bindM m (fun x => k)) (at level 61, m at next level, right associativity).
Notation "m ;;; k" := (bindM m (fun _ => k)) (at level 61, right associativity).
Definition get (o : nat) : M obj := fun h => (h, Ok (h o)).
Definition upd (h : heap) (o : nat) (x : obj) : heap := fun i => if i == o then x else h i.
Definition put (o : nat) (f : obj -> obj) : M unit := fun h => (upd h o (f (h o)), Ok tt).
Fixpoint each (l : seq nat) (f : nat -> M unit) : M unit :=
  match l with [::] => ret tt | x :: l' => f x ;;; each l' f end.

Definition withDim (d : option nat) (x : obj) := Obj (isComp x) d (bef x) (aft x) (subs x) (sup x).
Definition withBef (v : nat) (x : obj) := Obj (isComp x) (dim x) v (aft x) (subs x) (sup x).
Definition withAft (v : nat) (x : obj) := Obj (isComp x) (dim x) (bef x) v (subs x) (sup x).
Definition withSubs (l : seq nat) (x : obj) := Obj (isComp x) (dim x) (bef x) (aft x) l (sup x).
Definition withSup (p : option nat) (x : obj) := Obj (isComp x) (dim x) (bef x) (aft x) (subs x) p.

Section Dims.
(** int(a/b) for b > 0: the quotient is a floating-point number. *)
Variable fdiv : nat -> nat -> nat.
Definition quot (a b : nat) : M nat := if b == 0 then raise ZeroDivisionError else ret (fdiv a b).

(** The getters of _dimsBefore and _dimsAfter (QSys.py 222-228, 241-247). *)
Definition getBef (o : nat) : M nat := fun h => (h, Ok (if bef (h o) == 0 then 1 else bef (h o))).
Definition getAft (o : nat) : M nat := fun h => (h, Ok (if aft (h o) == 0 then 1 else aft (h o))).
(** The setters (QSys.py 230-239, 249-258).  The recursion of Python is bounded by [lim]. *)
Fixpoint setBef (lim o v : nat) : M unit :=
  if lim is lim'.+1 then
    old <- getBef o ;;
    put o (withBef v) ;;;
    x <- get o ;;
    each (subs x) (fun s => b <- getBef s ;; w <- quot (b * v) old ;; setBef lim' s w)
  else raise RecursionError.
Fixpoint setAft (lim o v : nat) : M unit :=
  if lim is lim'.+1 then
    old <- getAft o ;;
    put o (withAft v) ;;;
    x <- get o ;;
    each (subs x) (fun s => b <- getAft s ;; w <- quot (b * v) old ;; setAft lim' s w)
  else raise RecursionError.

(** The getter of dimension (QSys.py 260-273) with subSysDimensions (411-416): that of a composite system is kept
    until it is reset.  A single system without dimension gives None, which raises a TypeError where it is used. *)
Fixpoint prodDims (f : nat -> M nat) (l : seq nat) (acc : nat) : M nat :=
  match l with [::] => ret acc | s :: l' => d <- f s ;; prodDims f l' (acc * d) end.
Fixpoint dimension (lim o : nat) : M nat :=
  if lim is lim'.+1 then
    x <- get o ;;
    match dim x with
    | Some d => ret d
    | None => if isComp x then d <- prodDims (dimension lim') (subs x) 1 ;; put o (withDim (Some d)) ;;; ret d
              else raise TypeError
    end
  else raise RecursionError.
(** _totalDim (QSys.py 275-282). *)
Definition totalDim (lim o : nat) : M nat :=
  d <- dimension lim o ;; b <- getBef o ;; a <- getAft o ;; ret (d * b * a).

(** ind (QSys.py 208-220). *)
Fixpoint ind (lim o : nat) : M nat :=
  if lim is lim'.+1 then
    x <- get o ;;
    match sup x with
    | None => ret 0
    | Some p =>
        y <- get p ;;
        if o \in subs y then
          if sup y is Some _ then k <- ind lim' p ;; ret (index o (subs y) + k) else ret (index o (subs y))
        else raise ValueError
    end
  else raise RecursionError.

(** compQSystem.addSubSys and __addSub (QSys.py 451-466, 474-491) for a system. *)
Definition addSub (lim c s : nat) : M unit :=
  x <- get c ;;
  if s \in subs x then ret tt else
  each (subs x) (fun t =>
    a <- getAft t ;; d <- dimension lim s ;; setAft lim t (a * d) ;;;
    b <- getBef s ;; e <- dimension lim t ;; setBef lim s (b * e)) ;;;
  put c (fun y => withSubs (subs y ++ [:: s]) y) ;;;
  put s (withSup (Some c)) ;;;
  put c (withDim None).

(** The two loops of updateDimension (QSys.py 608-612, 629-636): for a system with index [k] when the change is at
    index [i]. *)
Definition rescale (lim s k i new old : nat) : M unit :=
  if k < i then a <- getAft s ;; w <- quot (a * new) old ;; setAft lim s w
  else if i < k then b <- getBef s ;; w <- quot (b * new) old ;; setBef lim s w
  else ret tt.
(** q.superSys.ind, where q is in, or was in, a composite system. *)
Definition supInd (lim q : nat) : M nat :=
  y <- get q ;; match sup y with Some p => ind lim p | None => raise AttributeError end.
Fixpoint rescaleOthers (lim q new old : nat) (l exc : seq nat) : M (seq nat) :=
  match l with
  | [::] => ret exc
  | s :: l' => if s \in exc then rescaleOthers lim q new old l' exc
               else k <- ind lim s ;; i <- supInd lim q ;; rescale lim s k i new old ;;;
                    rescaleOthers lim q new old l' (rcons exc s)
  end.

(** updateDimension (QSys.py 595-643); _exclude is given back. *)
Fixpoint updateDim (lim c q new old : nat) (exc : seq nat) : M (seq nat) :=
  if lim is lim'.+1 then
    put c (withDim None) ;;;
    x <- get c ;;
    exc1 <- (if q \in subs x then
               put q (withDim (Some new)) ;;;
               i <- ind lim' q ;;
               each (subs x) (fun s => k <- ind lim' s ;; rescale lim' s k i new old) ;;;
               ret (rcons exc c)
             else ret exc) ;;
    exc2 <- (if c \in exc1 then ret exc1 else
               a <- getAft c ;; b <- getBef c ;;
               if (a != 1) || (b != 1) then
                 k <- ind lim' c ;; i <- supInd lim' q ;; rescale lim' c k i new old ;;; ret (rcons exc1 c)
               else rescaleOthers lim' q new old (subs x) (rcons exc1 c)) ;;
    match sup x with
    | Some p => updateDim lim' p q new old exc2
    | None => ret exc2
    end
  else raise RecursionError.

(** The setter of dimension of a single system (QSys.py 870-891); without a dimension before, the new one counts as
    the old one (603-604). *)
Definition setDim (lim q n : nat) : M unit :=
  x <- get q ;;
  put q (withDim (Some n)) ;;;
  match sup x with
  | Some p => updateDim lim p q n (if dim x is Some d then d else n) [::] ;;; ret tt
  | None => ret tt
  end.

(** Removal divides by the dimension (QSys.py 508-513, 523-527). *)
Definition shrink (lim s k i d : nat) : M unit :=
  if k < i then a <- getAft s ;; w <- quot a d ;; setAft lim s w
  else if i < k then b <- getBef s ;; w <- quot b d ;; setBef lim s w
  else ret tt.
Fixpoint foldEx (f : nat -> seq nat -> M (seq nat)) (l : seq nat) (exc : seq nat) : M (seq nat) :=
  match l with [::] => ret exc | s :: l' => e <- f s exc ;; foldEx f l' e end.
(** _removeSubSysExc of a composite system (QSys.py 493-539) and of a single one (1001-1013). *)
Fixpoint rm (lim c q : nat) (exc : seq nat) : M (seq nat) :=
  if lim is lim'.+1 then
    x <- get c ;;
    if isComp x then
      exc1 <- (if q \in subs x then
                 each (subs x) (fun s =>
                   k <- ind lim' s ;; i <- ind lim' q ;;
                   if k == i then ret tt else d <- dimension lim' q ;; shrink lim' s k i d) ;;;
                 put c (fun y => withSubs (rem q (subs y)) y) ;;;
                 ret (rcons exc c)
               else ret exc) ;;
      exc2 <- (if c \in exc1 then ret exc1 else
                 a <- getAft c ;; b <- getBef c ;;
                 (if (a != 1) || (b != 1) then
                    k <- ind lim' c ;; i <- supInd lim' q ;;
                    if k == i then ret tt else d <- dimension lim' q ;; shrink lim' c k i d
                  else ret tt) ;;;
                 foldEx (fun s e => rm lim' s q e) (subs x) (rcons exc1 c)) ;;
      exc3 <- match sup x with
              | Some p => e <- rm lim' p q exc2 ;; ret (rcons e p)
              | None => ret exc2
              end ;;
      setAft lim' q 1 ;;; setBef lim' q 1 ;;; put c (withDim None) ;;; ret exc3
    else if c \in exc then ret exc
    else match sup x with
         | Some p => rm lim' p q (rcons exc c)
         | None => ret (rcons exc c)
         end
  else raise RecursionError.

(** What a user does: c.addSubSys(s), q.dimension = n, c.removeSubSys(q) or c - q, and reading dimensions. *)
Inductive op := Add (c s : nat) | Dim (q n : nat) | Remove (c q : nat) | Look (o : nat).
Definition does (lim : nat) (a : op) : M unit :=
  match a with
  | Add c s => addSub lim c s
  | Dim q n => setDim lim q n
  | Remove c q => rm lim c q [::] ;;; ret tt
  | Look o => totalDim lim o ;;; ret tt
  end.
Fixpoint run (lim : nat) (l : seq op) : M unit :=
  match l with [::] => ret tt | a :: l' => does lim a ;;; run lim l' end.
End Dims.

(** New systems: the composite ones, and the single ones with their dimensions. *)
Definition start (comp : nat -> bool) (ds : nat -> nat) : heap :=
  fun i => if comp i then Obj true None 1 1 [::] None else Obj false (Some (ds i)) 1 1 [::] None.
