(** Model of the list-recursion decorator _recurseIfList
    (src/quanguru/classes/base.py 53-72). *)
From Verif Require Import Py.

(** An argument: a leaf, or a (nested) list/tuple of arguments. *)
Inductive arg (A : Type) := Leaf (a : A) | Lst (l : list (arg A)).
Arguments Leaf {A} a.
Arguments Lst {A} l.

Section Recurse.
Context {A S R : Type}.
(** The decorated method: new state and returned value or exception. *)
Variable func : A -> S -> S * result R.

(** recurse (base.py 60-71).  The returned value is None for an empty list; an
    exception leaves the loop at once.  The [_exclude] argument is handed
    through unchanged by the decorator and is part of [func]'s state. *)
Fixpoint recurse (inp : arg A) (s : S) : S * result (option R) :=
  match inp with
  | Leaf a => let (s', r) := func a s in
              (s', match r with Ok v => Ok (Some v) | Err e => Err e end)
  | Lst l =>
      (fix loop (l : list (arg A)) (r : option R) (s : S) : S * result (option R) :=
         match l with
         | [] => (s, Ok r)
         | x :: rest => match recurse x s with
                        | (s', Ok r') => loop rest r' s'
                        | (s', Err e) => (s', Err e)
                        end
         end) l None s
  end.
End Recurse.
