(** What calling a method once per leaf means. *)
From Verif Require Import Py RecurseModel.

(** The leaves from left to right. *)
Fixpoint leaves {A} (t : arg A) : list A :=
  match t with
  | Leaf a => [a]
  | Lst l => (fix go (l : list (arg A)) := match l with [] => [] | x :: r => leaves x ++ go r end) l
  end.

(** One call after the other, stopping at the first exception; the value of the
    last call. *)
Fixpoint calls {A S R} (func : A -> S -> S * result R) (l : list A) (s : S) (last : option R)
  : S * result (option R) :=
  match l with
  | [] => (s, Ok last)
  | a :: r => match func a s with
              | (s', Ok v) => calls func r s' (Some v)
              | (s', Err e) => (s', Err e)
              end
  end.

(** No empty list anywhere. *)
Inductive no_empty {A} : arg A -> Prop :=
| NE_leaf a : no_empty (Leaf a)
| NE_lst x l : no_empty x -> Forall no_empty l -> no_empty (Lst (x :: l)).

(** Forget the returned value. *)
Definition outcome {S R} (x : S * result R) : S * result unit :=
  (fst x, match snd x with Ok _ => Ok tt | Err e => Err e end).
