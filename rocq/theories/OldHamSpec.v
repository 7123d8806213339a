(** What C95 says about the Hamiltonians of the older system classes: the values as sums over what the user assigned last. *)
From Verif Require Import Py.
From mathcomp Require Import all_ssreflect.
From Verif Require Import OldHamModel.
Set Implicit Arguments.
Unset Strict Implicit.
Unset Printing Implicit Defensive.
#[local] Notation "'let!' x := m 'in' k" := (bind m (fun x => k)) (at level 200, x name, k at level 200).

Section S.
Variables (F O M : Type).
Variable base : O -> nat -> nat -> nat -> result M.
Variable mpow : M -> nat -> result M.
Variable scale : F -> M -> result M.
Variable add : M -> M -> result M.
Variable zero : M.

(** The single systems with dimensions and terms (frequency, operator, order), and the order in which those are that are
    in the composite system. *)
Record world := World { dimOf : nat -> nat; termsOf : nat -> seq (F * O * nat); inside : seq nat }.
Definition newWorld (ds : nat -> nat) : world := World ds (fun _ => [::]) [::].
Definition change (w : world) (s : nat) (ts : seq (F * O * nat)) : world :=
  World (dimOf w) (fun j => if j == s then ts else termsOf w j) (inside w).
Definition changeAt (w : world) (s k : nat) (g : F * O * nat -> F * O * nat) : world :=
  change w s (take k (termsOf w s) ++ map g (take 1 (drop k (termsOf w s))) ++ drop k.+1 (termsOf w s)).
Definition next (w : world) (p : op F O) : world :=
  match p with
  | AddTerm s f o n => change w s (termsOf w s ++ [:: (f, o, n)])
  | RemoveTerm s k => w
  | Freq s k f => changeAt w s k (fun t => (f, t.1.2, t.2))
  | Oper s k o => changeAt w s k (fun t => (t.1.1, o, t.2))
  | Order s k n => changeAt w s k (fun t => (t.1.1, t.1.2, n))
  | Dim s d => World (fun j => if j == s then d else dimOf w j) (termsOf w) (inside w)
  | Add s => if s \in inside w then w else World (dimOf w) (termsOf w) (inside w ++ [:: s])
  | Remove s => World (dimOf w) (termsOf w) (rem s (inside w))
  | ReadTerm _ _ | ReadSys _ | ReadComp => w
  end.

(** The dimensions of the systems before and after a system in the composite system, 1 outside of it. *)
Definition product (l : seq nat) : nat := foldr muln 1 l.
Definition before (w : world) (s : nat) : nat :=
  if s \in inside w then product (map (dimOf w) (take (index s (inside w)) (inside w))) else 1.
Definition after (w : world) (s : nat) : nat :=
  if s \in inside w then product (map (dimOf w) (drop (index s (inside w)).+1 (inside w))) else 1.

(** The matrix of a term: the operator of the dimension of its system, at the place of its system, to the power. *)
Definition termValue (w : world) (s : nat) (t : F * O * nat) : result M :=
  let! m := base t.1.2 (dimOf w s) (before w s) (after w s) in mpow m t.2.
(** Sums from the left, beginning with 0. *)
Fixpoint total (vs : seq (result M)) (acc : M) : result M :=
  match vs with
  | [::] => Ok acc
  | v :: vs' => let! m := v in let! acc' := add acc m in total vs' acc'
  end.
Definition sysValue (w : world) (s : nat) : result M :=
  total (map (fun t => let! m := termValue w s t in scale t.1.1 m) (termsOf w s)) zero.
Definition compValue (w : world) : result M :=
  let! h := total (map (sysValue w) (inside w)) zero in add h zero.

(** Positive powers of the matrices of operators exist, which they do for square ones. *)
Definition powers : Prop := forall o d b a m n, base o d b a = Ok m -> 0 < n -> exists m', mpow m n = Ok m'.
(** The sessions that C95 is about: no term is removed, orders are assigned positive numbers, a system is taken out when it is
    in, and the dimension of a system is not assigned after it was taken out (what that breaks is in C94). *)
Fixpoint fine (gone : seq nat) (w : world) (l : seq (op F O)) : bool :=
  match l with
  | [::] => true
  | p :: l' => match p with
               | RemoveTerm _ _ => false
               | Order _ _ n => 0 < n
               | Remove s => s \in inside w
               | Dim s _ => (s \in inside w) || (s \notin gone)
               | _ => true
               end && fine (if p is Remove s then s :: gone else gone) (next w p) l'
  end.
End S.
