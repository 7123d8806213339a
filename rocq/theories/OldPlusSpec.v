(** What C96 says about + and N * between the older systems: the trees they stand for. *)
From Verif Require Import Py.
From mathcomp Require Import all_ssreflect.
From Verif Require Import OldDimModel OldDimSpec OldPlusModel.
Set Implicit Arguments.
Unset Strict Implicit.
Unset Printing Implicit Defensive.
#[local] Notation "x <~ m ;; k" := (bindN m (fun x => k)) (at level 61, m at next level, right associativity).

(** Expressions over systems: a system that was built before, a sum, k * q for a system q, and q + q. *)
Inductive expr := Is (t : tree) | Plus (a b : expr) | Times (k : nat) (t : tree) | Twice (t : tree).
Fixpoint leaves (e : expr) : seq tree :=
  match e with Is t => [:: t] | Plus a b => leaves a ++ leaves b | Times _ t | Twice t => [:: t] end.
(** How Python evaluates it: left, right, then the method. *)
Fixpoint eval (fdiv : nat -> nat -> nat) (lim : nat) (e : expr) : N nat :=
  match e with
  | Is t => retN (nameOf t)
  | Plus a b => x <~ eval fdiv lim a ;; y <~ eval fdiv lim b ;; plus fdiv lim x y
  | Times k t => times fdiv lim k (nameOf t)
  | Twice t => plus fdiv lim (nameOf t) (nameOf t)
  end.
(** The tree of a sum; n is the number of the next new system. *)
Definition sum (ta tb : tree) (n : nat) : tree * nat :=
  match ta, tb with
  | One _ _, One _ _ => (Group n [:: ta; tb], n.+1)
  | Group i ts, One _ _ => (Group i (ts ++ [:: tb]), n)
  | One _ _, Group j us => (Group j (us ++ [:: ta]), n)
  | Group _ ts, Group _ _ => if ts is [::] then (tb, n) else (Group n [:: ta; tb], n.+1)
  end.
(** A copy has the same form and dimensions and new systems only. *)
Fixpoint clone (t : tree) (n : nat) : tree * nat :=
  match t with
  | One _ d => (One n d, n.+1)
  | Group _ ts =>
      let: (us, m) := (fix go (ts : seq tree) (n : nat) : seq tree * nat :=
                         match ts with
                         | [::] => ([::], n)
                         | t :: ts' => let: (u, m) := clone t n in let: (us, m') := go ts' m in (u :: us, m')
                         end) ts n in
      (Group m us, m.+1)
  end.
Fixpoint clones (k : nat) (t : tree) (n : nat) : seq tree * nat :=
  if k is k'.+1 then let: (u, m) := clone t n in let: (us, m') := clones k' t m in (u :: us, m') else ([::], n).
Fixpoint shape (e : expr) (n : nat) : tree * nat :=
  match e with
  | Is t => (t, n)
  | Plus a b => let: (ta, n1) := shape a n in let: (tb, n2) := shape b n1 in sum ta tb n2
  | Times k t => let: (us, m) := clones k.-1 t n.+1 in (Group n (t :: us), m)
  | Twice t => if t is Group _ [::] then (t, n) else let: (u, m) := clone t n.+1 in (Group n [:: t; u], m)
  end.
