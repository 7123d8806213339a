(** Specification vocabulary for matrices: only shapes and entries are used. *)
From mathcomp Require Import all_ssreflect all_algebra.
From Verif Require Import MatModel.
Set Implicit Arguments.
Unset Strict Implicit.
Unset Printing Implicit Defensive.
Import GRing.Theory Num.Theory.
Local Open Scope ring_scope.

(** The arguments [(j, isDim)] of the spin operators denote the spin with
    [n+1] levels: either the spin [j = n/2] or the dimension [n+1] is given. *)
Definition spinArg (j : rat) (isDim : bool) (n : nat) : Prop :=
  (isDim = false /\ j = n%:R / 2%:R) \/ (isDim = true /\ j = n.+1%:R).

Section Spec.
Variable C : numClosedFieldType.

(** Composite indices: [idx] has one digit per dimension, each within it. *)
Definition isIdx (dims idx : seq nat) : bool := all2 (fun d i => i < d)%N dims idx.

(** Position of a composite index in lexicographic order. *)
Fixpoint enc (dims idx : seq nat) : nat :=
  match dims, idx with
  | _ :: ds, i :: us => (i * foldr muln 1 ds + enc ds us)%N
  | _, _ => 0%N
  end.

Definition prodn (ds : seq nat) : nat := foldr muln 1%N ds.

(** Product of one entry of each factor. *)
Fixpoint prodEnt (Ms : seq (mat C)) (us vs : seq nat) : C :=
  match Ms, us, vs with
  | M :: Ms', i :: us', j :: vs' => ent M i j * prodEnt Ms' us' vs'
  | _, _, _ => 1
  end.

Definition hasShape (M : mat C) (r c : nat) : Prop := rows M = r /\ cols M = c.

(** Square of size [n]. *)
Definition square (n : nat) (M : mat C) : Prop := hasShape M n n.

Definition delta (i j : nat) : C := (i == j)%:R.

Definition isIdentity (n : nat) (M : mat C) : Prop :=
  square n M /\ forall i j, (i < n)%N -> (j < n)%N -> ent M i j = delta i j.

Definition hermitian (n : nat) (M : mat C) : Prop :=
  square n M /\ forall i j, (i < n)%N -> (j < n)%N -> ent M i j = (ent M j i)^*.

Definition unitary (n : nat) (M : mat C) : Prop :=
  square n M /\
  (forall i j, (i < n)%N -> (j < n)%N -> \sum_(k < n) (ent M k i)^* * ent M k j = delta i j) /\
  (forall i j, (i < n)%N -> (j < n)%N -> \sum_(k < n) ent M i k * (ent M j k)^* = delta i j).

Definition diagonal (n : nat) (d : nat -> C) (M : mat C) : Prop :=
  square n M /\ forall i j, (i < n)%N -> (j < n)%N -> ent M i j = delta i j * d i.

(** [v^+ M v >= 0] for each vector [v]. *)
Definition positive (n : nat) (M : mat C) : Prop :=
  square n M /\
  forall v : nat -> C, 0 <= \sum_(i < n) \sum_(j < n) (v i)^* * ent M i j * v j.

(** [A B - B A = K] *)
Definition commutator (A B K : mat C) : Prop :=
  exists X Y, mmul A B = Ok X /\ mmul B A = Ok Y /\ msub X Y = Ok K.

(** [A B + B A = K] *)
Definition anticommutator (A B K : mat C) : Prop :=
  exists X Y, mmul A B = Ok X /\ mmul B A = Ok Y /\ madd X Y = Ok K.

End Spec.
