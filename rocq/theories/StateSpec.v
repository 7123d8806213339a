(** Specification vocabulary for states (C44-C47). *)
From mathcomp Require Import all_ssreflect all_algebra.
From Verif Require Py.
From Verif Require Import MatModel MatSpec.
Set Implicit Arguments.
Unset Strict Implicit.
Unset Printing Implicit Defensive.
Import GRing.Theory Num.Theory.
Local Open Scope ring_scope.

Section Spec.
Variable C : numClosedFieldType.

(** A column vector of [n] amplitudes. *)
Definition isKet (n : nat) (v : mat C) : Prop := hasShape v n 1.

(** The amplitude of the [i]-th basis state. *)
Definition amp (v : mat C) (i : nat) : C := ent v i 0.

(** The result is the ket with amplitudes [f]. *)
Definition ketIs (n : nat) (f : nat -> C) (r : result (mat C)) : Prop :=
  exists v, r = Ok v /\ isKet n v /\ forall i, (i < n)%N -> amp v i = f i.

(** [sum_i |v_i|^2] and [sum_i conj(u_i) v_i] *)
Definition norm2 (n : nat) (v : mat C) : C := \sum_(i < n) `|amp v i| ^+ 2.
Definition overlap (n : nat) (u v : mat C) : C := \sum_(i < n) (amp u i)^* * amp v i.

Definition normalised (n : nat) (v : mat C) : Prop := isKet n v /\ norm2 n v = 1.

(** A dictionary of weights: total, and weight of a key (0 if absent). *)
Definition weightOf (d : seq (nat * C)) (i : nat) : C := \sum_(p <- d | p.1 == i) p.2.
Definition total (d : seq (nat * C)) : C := \sum_(p <- d) p.2.
Definition isDict (d : seq (nat * C)) : Prop := uniq [seq p.1 | p <- d].
Definition keysBelow (n : nat) (d : seq (nat * C)) : Prop := all (fun k => k < n)%N [seq p.1 | p <- d].
Definition nonNegative (d : seq (nat * C)) : Prop := all (fun w => 0 <= w) [seq p.2 | p <- d].

(** A density matrix: Hermitian, positive, of trace one. *)
Definition isDensity (n : nat) (M : mat C) : Prop :=
  [/\ hermitian n M, positive n M & \sum_(i < n) ent M i i = 1].

(** [|v><v|] *)
Definition projector (n : nat) (v M : mat C) : Prop :=
  square n M /\ forall i j, (i < n)%N -> (j < n)%N -> ent M i j = amp v i * (amp v j)^*.

(** [<v| A |v>] and [Tr(A rho)] *)
Definition quadratic (n : nat) (A v : mat C) : C :=
  \sum_(i < n) \sum_(j < n) (amp v i)^* * ent A i j * amp v j.
Definition traceProd (n : nat) (A rho : mat C) : C :=
  \sum_(i < n) \sum_(j < n) ent A i j * ent rho j i.

End Spec.
