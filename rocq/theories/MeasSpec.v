(** Specification vocabulary for standard deviations, participation ratios and
    Bell states (C62-C64). *)
From Coq Require Import String.
From mathcomp Require Import all_ssreflect all_algebra.
From Verif Require Py.
From Verif Require Import MatModel MatSpec StateSpec.
Set Implicit Arguments.
Unset Strict Implicit.
Unset Printing Implicit Defensive.
Import GRing.Theory Num.Theory.
Local Open Scope ring_scope.

(** The documented names of the Bell states.  The first bit says whether the two
    qubits are in different levels, the second one is the sign. *)
Inductive bellName : bool -> bool -> string -> Prop :=
| BN_Phip : bellName false false "Phi+" | BN_00 : bellName false false "00"
| BN_Phim : bellName false true "Phi-" | BN_01 : bellName false true "01"
| BN_Psip : bellName true false "Psi+" | BN_10 : bellName true false "10"
| BN_Psim : bellName true true "Psi-" | BN_11 : bellName true true "11".

Section Spec.
Variable C : numClosedFieldType.

(** The [i]-th component of [A v]. *)
Definition applied (n : nat) (A v : mat C) (i : nat) : C := \sum_(j < n) ent A i j * amp v j.

(** [A v = e v] *)
Definition eigenKet (n : nat) (A : mat C) (e : C) (v : mat C) : Prop :=
  forall i, (i < n)%N -> applied n A v i = e * amp v i.

(** [A rho = e rho] *)
Definition eigenState (n : nat) (A : mat C) (e : C) (rho : mat C) : Prop :=
  forall i j, (i < n)%N -> (j < n)%N -> \sum_(k < n) ent A i k * ent rho k j = e * ent rho i j.

(** [n] kets of [n] amplitudes each, orthonormal: a basis. *)
Definition orthonormalBasis (n : nat) (bs : seq (mat C)) : Prop :=
  [/\ size bs = n, forall i, (i < n)%N -> isKet n (nth (zerom C 0 0) bs i)
    & forall i j, (i < n)%N -> (j < n)%N ->
        overlap n (nth (zerom C 0 0) bs i) (nth (zerom C 0 0) bs j) = delta C i j].

(** A basis state up to a phase; equal weight on all levels. *)
Definition localised (n : nat) (v : mat C) : Prop :=
  exists i, [/\ (i < n)%N, `|amp v i| = 1 & forall j, (j < n)%N -> j <> i -> amp v j = 0].
Definition uniform (n : nat) (v : mat C) : Prop :=
  forall i, (i < n)%N -> `|amp v i| ^+ 2 = 1 / n%:R.

(** [(-1)^b] *)
Definition sgn (b : bool) : C := if b then -1 else 1.

(** The amplitude of [|ij>] in [(|0a> + (-1)^b |1(1-a)>)/sqrt 2]. *)
Definition bellAmp (a b : bool) (i j : bool) : C :=
  if j == i (+) a then (if i then sgn b else 1) / sqrtC 2%:R else 0.

End Spec.
