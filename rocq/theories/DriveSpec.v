(** Specification of drives: windows, the midpoint rule and areas. *)
From mathcomp Require Import all_ssreflect all_algebra.
From Verif Require Py.
Set Implicit Arguments. Unset Strict Implicit. Unset Printing Implicit Defensive.
Import GRing.Theory Num.Theory.
Local Open Scope ring_scope.

Section Spec.
Variable R : realFieldType.

(** Strictly inside the window. *)
Definition inside (a b t : R) : bool := (a < t) && (t < b).

(** The pulse with window (a, b), shape g and factor s. *)
Definition value (a b s : R) (g : R -> R) (t : R) : R := if inside a b t then s * g t else 0.

(** The midpoint rule on a list of points. *)
Definition midpoint (g : R -> R) (pts : seq R) : R :=
  \sum_(i < (size pts).-1) g ((pts`_i.+1 + pts`_i) / 2%:R) * (pts`_i.+1 - pts`_i).

(** A list of increasing points from a to b. *)
Definition increasing (a b : R) (pts : seq R) : Prop :=
  [/\ (0 < size pts)%N, pts`_0 = a, pts`_(size pts).-1 = b
    & forall i, (i.+1 < size pts)%N -> pts`_i < pts`_i.+1].
End Spec.
