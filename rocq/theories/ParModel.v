(** QuantumToolbox/operators.py parityEXP. *)
From mathcomp Require Import all_ssreflect all_algebra.
From Verif Require Py.
From Verif Require Import MatModel.
Set Implicit Arguments.
Unset Strict Implicit.
Unset Printing Implicit Defensive.
Import GRing.Theory Num.Theory.
Local Open Scope ring_scope.

(** operators.py parityEXP 842-884.  [pi] is np.pi; the two branches are scipy's
    two exponentials, for sparse and for dense storage. *)
Definition parityEXP (C : numClosedFieldType) (expm : mat C -> result (mat C)) (pi : C)
    (HamiltonianCavity : mat C) : result (mat C) :=
  let parEX := scalem ('i * pi) HamiltonianCavity in
  expm parEX.
