(** QuantumToolbox/thermodynamics.py: HeatCurrent. *)
From mathcomp Require Import all_ssreflect all_algebra.
From Verif Require Py.
From Verif Require Import MatModel OperModel StateModel.
Set Implicit Arguments.
Unset Strict Implicit.
Unset Printing Implicit Defensive.

Section Heat.
Variable C : numClosedFieldType.
(** [A * B]: the matrix product for scipy sparse matrices, the entrywise
    product with broadcasting for numpy arrays. *)
Variable star : mat C -> mat C -> result (mat C).

(** thermodynamics.py HeatCurrent 102-134.  Neither a sparse matrix nor an
    array has a method [tr], so reading it raises AttributeError. *)
Definition HeatCurrent (Lindbladian Hamiltonian denMat : mat C) : result C :=
  do m <- vec2Mat denMat;
  do p <- star Lindbladian m;
  do full <- mat2Vec p;
  do _ <- star full Hamiltonian;
  Err Py.AttributeError.
End Heat.
