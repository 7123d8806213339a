(** Specification vocabulary for the functions based on an eigenvalue solver
    (C70-C74). *)
From mathcomp Require Import all_ssreflect all_algebra.
From Verif Require Py.
From Verif Require Import MatModel MatSpec StateSpec.
Set Implicit Arguments.
Unset Strict Implicit.
Unset Printing Implicit Defensive.
Import GRing.Theory Num.Theory.
Local Open Scope ring_scope.

Section Spec.
Variable C : numClosedFieldType.

(** [vals] lists the eigenvalues of the [n]-by-[n] matrix [M] with their
    algebraic multiplicities: [det(x I - M) = (x - v1) ... (x - vn)]. *)
Definition isSpectrum (n : nat) (M : mat C) (vals : seq C) : Prop :=
  [/\ square n M, size vals = n
    & forall x : C, \det (\matrix_(i < n, j < n) (x * delta C i j - ent M i j))
                    = \prod_(z <- vals) (x - z)].

(** [M v = a v] for the ket [v] *)
Definition eigenPair (M : mat C) (a : C) (v : mat C) : Prop :=
  mmul M v = Ok (scalem a v).

(** Column [j] of [V] as a ket. *)
Definition column (V : mat C) (j : nat) : mat C := mk (rows V) 1 (fun i _ => ent V i j).

(** What is assumed of the eigenvalue solver [scipy.linalg.eig]: for each square
    matrix it returns the eigenvalues, in an order of its own choice, and a
    matrix whose columns are eigenvectors of length one in the same order. *)
Definition eigSpec (eig : mat C -> result (seq C * mat C)) : Prop :=
  forall n M, square n M -> exists vals V,
    [/\ eig M = Ok (vals, V), isSpectrum n M vals, square n V
      & forall j, (j < n)%N -> normalised n (column V j) /\ eigenPair M vals`_j (column V j)].

(** numpy's order on complex numbers: by real part, then by imaginary part. *)
Definition lexle (x y : C) : bool :=
  ('Re x < 'Re y) || (('Re x == 'Re y) && ('Im x <= 'Im y)).

(** What is assumed of [argsort]: it returns the positions in an order that
    sorts the values. *)
Definition argsortSpec (argsort : seq C -> seq nat) : Prop :=
  forall s, perm_eq (argsort s) (iota 0 (size s)) /\ sorted lexle [seq s`_i | i <- argsort s].

(** [U A U^+] *)
Definition conjBy (U A B : mat C) : Prop :=
  exists X, mmul U A = Ok X /\ mmul X (hc U) = Ok B.

End Spec.
