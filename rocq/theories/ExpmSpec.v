(** The matrix exponential, specified by its power series over the complex
    numbers [RC] (pairs of real numbers of the standard library). *)
From Coq Require Import Reals.
From mathcomp Require Import all_ssreflect all_algebra.
From mathcomp Require Import complex.
From Verif Require Py.
From Verif Require Import RC MatModel MatSpec.
Set Implicit Arguments.
Unset Strict Implicit.
Unset Printing Implicit Defensive.
Import GRing.Theory Num.Theory.
Local Open Scope ring_scope.

(** A real number as a complex one, and [e^(i x) = cos x + i sin x]. *)
Definition ofR (x : R) : RC := (x%:C)%C.
Definition cis (x : R) : RC := ofR (cos x) + 'i * ofR (sin x).

(** Entry [i, j] of the [k]-th power of an [n]x[n] matrix. *)
Fixpoint powEnt (n : nat) (A : mat RC) (k i j : nat) : RC :=
  if k is k'.+1 then \sum_(l < n) ent A i l * powEnt n A k' l j else delta RC i j.

(** The usual limit of a sequence. *)
Definition converges (f : nat -> RC) (l : RC) : Prop :=
  forall e : R, 0 < e -> exists N, forall m, (N <= m)%N -> `|f m - l| < ofR e.

(** [E = 1 + A + A^2/2! + A^3/3! + ...] *)
Definition isExponential (n : nat) (A E : mat RC) : Prop :=
  square n E /\ forall i j, (i < n)%N -> (j < n)%N ->
    converges (fun N => \sum_(k < N) powEnt n A k i j / (k`!)%:R) (ent E i j).

(** [expm] returns the exponential of every square matrix. *)
Definition matrixExponential (expm : mat RC -> result (mat RC)) : Prop :=
  forall n A, square n A -> exists E, expm A = Ok E /\ isExponential n A E.

(** [np.exp], [np.cos] and [np.sin] at complex and at real numbers. *)
Definition scalarExponential (f : RC -> RC) : Prop :=
  forall z, converges (fun N => \sum_(k < N) z ^+ k / (k`!)%:R) (f z).
Definition cosC (x : RC) : RC := ofR (cos (complex.Re x)).
Definition sinC (x : RC) : RC := ofR (sin (complex.Re x)).
