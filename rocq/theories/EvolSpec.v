(** Specification vocabulary for evolution and super-operators (C37-C40, C50). *)
From mathcomp Require Import all_ssreflect all_algebra.
From Verif Require Py.
From Verif Require Import MatModel StateModel MatSpec.
Set Implicit Arguments.
Unset Strict Implicit.
Unset Printing Implicit Defensive.
Import GRing.Theory Num.Theory.
Local Open Scope ring_scope.

Section Spec.
Variable C : numClosedFieldType.

(** Applying a super-operator the way a user does:
    [vec2Mat(S @ mat2Vec(rho))]. *)
Definition applySO (S rho : mat C) : result (mat C) :=
  do v <- mat2Vec rho; do w <- mmul S v; vec2Mat w.

(** The result is the [n]x[n] matrix with entries [f]. *)
Definition isMatrix (n : nat) (f : nat -> nat -> C) (r : result (mat C)) : Prop :=
  exists M, r = Ok M /\ square n M /\ forall i j, (i < n)%N -> (j < n)%N -> ent M i j = f i j.

(** [i, j] entries of [A B] and [A B D]. *)
Definition prod2 (n : nat) (A B : mat C) i j : C := \sum_(k < n) ent A i k * ent B k j.
Definition prod3 (n : nat) (A B D : mat C) i j : C :=
  \sum_(k < n) \sum_(l < n) ent A i k * ent B k l * ent D l j.

(** [-i [H, rho]] and [c rho c^+ - 1/2 (c^+ c rho + rho c^+ c)], entrywise. *)
Definition hamiltonianPart (n : nat) (H rho : mat C) i j : C :=
  - 'i * (prod2 n H rho i j - prod2 n rho H i j).
Definition dissipation (n : nat) (c rho : mat C) i j : C :=
  \sum_(k < n) \sum_(l < n) ent c i k * ent rho k l * (ent c j l)^*
  - (1 / 2%:R) * (\sum_(k < n) \sum_(l < n) (ent c k i)^* * ent c k l * ent rho l j
                + \sum_(k < n) \sum_(l < n) ent rho i k * (ent c l k)^* * ent c l j).

(** The Lindblad generator with collapse operators and rates [crs]. *)
Definition lindblad (n : nat) (H : mat C) (crs : seq (mat C * C)) (rho : mat C) i j : C :=
  hamiltonianPart n H rho i j + \sum_(p <- crs) p.2 * dissipation n p.1 rho i j.

(** What one collapse operator contributes: a matrix of the size of the system
    gives the dissipation (twice with [double]); a matrix of the squared size
    is used as a super-operator. *)
Definition contribution (n : nat) (double : bool) (M rho : mat C) i j : C :=
  if rows M == n then (if double then 2%:R else 1) * dissipation n M rho i j
  else \sum_(k < n) \sum_(l < n) ent M (j * n + i) (l * n + k) * ent rho k l.

(** What is assumed of scipy's matrix exponential: it accepts square matrices,
    leaves a row vector [w] with [w A = 0] unchanged, commutes with entrywise
    conjugation and with a change of basis. *)
Definition expmTotal (expm : mat C -> result (mat C)) : Prop :=
  forall n A, square n A -> exists E, expm A = Ok E /\ square n E.
Definition expmFixes (expm : mat C -> result (mat C)) : Prop :=
  forall n A E w, square n A -> expm A = Ok E -> hasShape w 1 n ->
    mmul w A = Ok (zerom C 1 n) -> mmul w E = Ok w.
Definition expmConj (expm : mat C -> result (mat C)) : Prop :=
  forall n A E, square n A -> expm A = Ok E -> expm (conjm A) = Ok (conjm E).
Definition expmSimilar (expm : mat C -> result (mat C)) : Prop :=
  forall n A E P Q, square n A -> expm A = Ok E -> square n P -> square n Q ->
    mmul P Q = Ok (idm C n) -> mmul Q P = Ok (idm C n) ->
    expm (mulm (mulm P A) Q) = Ok (mulm (mulm P E) Q).

(** The exponential of the adjoint is the adjoint, exponentials of opposite
    square matrices are inverse to each other. *)
Definition expmLaws (expm : mat C -> result (mat C)) : Prop :=
  forall n A, square n A -> exists E F, expm A = Ok E /\ expm (scalem (-1) A) = Ok F /\
    square n E /\ expm (hc A) = Ok (hc E) /\ mmul E F = Ok (idm C n) /\ mmul F E = Ok (idm C n).

End Spec.
