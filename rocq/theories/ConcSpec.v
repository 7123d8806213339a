(** Specification vocabulary for the concurrence (C74). *)
From mathcomp Require Import all_ssreflect all_algebra.
From Verif Require Py.
From Verif Require Import MatModel MatSpec StateSpec.
Set Implicit Arguments.
Unset Strict Implicit.
Unset Printing Implicit Defensive.
Import GRing.Theory Num.Theory.
Local Open Scope ring_scope.

Section Spec.
Variable C : numClosedFieldType.

(** What is assumed of numpy's square root. *)
Definition isSqrt (sqrt : C -> C) : Prop := forall x, 0 <= x -> sqrt x = sqrtC x.

(** What is assumed of rounding to a number of decimals: it moves a number by at
    most [eps], keeps the order, and leaves 0 and 1 alone. *)
Definition isRounding (eps : C) (rnd : C -> C) : Prop :=
  [/\ forall x, x \is Num.real -> rnd x \is Num.real /\ `|rnd x - x| <= eps,
      forall x y, x \is Num.real -> y \is Num.real -> x <= y -> rnd x <= rnd y,
      rnd 0 = 0 & rnd 1 = 1].

(** [2 |a d - b c|] for the ket [(a, b, c, d)] of two qubits *)
Definition tangle (psi : mat C) : C := 2%:R * `|amp psi 0 * amp psi 3 - amp psi 1 * amp psi 2|.

(** A product of two kets of one qubit each. *)
Definition isProduct (psi : mat C) : Prop :=
  exists x y, [/\ isKet 2 x, isKet 2 y & psi = kron x y].

(** [rho = sum_k |x_k><x_k|] for kets [x_k], not necessarily of norm one (their
    norms are the weights of the mixture). *)
Definition isMixture (n : nat) (xs : seq (mat C)) (rho : mat C) : Prop :=
  [/\ square n rho, List.Forall (isKet n) xs
    & forall i j, (i < n)%N -> (j < n)%N -> ent rho i j = \sum_(x <- xs) amp x i * (amp x j)^*].
End Spec.
