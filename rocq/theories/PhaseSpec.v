(** Specification vocabulary for the phase-space functions (C78-C79). *)
From mathcomp Require Import all_ssreflect all_algebra.
From Verif Require Py.
From Verif Require Import MatModel MatSpec StateSpec.
Set Implicit Arguments.
Unset Strict Implicit.
Unset Printing Implicit Defensive.
Import GRing.Theory Num.Theory.
Local Open Scope ring_scope.

Section Spec.
Variable C : numClosedFieldType.
Variable exp : C -> C.
Variable pi : C.

(** What is assumed of the real exponential and of pi. *)
Definition isRealExp : Prop := [/\ 0 < pi, exp 0 = 1 & forall x, x \is Num.real -> 0 < exp x].

(** The Wigner function of [|m><n|] at [a], normalised as in the docstring
    (it is [exp(-2|a|^2)/pi] for the vacuum):
    [exp(-2|a|^2)/pi sum_k (-1)^k sqrt(m! n!) / (k! (m-k)! (n-k)!) (2a)^(n-k) (2b)^(m-k)] with [b] the conjugate of [a].
    For [m <= n] this is
    [exp(-2|a|^2)/pi (-1)^m sqrt(m!/n!) (2a)^(n-m) L_m^(n-m)(4|a|^2)]. *)
Definition wignerElem (a : C) (m n : nat) : C :=
  exp (- 2%:R * `|a| ^+ 2) / pi *
  \sum_(k < (minn m n).+1)
    (-1) ^+ k * sqrtC ((m`!)%:R * (n`!)%:R) / ((k`!)%:R * ((m - k)`!)%:R * ((n - k)`!)%:R)
    * (2%:R * a) ^+ (n - k) * (2%:R * a^*) ^+ (m - k).

(** The point of phase space in row [i] and column [j] of the grid: the
    abscissa runs along the rows. *)
Definition phasePoint (vec : seq C) (g : C) (i j : nat) : C := g / 2%:R * (vec`_j + 'i * vec`_i).

(** [|<a|psi>|^2 / pi] for the coherent state [a], a factor [g^2/4] as in the code. *)
Definition husimi (n : nat) (psi : mat C) (g a : C) : C :=
  g ^+ 2 / 4%:R * (exp (- `|a| ^+ 2) / pi * `|\sum_(k < n) amp psi k * a^* ^+ k / sqrtC (k`!)%:R| ^+ 2).
End Spec.
