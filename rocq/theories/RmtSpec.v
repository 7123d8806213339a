(** What it means for a function of one real variable to have a given total, a
    given mean, and what is asked of scipy's logarithm of the Gamma function. *)
From Coq Require Import Reals.
From Coquelicot Require Import Coquelicot.
Local Open Scope R_scope.

(** The integral of [f] over [0, infinity) exists and is [l]. *)
Definition integralHalfLine (f : R -> R) (l : R) : Prop :=
  (forall b, 0 <= b -> ex_RInt f 0 b) /\
  (forall eps, 0 < eps -> exists B, forall b, B < b -> Rabs (RInt f 0 b - l) < eps).

(** The integral of [f] over the open interval (0, 1) exists and is [l]. *)
Definition integralUnit (f : R -> R) (l : R) : Prop :=
  (forall a b, 0 < a -> a <= b -> b < 1 -> ex_RInt f a b) /\
  (forall eps, 0 < eps -> exists d, 0 < d /\ forall a b, 0 < a < d -> 1 - d < b < 1 ->
     Rabs (RInt f a b - l) < eps).

(** The logarithm of the Gamma function on the positive half-integers, which
    are the only arguments the library passes. *)
Definition isLogGamma (gammaln : R -> R) : Prop :=
  gammaln (1 / 2) = ln (sqrt PI) /\ gammaln 1 = 0 /\
  forall n, (0 < n)%nat -> gammaln (INR n / 2 + 1) = ln (INR n / 2) + gammaln (INR n / 2).

(** [y] forced into the interval from 10^-30 to 10^30. *)
Definition forced (y v : R) : Prop :=
  (y < / 10 ^ 30 -> v = / 10 ^ 30) /\ (10 ^ 30 < y -> v = 10 ^ 30) /\
  (/ 10 ^ 30 <= y <= 10 ^ 30 -> v = y).
