(** QuantumToolbox/rmtDistributions.py: the three densities, with real numbers
    for floats (no rounding and no infinities).  [Rpower] stands for a float
    raised to a float and is only meant for a positive base; numpy's exp and
    np.e ** y are both the exponential; [gammaln] is scipy's function. *)
From Coq Require Import Reals ZArith.
From Verif Require Import Py.
Local Open Scope R_scope.

(** The literals 10**30 and 10**-30 of rmtDistributions.py 72-78. *)
Definition hugeVal : R := 10 ^ 30.
Definition tinyVal : R := / 10 ^ 30.

(** rmtDistributions.py 72-78: the last lines of EigenVectorDist *)
Definition clampVal (v0 : R) : R :=
  let v1 := if Rlt_dec hugeVal v0 then hugeVal else v0 in
  let v2 := if Rlt_dec v1 tinyVal then tinyVal else v1 in
  if Req_EM_T v2 0 then tinyVal else v2.

(** rmtDistributions.py EigenVectorDist 36-78.  A Dyson parameter other than 1,
    2 and 4 leaves [coef] unbound.  For beta = 1 the model is that of 0 < x < 1:
    at the ends numpy divides by zero and gives an infinity. *)
Definition EigenVectorDist (gammaln : R -> R) (x : R) (dim beta : Z) : result R :=
  if Z.eqb beta 1 then
    let coef := exp (gammaln (IZR dim / 2) - gammaln ((IZR dim - 1) / 2)) in
    let dist := Rpower (1 - x) ((IZR dim - 3) / 2) / sqrt (PI * x) in
    Ok (clampVal (coef * dist))
  else if Z.eqb beta 2 then
    let coef := IZR (dim - 1) in
    let dist := powerRZ (1 - x) (dim - 2) in
    Ok (clampVal (coef * dist))
  else if Z.eqb beta 4 then
    let coef := IZR ((dim - 1) * (dim - 2)) in
    let dist := x * powerRZ (1 - x) (dim - 1) in
    Ok (clampVal (coef * dist))
  else Err UnboundLocalError.

(** rmtDistributions.py WignerDyson 81-113 and its alias WignerSurmise 115 *)
Definition WignerDyson (x : R) (beta : Z) : result R :=
  if Z.eqb beta 1 then
    Ok ((PI / 2) * (powerRZ x beta) * exp (- PI * (x ^ 2) * (1 / 4)))
  else if Z.eqb beta 2 then
    Ok (((powerRZ x beta) * (32 / (PI ^ 2))) * exp (- 4 * (x ^ 2) / PI))
  else if Z.eqb beta 4 then
    Ok (((powerRZ x beta) * ((2 ^ 18) / ((3 ^ 6) * (PI ^ 3)))) * exp (- 64 * (x ^ 2) / (9 * PI)))
  else if Z.eqb beta 0 then
    Ok (exp (- x))
  else Err UnboundLocalError.
Definition WignerSurmise := WignerDyson.

(** rmtDistributions.py Poissonian 117-137 *)
Definition Poissonian (gammaln : R -> R) (x lam : R) : R :=
  ((exp (- gammaln (x + 1))) * (Rpower lam x)) * (exp (- lam)).
