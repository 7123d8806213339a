(** QuantumToolbox/thermodynamics.py: nBarThermal and qubitPolarisation, with
    real numbers for floats (no rounding, overflow or infinities: where numpy
    floats would give an infinity with a warning, Python floats raise, as here). *)
From Coq Require Import Reals.
From Verif Require Import Py.
Local Open Scope R_scope.

(** Division of Python numbers. *)
Definition divR (x y : R) : result R := if Req_EM_T y 0 then Err ZeroDivisionError else Ok (x / y).

(** thermodynamics.py nBarThermal 34-71 ([expf] is numpy's exp) *)
Definition nBarThermal (expf : R -> R) (angFreq temp hbar kb : R) : result R :=
  if Req_EM_T temp 0 then Ok 0
  else bind (divR (hbar * angFreq) (temp * kb)) (fun x =>
    if Req_EM_T (expf x) 1 then Err ValueError else divR 1 (expf x - 1)).

(** thermodynamics.py qubitPolarisation 73-100 *)
Definition qubitPolarisation (expf : R -> R) (freq temp : R) : result R :=
  bind (divR (- freq) temp) (fun x =>
    let populationRatio := expf x in
    bind (divR 1 (1 + populationRatio)) (fun groundPop => Ok (1 - 2 * groundPop))).
