(** QuantumToolbox/Hamiltonians.py *)
From mathcomp Require Import all_ssreflect all_algebra.
From Verif Require Py.
From Verif Require Import MatModel OperModel.
Set Implicit Arguments.
Unset Strict Implicit.
Unset Printing Implicit Defensive.
Import GRing.Theory Num.Theory.
Local Open Scope ring_scope.

Section Ham.
Variable C : numClosedFieldType.

(** Hamiltonians.py qubCavFreeHam 53-82 (qubit first) *)
Definition qubCavFreeHam (qubFreq cavFreq : C) (cavDim : nat) : result (mat C * mat C) :=
  do i2 <- identity C 2;
  do n <- number C cavDim;
  do z <- sigmaz;
  do id <- identity C cavDim;
  let cavHam := scalem cavFreq (kron i2 n) in
  let qubHam := scalem qubFreq (kron z id) in
  Ok (cavHam, qubHam).

(** Hamiltonians.py RabiHam 84-115 *)
Definition RabiHam (qubFreq cavFreq g : C) (cavDim : nat) : result (mat C) :=
  do hs <- qubCavFreeHam qubFreq cavFreq cavDim;
  let (cavHam, qubHam) := hs in
  do x <- sigmax;
  do c <- create C cavDim;
  do a <- destroy C cavDim;
  do ca <- madd c a;
  let coupling := scalem g (kron x ca) in
  do h <- madd cavHam qubHam;
  madd h coupling.

(** Hamiltonians.py JCHam 117-148 *)
Definition JCHam (qubFreq cavFreq g : C) (cavDim : nat) : result (mat C) :=
  do hs <- qubCavFreeHam qubFreq cavFreq cavDim;
  let (cavHam, qubHam) := hs in
  do m <- sigmam;
  do p <- sigmap;
  do c <- create C cavDim;
  do a <- destroy C cavDim;
  do s <- madd (kron m c) (kron p a);
  let coupling := scalem g s in
  do h <- madd cavHam qubHam;
  madd h coupling.

(** Hamiltonians.py aJCHam 150-182 *)
Definition aJCHam (qubFreq cavFreq g : C) (cavDim : nat) : result (mat C) :=
  do hs <- qubCavFreeHam qubFreq cavFreq cavDim;
  let (cavHam, qubHam) := hs in
  do m <- sigmam;
  do p <- sigmap;
  do c <- create C cavDim;
  do a <- destroy C cavDim;
  do s <- madd (kron p c) (kron m a);
  let coupling := scalem g s in
  do h <- madd cavHam qubHam;
  madd h coupling.

(** [np.cos], [np.sin] and [np.exp]; the square roots of non-negative numbers
    are [sqrtC]. *)
Variables (cosf sinf cexp : C -> C).

(** [U[row(n), col(n)] = val] for the ints [n] of an array: one assignment
    after the other. *)
Definition setItems (U : nat -> nat -> C) (ns : seq nat) (row col : nat -> nat)
    (val : (nat -> nat -> C) -> nat -> C) : nat -> nat -> C :=
  foldl (fun U n => fun i j => if (i == row n) && (j == col n) then val U n else U i j) U ns.

(** Hamiltonians.py UJC 184-223.  [sparse] only changes the type of the
    result.  Where the square root is zero numpy divides zero by zero, warns
    and stores nan: the model returns an error instead of such a matrix.  A
    cavity of dimension zero fails at [U[0, 0]]. *)
Definition UJC (wq wc g t : C) (dimC : nat) : result (mat C) :=
  let D := wq - wc in
  let n := range 1 dimC in
  let Om k := sqrtC (k%:R * g ^+ 2 + D ^+ 2 / 4%:R) in
  let half := 1 / 2%:R in
  let U : nat -> nat -> C := fun _ _ => 0 in
  let even k := (2 * k)%N in
  let odd k := (2 * k - 1)%N in
  let phase k := cexp (- 'i * wc * (k%:R - half) * t) in
  if has (fun k => Om k == 0) n then Err Py.ZeroDivisionError else
  let U := setItems U n even even
    (fun _ k => cosf (Om k * t) + 'i / 2%:R * D * sinf (Om k * t) / Om k) in
  let U := setItems U n even even (fun U k => U (even k) (even k) * phase k) in
  let U := setItems U n odd odd
    (fun _ k => cosf (Om k * t) - 'i / 2%:R * D * sinf (Om k * t) / Om k) in
  let U := setItems U n odd odd (fun U k => U (odd k) (odd k) * phase k) in
  let U := setItems U n even odd
    (fun _ k => - 'i * sqrtC k%:R * g * sinf (Om k * t) / Om k * phase k) in
  let U := setItems U n odd even
    (fun _ k => - 'i * sqrtC k%:R * g * sinf (Om k * t) / Om k * phase k) in
  if dimC == 0%N then Err Py.IndexError else
  let U := setItems U [:: 0%N] id id
    (fun _ _ => (cosf (D / 2%:R * t) + 'i * sinf (D / 2%:R * t)) * cexp ('i * wc * half * t)) in
  let U := setItems U [:: (2 * dimC - 1)%N] id id
    (fun _ _ => (cosf (D / 2%:R * t) - 'i * sinf (D / 2%:R * t)) * cexp (- 'i * wc * (dimC%:R - half) * t)) in
  Ok (mk (2 * dimC) (2 * dimC) U).

End Ham.
