(** QuantumToolbox/operators.py, basicGates.py and spinRotations.py. *)
From mathcomp Require Import all_ssreflect all_algebra.
From Verif Require Py.
From Verif Require Import MatModel.
Set Implicit Arguments.
Unset Strict Implicit.
Unset Printing Implicit Defensive.
Import GRing.Theory Num.Theory.
Local Open Scope ring_scope.

Section Oper.
Variable C : numClosedFieldType.

(** [sp.csc_matrix((data, (rows, columns)), shape=(r, c))]: entries given as
    triples, duplicates are added (scipy documentation of coo/csc matrices),
    indices outside the shape and lists of different lengths raise ValueError. *)
Definition csc (data : seq C) (rws clms : seq nat) (r c : nat) : result (mat C) :=
  if [&& size data == size rws, size rws == size clms,
         all (fun i => i < r)%N rws & all (fun j => j < c)%N clms]
  then Ok (mk r c (fun i j => \sum_(t <- zip data (zip rws clms) | t.2 == (i, j)) t.1))
  else Err Py.ValueError.

(** Python's [range(a, b)]. *)
Definition range (a b : nat) : seq nat := iota a (b - a).

(** operators.py number 97-130 *)
Definition number (dimension : nat) : result (mat C) :=
  let data := [seq i%:R | i <- range 0 dimension] in
  let rws := range 0 dimension in
  let columns := range 0 dimension in
  csc data rws columns dimension dimension.

(** operators.py destroy 132-164 *)
Definition destroy (dimension : nat) : result (mat C) :=
  let data := [seq sqrtC (i + 1)%:R | i <- range 0 (dimension - 1)] in
  let rws := range 0 (dimension - 1) in
  let columns := range 1 dimension in
  csc data rws columns dimension dimension.

(** operators.py create 166-198 *)
Definition create (dimension : nat) : result (mat C) :=
  let data := [seq sqrtC (i + 1)%:R | i <- range 0 (dimension - 1)] in
  let rws := range 1 dimension in
  let columns := range 0 (dimension - 1) in
  csc data rws columns dimension dimension.

(** operators.py identity 200-229 *)
Definition identity (dimension : nat) : result (mat C) := Ok (idm C dimension).

(** operators.py sigmaz 231-260, sigmay 262-291, sigmax 293-322,
    sigmap 324-353, sigmam 355-384 *)
Definition sigmaz : result (mat C) := csc [:: 1; -1] [:: 0; 1]%N [:: 0; 1]%N 2 2.
Definition sigmay : result (mat C) := csc [:: - 'i; 'i] [:: 0; 1]%N [:: 1; 0]%N 2 2.
Definition sigmax : result (mat C) := csc [:: 1; 1] [:: 0; 1]%N [:: 1; 0]%N 2 2.
Definition sigmap : result (mat C) := csc [:: 1] [:: 0]%N [:: 1]%N 2 2.
Definition sigmam : result (mat C) := csc [:: 1] [:: 1]%N [:: 0]%N 2 2.

(** Python's [int(x)] for a number: truncation towards zero.  A negative
    dimension makes [range] empty and the shape invalid (ValueError), see
    [natDim]. *)
Definition truncZ (q : rat) : int := (sgz (numq q) * (`|numq q| %/ `|denq q|)%N%:Z)%R.

(** Python's [round(x, 1)]: nearest tenth, ties to even. *)
Definition floorq (q : rat) : int := (numq q %/ denq q)%Z.
Definition roundZ (q : rat) : int :=
  let z := floorq q in
  let r := q - z%:~R in
  if r < 1 / 2%:R then z
  else if r == 1 / 2%:R then (if (z %% 2)%Z == 0 then z else z + 1)
  else z + 1.
Definition round1 (q : rat) : rat := (roundZ (q * 10%:R))%:~R / 10%:R.

(** The dimension [d] and spin [j] computed by the first lines of Jp/Jm/Jz
    (operators.py 438-441, 500-503, 681-684).  The spin is a rational. *)
Definition spinDim (j : rat) (isDim : bool) : int * rat :=
  let d := truncZ (2%:R * j + 1) in
  if isDim then
    let d := truncZ j in
    (d, round1 ((d%:~R - 1) / 2%:R))
  else (d, j).

(** operators.py Jp 386-446.  A negative dimension: [csc_matrix] raises ValueError. *)
Definition Jp (j : rat) (isDim : bool) : result (mat C) :=
  let '(d, j) := spinDim j isDim in
  match d with
  | Posz d =>
      let m := [seq j - i%:R | i <- range 0 d] in
      let data := [seq sqrtC (ratr ((j + nth 0 m i) * (j - nth 0 m i + 1))) | i <- range 0 (size m - 1)] in
      csc data (range 0 (d - 1)) (range 1 d) d d
  | Negz _ => Err Py.ValueError
  end.

(** operators.py Jm 448-508 *)
Definition Jm (j : rat) (isDim : bool) : result (mat C) :=
  let '(d, j) := spinDim j isDim in
  match d with
  | Posz d =>
      let m := [seq j - i%:R | i <- range 0 d] in
      let data := [seq sqrtC (ratr ((j + nth 0 m i) * (j - nth 0 m i + 1))) | i <- range 0 (size m - 1)] in
      csc data (range 1 d) (range 0 (d - 1)) d d
  | Negz _ => Err Py.ValueError
  end.

(** operators.py Jx 510-569 *)
Definition Jx (j : rat) (isDim : bool) : result (mat C) :=
  do p <- Jp j isDim; do m <- Jm j isDim; do s <- madd p m;
  Ok (scalem (1 / 2%:R) s).

(** operators.py Jy 571-630 ([1/(2j)] is [1/(2*i)]) *)
Definition Jy (j : rat) (isDim : bool) : result (mat C) :=
  do p <- Jp j isDim; do m <- Jm j isDim; do s <- msub p m;
  Ok (scalem (1 / (2%:R * 'i)) s).

(** operators.py Jz 632-689 *)
Definition Jz (j : rat) (isDim : bool) : result (mat C) :=
  let '(d, j) := spinDim j isDim in
  match d with
  | Posz d =>
      let data := [seq ratr (j - i%:R) | i <- range 0 d] in
      csc data (range 0 d) (range 0 d) d d
  | Negz _ => Err Py.ValueError
  end.

(** operators.py Js 691-744 *)
Definition Js (j : rat) (isDim : bool) : result (mat C) :=
  do x <- Jx j isDim; do xx <- mmul x x;
  do y <- Jy j isDim; do yy <- mmul y y;
  do s <- madd xx yy;
  do z <- Jz j isDim; do zz <- mmul z z;
  madd s zz.

(** operators.py paritySUM 886-926: [a[::2] = 1; a[1::2] = -1] *)
Definition paritySUM (dimension : nat) : result (mat C) :=
  let data := [seq (if odd i then -1 else 1) | i <- range 0 dimension] in
  csc data (range 0 dimension) (range 0 dimension) dimension dimension.

(** operators.py compositeOp 928-966: ints that are not larger than 1 are
    dropped from [[dimB, operator, dimA]]. *)
Definition compositeOp (operator : mat C) (dimB dimA : nat) : result (mat C) :=
  tensorProd [seq a <- [:: TInt dimB; TMat operator; TInt dimA] |
              match a with TInt n => (n > 1)%N | TMat _ => true end].

(** operators.py operatorPow 968-1011.  [op] is called with the dimension;
    any exception leads to a second call without it ([op0]). *)
Definition operatorPow (op : nat -> result (mat C)) (op0 : result (mat C)) (dim power : nat)
  : result (mat C) :=
  match (do m <- op dim; matPower m power) with
  | Ok r => Ok r
  | Err _ => do m <- op0; matPower m power
  end.

(** basicGates.py CNOT 25-30 *)
Definition CNOT : result (mat C) :=
  csc [:: 1; 1; 1; 1] [:: 0; 1; 2; 3]%N [:: 0; 1; 3; 2]%N 4 4.

(** basicGates.py CPHASE 32-37; [e] is the value of [np.exp(1j*phase)]. *)
Definition CPHASE (e : C) : result (mat C) :=
  csc [:: 1; 1; 1; e] [:: 0; 1; 2; 3]%N [:: 0; 1; 2; 3]%N 4 4.

(** basicGates.py Hadamard 39-44 *)
Definition Hadamard : result (mat C) :=
  let h := 1 / sqrtC 2%:R in
  csc [:: h; h; h; - (1 / sqrtC 2%:R)] [:: 0; 0; 1; 1]%N [:: 0; 1; 0; 1]%N 2 2.

(** spinRotations.py xRotation 49-71, yRotation 73-95, zRotation 97-119.
    [c] and [s] are the values of [np.cos(angle/2)] and [np.sin(angle/2)]; the
    rounding to 15 digits is not modelled. *)
Definition rotation (sigma : result (mat C)) (c s : C) : result (mat C) :=
  do i2 <- identity 2; do sg <- sigma;
  msub (scalem c i2) (scalem ('i * s) sg).
Definition xRotation := rotation sigmax.
Definition yRotation := rotation sigmay.
Definition zRotation := rotation sigmaz.

(** spinRotations.py qubRotation 121-153 ([xyz.lower()]; [AxOther] is any other string). *)
Inductive axis := AxX | AxY | AxZ | AxOther.
Definition qubRotation (xyz : axis) (c s : C) : result (mat C) :=
  match xyz with
  | AxX => xRotation c s
  | AxY => yRotation c s
  | AxZ => zRotation c s
  | AxOther => Err Py.ValueError
  end.

(** spinRotations.py spinRotation 155-192 and evolution.py Unitary 59-91 with
    [timeStep = 1]; [expm] is the matrix exponential of scipy, [angle] a real number. *)
Definition Unitary (expm : mat C -> result (mat C)) (Hamiltonian : mat C) (timeStep : C)
  : result (mat C) := expm (scalem timeStep (scalem (- 'i) Hamiltonian)).
Definition spinRotation (expm : mat C -> result (mat C)) (xyz : axis) (angle : C) (j : rat) (isDim : bool)
  : result (mat C) :=
  do rotOpMat <- match xyz with
                 | AxX => Jx j isDim
                 | AxY => Jy j isDim
                 | AxZ => Jz j isDim
                 | AxOther => Err Py.ValueError
                 end;
  Unitary expm (scalem angle rotOpMat) 1.

(** operators.py displacement 746-796 and squeeze 798-840. *)
Definition displacement (expm : mat C -> result (mat C)) (alpha : C) (dim : nat) : result (mat C) :=
  do c <- create dim; do a <- destroy dim;
  do oper <- msub (scalem alpha c) (scalem alpha^* a);
  expm oper.
Definition squeeze (expm : mat C -> result (mat C)) (alpha : C) (dim : nat) : result (mat C) :=
  do c <- create dim; do cc <- mmul c c;
  do a <- destroy dim; do aa <- mmul a a;
  do oper <- madd (scalem (-1) (scalem alpha cc)) (scalem alpha^* aa);
  expm (scalem (1 / 2%:R) oper).

End Oper.

Arguments sigmaz {C}. Arguments sigmay {C}. Arguments sigmax {C}.
Arguments sigmap {C}. Arguments sigmam {C}.
