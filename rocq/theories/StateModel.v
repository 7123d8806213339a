(** QuantumToolbox/states.py, functions.py and IPR.py. *)
From Coq Require Import String.
From mathcomp Require Import all_ssreflect all_algebra.
From Verif Require Py.
From Verif Require Import MatModel OperModel.
Set Implicit Arguments.
Unset Strict Implicit.
Unset Printing Implicit Defensive.
Import GRing.Theory Num.Theory.
Local Open Scope ring_scope.

(** A list comprehension [[f(x) for x in xs]] whose body may raise. *)
Fixpoint mapr (X Y : Type) (f : X -> result Y) (xs : seq X) : result (seq Y) :=
  match xs with
  | [::] => Ok [::]
  | x :: xs' => do y <- f x; do ys <- mapr f xs'; Ok (y :: ys)
  end.

Section States.
Variable C : numClosedFieldType.

(** states.py basis 81-116 *)
Definition basis (dimension state : nat) : result (mat C) := csc [:: 1] [:: state] [:: 0%N] dimension 1.

(** states.py completeBasis 118-145 *)
Definition completeBasis (dimension : nat) : result (seq (mat C)) :=
  mapr (basis dimension) (range 0 dimension).

(** states.py basisBra 147-175 *)
Definition basisBra (dimension state : nat) : result (mat C) :=
  do b <- basis dimension state; Ok (trm b).

(** states.py zerosKet 177-207 and zerosMat 209-234 (index 0 is given
    explicitly, so dimension 0 raises ValueError) *)
Definition zerosKet (dimension : nat) : result (mat C) := csc [:: 0] [:: 0%N] [:: 0%N] dimension 1.
Definition zerosMat (dimension : nat) : result (mat C) := csc [:: 0] [:: 0%N] [:: 0%N] dimension dimension.

(** Python's [sum] of matrices: the int 0 for no summand, and [0 + M] is [M]. *)
Inductive psum := PZero | PMat (M : mat C).
Definition padd (acc : result psum) (M : mat C) : result psum :=
  do a <- acc;
  match a with
  | PZero => Ok (PMat M)
  | PMat N => do s <- madd N M; Ok (PMat s)
  end.
Definition pysum (Ms : seq (mat C)) : result psum := foldl padd (Ok PZero) Ms.

(** states.py weightedSum 236-256 ([zip] stops at the shorter list). *)
Definition weightedSum (summands : seq (mat C)) (weights : option (seq C)) : result psum :=
  match weights with
  | Some ws => pysum [seq scalem p.1 p.2 | p <- zip ws summands]
  | None => pysum summands
  end.

(** states.py normalise 428-470.  The int 0 has no attribute [shape].  A zero
    norm or trace makes numpy return an array of nan with a warning; nan is not
    modelled and ZeroDivisionError stands for it. *)
Definition normalise (state : psum) : result (mat C) :=
  match state with
  | PZero => Err Py.AttributeError
  | PMat M =>
      if rows M != cols M then
        do n <- norm M;
        if n == 0 then Err Py.ZeroDivisionError else Ok (scalem (1 / n) M)
      else
        let t := trace M in
        if t == 0 then Err Py.ZeroDivisionError else Ok (scalem (1 / t) M)
  end.

(** The argument [excitations] of superPos: a dict (keys are distinct), an
    int, an iterable of ints, or anything else.  Negative ints (ValueError in
    scipy) are not representable. *)
Inductive excit := EDict (d : seq (nat * C)) | EInt (n : nat) | EList (l : seq nat) | EOther.

(** [{k: 1 for k in excitations}]: a key seen before keeps its place. *)
Definition dictOnes (l : seq nat) : seq (nat * C) :=
  foldl (fun d k => if k \in [seq p.1 | p <- d] then d else rcons d (k, 1)) [::] l.

(** states.py superPos 258-329.  [np.sqrt] of a negative float is nan, of any
    other number the root [sqrtC]. *)
Definition superPos (dimension : nat) (excitations : excit) (populations : bool) : result (mat C) :=
  do sts <- match excitations with
            | EDict d => Ok (if populations then [seq (p.1, sqrtC p.2) | p <- d] else d)
            | EInt n => Ok [:: (n, 1)]
            | EList l => Ok (dictOnes l)
            | EOther => Err Py.TypeError
            end;
  do bs <- mapr (basis dimension) [seq p.1 | p <- sts];
  do s <- weightedSum bs (Some [seq p.2 | p <- sts]);
  normalise s.

(** states.py densityMatrix 331-378 for a single matrix and for a list. *)
Definition densityMatrix (ket : mat C) : result (mat C) := outerProd ket None.
Definition densityMatrixList (kets : seq (mat C)) (probability : option (seq C)) : result (mat C) :=
  do ps <- mapr densityMatrix kets;
  do s <- weightedSum ps probability;
  normalise s.

(** states.py completeBasisMat 380-426 (the given list is overwritten in
    place; only the returned list is modelled). *)
Definition completeBasisMat (dimension : option nat) (compKetBase : option (seq (mat C)))
  : result (seq (mat C)) :=
  do compBase <- match compKetBase with
                 | None => match dimension with
                           | None => Err Py.ValueError
                           | Some d => completeBasis d
                           end
                 | Some b => Ok b
                 end;
  mapr densityMatrix compBase.

(** states.py compositeState 472-517 ([zip] stops at the shorter list). *)
Definition compositeState (dimensions : seq nat) (excitations : seq excit) : result (mat C) :=
  do sts <- mapr (fun p => superPos p.1 p.2 true) (zip dimensions excitations);
  tensorProd [seq TMat M | M <- sts].

(** [M.reshape(r, c)] in numpy's default row-major order. *)
Definition flat (M : mat C) (k : nat) : C := ent M (k %/ cols M) (k %% cols M).
Definition reshape (M : mat C) (r c : nat) : result (mat C) :=
  if (r * c == rows M * cols M)%N then Ok (mk r c (fun i j => flat M (i * c + j)))
  else Err Py.ValueError.

(** states.py mat2Vec 519-545 *)
Definition mat2Vec (denMat : mat C) : result (mat C) :=
  reshape (trm denMat) (rows denMat * cols denMat) 1.

(** states.py vec2Mat 547-579; [int(np.sqrt(n))] is the integer square root. *)
Definition vec2Mat (vec : mat C) : result (mat C) :=
  let n := PeanoNat.Nat.sqrt (rows vec) in
  do m <- reshape vec n n; Ok (trm m).

(** states.py BellStates 581-636.  An unknown name leaves [BellState = 0];
    [sp.csr_matrix(0)] is the 1x1 zero matrix (default [sparse=True]). *)
Definition BellStates (bs : string) : result (mat C) :=
  let isIn := List.existsb (String.eqb bs) in
  let ket (l : seq C) := Ok (scalem (1 / sqrtC 2%:R) (mk 4 1 (fun i _ => nth 0 l i))) in
  if isIn [:: "Phi+"; "00"]%string then ket [:: 1; 0; 0; 1]
  else if isIn [:: "Phi-"; "01"]%string then ket [:: 1; 0; 0; -1]
  else if isIn [:: "Psi+"; "10"]%string then ket [:: 0; 1; 1; 0]
  else if isIn [:: "Psi-"; "11"]%string then ket [:: 0; 1; -1; 0]
  else Ok (zerom C 1 1).

(** states.py purity 638-652 *)
Definition purity (denMat : mat C) : result C :=
  do m <- mmul denMat denMat; Ok (trace m).

(** functions.py expectation 72-128.  The returned value drops an imaginary
    part that is 0 after rounding to 12 digits; rounding is not modelled, so
    the real part is returned exactly when the imaginary part is 0, where both
    branches return the same number. *)
Definition expectation (operator state : mat C) : result C :=
  do state <- (if rows state != cols state then densityMatrix state else Ok state);
  do p <- mmul operator state;
  let expc := trace p in
  Ok (if 'Im expc == 0 then 'Re expc else expc).

(** functions.py fidelityPure 130-186; rounding to 20 digits is not modelled. *)
Definition fidelityPure (state1 state2 : mat C) : result C :=
  if (rows state1 != cols state1) && (rows state2 != cols state2) then
    do p <- innerProd state1 (Some state2); Ok (`|p| ^+ 2)
  else
    do s1 <- (if rows state1 != cols state1 then densityMatrix state1 else Ok state1);
    do s2 <- (if rows state2 != cols state2 then densityMatrix state2 else Ok state2);
    do p <- mmul s1 s2;
    Ok ('Re (trace p)).

(** functions.py _expectationColArr 411-448 *)
Definition expectationColArr (operator states : mat C) : result (seq C) :=
  do m <- mmul (hc states) operator;
  do m <- mmul m states;
  Ok [seq ent m i i | i <- range 0 (minn (rows m) (cols m))].

(** functions.py standardDev 450-453 (with [expect=True]: both numbers). *)
Definition standardDev (operator state : mat C) : result (C * C) :=
  do expSq <- expectation operator state;
  do o2 <- matPower operator 2;
  do SqExp <- expectation o2 state;
  Ok (sqrtC (SqExp - expSq ^+ 2), expSq).

(** IPR.py iprKet 35-68.  [sum] of floats; division by the float 0.0 of numpy is inf
    (ZeroDivisionError stands for it; for an empty basis [1/0] is really ZeroDivisionError). *)
Definition iprKet (bas : seq (mat C)) (ket : mat C) : result C :=
  do fs <- mapr (fun b => fidelityPure b ket) bas;
  let s := \sum_(f <- fs) f ^+ 2 in
  if s == 0 then Err Py.ZeroDivisionError else Ok (1 / s).

(** IPR.py iprKetNB 70-105 *)
Definition iprKetNB (ket : mat C) : result C :=
  let s := \sum_(k < rows ket * cols ket) `|flat ket k| ^+ 4 in
  if s == 0 then Err Py.ZeroDivisionError else Ok (1 / s).

End States.

Arguments PZero {C}.
Arguments EInt {C} n.
Arguments EList {C} l.
Arguments EOther {C}.
Arguments BellStates {C} bs.
