(** The functions based on an eigenvalue solver: entropy, traceDistance,
    sortedEigens, concurrence and spectralNorm of QuantumToolbox/functions.py,
    steadyState of evolution.py, and eigenVecVal.py.

    [scipy.linalg.eig], numpy's [argsort], logarithms and complex square root
    are arguments; EigSpec.v says what is assumed of them.  The conversion of
    sparse matrices to arrays ([Mat.A]) has no effect on the entries. *)
From mathcomp Require Import all_ssreflect all_algebra.
From Verif Require Py.
From Verif Require Import MatModel OperModel StateModel EvolModel.
Set Implicit Arguments.
Unset Strict Implicit.
Unset Printing Implicit Defensive.
Import GRing.Theory Num.Theory.
Local Open Scope ring_scope.

Section Eig.
Variable C : numClosedFieldType.
Variable eig : mat C -> result (seq C * mat C).

(** [lina.eig(Mat)]: ValueError unless the matrix is square. *)
Definition linaEig (M : mat C) : result (seq C * mat C) :=
  if rows M != cols M then Err Py.ValueError else eig M.

(** functions.py entropy 201-267.  [vals != 0] keeps the nonzero eigenvalues
    in order, [sum] of none is 0. *)
Definition entropy (log log2 : C -> C) (densMat : mat C) (base2 : bool) : result C :=
  do densMat <- (if rows densMat != cols densMat then densityMatrix densMat else Ok densMat);
  do e <- linaEig densMat;
  let nzvals := [seq v <- e.1 | v != 0] in
  let logvals := if ~~ base2 then [seq log v | v <- nzvals] else [seq log2 v | v <- nzvals] in
  Ok ('Re (- \sum_(p <- zip nzvals logvals) p.1 * p.2)).

(** functions.py traceDistance 269-309 *)
Definition traceDistance (A B : mat C) : result C :=
  do diff <- msub A B;
  do diff2 <- mmul (hc diff) diff;
  do e <- linaEig diff2;
  Ok ('Re (1 / 2%:R * \sum_(v <- e.1) sqrtC `|v|)).

Variable argsort : seq C -> seq nat.

(** [eigVecs[:, idx][:, ind]] passed to mat2Vec: a one-dimensional array, which
    becomes a column. *)
Definition colVec (V : mat C) (j : nat) : mat C := mk (rows V) 1 (fun i _ => ent V i j).

(** functions.py sortedEigens 311-353.  [len(sortedVecs)] is the number of
    rows. *)
Definition sortedEigens (M : mat C) (mag : bool) : result (seq C * seq (mat C)) :=
  do e <- linaEig M;
  let '(eigVals, eigVecs) := e in
  let idx := if mag then argsort [seq `|v| | v <- eigVals] else argsort eigVals in
  let sortedVals := [seq eigVals`_i | i <- idx] in
  let sortedVecs := [seq colVec eigVecs (nth 0%N idx ind) | ind <- range 0 (rows eigVecs)] in
  Ok (sortedVals, sortedVecs).

(** functions.py concurrence 357-409.  [sqrt] is numpy's complex square root
    and [rnd] stands for [np.round(_, 15)].  Fewer than four eigenvalues raise
    IndexError, but so small a matrix does not get past the products. *)
Definition concurrence (sqrt rnd : C -> C) (state : mat C) : result C :=
  do state <- (if rows state != cols state then densityMatrix state else Ok state);
  do sy <- sigmay;
  do SySy <- tensorProd [:: TMat sy; TMat sy];
  do x <- mmul SySy (conjm state);
  do magicConj <- mmul x SySy;
  do R <- mmul state magicConj;
  do e <- sortedEigens R false;
  match [seq 'Re (sqrt v) | v <- e.1] with
  | v0 :: v1 :: v2 :: v3 :: _ =>
      let r := rnd (v3 - v2 - v1 - v0) in Ok (if 0 < r then r else 0)
  | _ => Err Py.IndexError
  end.

(** numpy compares complex scalars by real part, then by imaginary part. *)
Definition npLt (x y : C) : bool :=
  ('Re x < 'Re y) || (('Re x == 'Re y) && ('Im x < 'Im y)).

(** Python's [max]: the first of the largest, ValueError for no value. *)
Definition pymax (s : seq C) : result C :=
  match s with
  | [::] => Err Py.ValueError
  | x :: s' => Ok (foldl (fun m v => if npLt m v then v else m) x s')
  end.

(** functions.py spectralNorm 455-457 *)
Definition spectralNorm (operator : mat C) : result (C * seq C) :=
  do p <- mmul (hc operator) operator;
  do e <- sortedEigens p false;
  do m <- pymax e.1;
  Ok (sqrtC ('Re m), e.1).

(** evolution.py steadyState 400-406 *)
Definition steadyState (expm : mat C -> result (mat C)) (Hamiltonian : option (mat C))
    (collapseOperators : cops C) (decayRates : option (seq C)) (double : bool)
  : result (seq C * seq (mat C)) :=
  do Liou <- LiouvillianExp expm Hamiltonian 1 collapseOperators decayRates true double;
  sortedEigens Liou true.

(** [EigVecs.flatten()]: row by row. *)
Definition flatten2 (V : mat C) : seq C :=
  flatten [seq [seq ent V i j | j <- range 0 (cols V)] | i <- range 0 (rows V)].

(** eigenVecVal.py _eigsStatEigSymp 147-174.  IndexError for fewer columns
    than rows (of which there are at least two). *)
Definition eigsStatEigSymp (V : mat C) : result (seq C) :=
  let dims := rows V in
  do cs <- mapr (fun ind =>
             mapr (fun k => if (ind < cols V)%N
                            then Ok (`|ent V (2 * k) ind| ^+ 2 + `|ent V (2 * k).+1 ind| ^+ 2)
                            else Err Py.IndexError)
                  (range 0 (dims %/ 2)))
           (range 0 dims);
  Ok (flatten cs).

(** eigenVecVal.py _eigStat 68-95, _eigStatSymp 97-116 and _eigStatEig 118-145 *)
Definition eigStatEig (V : mat C) (symp : bool) : result (seq C) :=
  if ~~ symp then Ok [seq `|v| ^+ 2 | v <- flatten2 V] else eigsStatEigSymp V.
Definition eigStatSymp (M : mat C) : result (seq C) :=
  do e <- linaEig M; eigsStatEigSymp e.2.
Definition eigStat (M : mat C) (symp : bool) : result (seq C) :=
  if ~~ symp then do e <- linaEig M; Ok [seq `|v| ^+ 2 | v <- flatten2 e.2] else eigStatSymp M.

(** eigenVecVal.py eigVecStatKet 176-209.  Rounding by fidelityPure is not
    modelled, see StateModel.v. *)
Definition eigVecStatKet (basis : seq (mat C)) (ket : mat C) (symp : bool) : result (seq C * seq C) :=
  do regStat <- mapr (fun state => do v <- mat2Vec state; fidelityPure v ket) basis;
  let symStat :=
    if symp then [seq regStat`_(2 * k).+1 + regStat`_(2 * k) | k <- range 0 (size regStat %/ 2)]
    else [::] in
  Ok (regStat, symStat).

End Eig.
