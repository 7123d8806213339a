(** Matrices and the functions of QuantumToolbox/linearAlgebra.py.

    Numbers are exact elements of an arbitrary algebraically closed field with
    conjugation (mathcomp's [numClosedFieldType], of which the algebraic complex
    numbers [algC] are an instance); floating-point rounding and the
    sparse/dense distinction are not modelled.  A matrix carries its own shape,
    like a numpy/scipy array; operations on matrices of the wrong shape raise
    ValueError like numpy's and scipy.sparse's. *)
From mathcomp Require Import all_ssreflect all_algebra.
From Verif Require Py.
Set Implicit Arguments.
Unset Strict Implicit.
Unset Printing Implicit Defensive.
Import GRing.Theory Num.Theory.
Local Open Scope ring_scope.

Notation result := Py.result.
Notation Ok := Py.Ok.
Notation Err := Py.Err.
Notation rbind := Py.bind.
Notation "'do' x <- e ; f" := (Py.bind e (fun x => f))
  (at level 200, x name, e at level 100, f at level 200).

Section Mat.
Variable C : numClosedFieldType.

(** A two-dimensional array: [M.shape] is [(rows M, cols M)]. *)
Record mat := Mat { rows : nat; cols : nat; data : 'M[C]_(rows, cols) }.

(** The array of shape [(r, c)] whose entry [[i, j]] is [f i j]. *)
Definition mk (r c : nat) (f : nat -> nat -> C) : mat :=
  @Mat r c (\matrix_(i < r, j < c) f i j).

(** [M[i, j]]; only ever used inside the bounds by the model (0 outside). *)
Definition ent (M : mat) (i j : nat) : C :=
  match insub i, insub j with
  | Some i', Some j' => data M i' j'
  | _, _ => 0
  end.

(** [M + N]: scipy.sparse raises ValueError on different shapes
    (numpy's broadcasting of dense arrays is not modelled). *)
Definition addm (A B : mat) : mat := mk (rows A) (cols A) (fun i j => ent A i j + ent B i j).
Definition madd (A B : mat) : result mat :=
  if (rows A == rows B) && (cols A == cols B) then Ok (addm A B) else Err Py.ValueError.

(** [c * M] and [M * c] for a scalar. *)
Definition scalem (a : C) (A : mat) : mat := mk (rows A) (cols A) (fun i j => a * ent A i j).

(** [M - N]. *)
Definition subm (A B : mat) : mat := mk (rows A) (cols A) (fun i j => ent A i j - ent B i j).
Definition msub (A B : mat) : result mat :=
  if (rows A == rows B) && (cols A == cols B) then Ok (subm A B) else Err Py.ValueError.

(** [M @ N] (ValueError if the inner dimensions differ). *)
Definition mulm (A B : mat) : mat :=
  mk (rows A) (cols B) (fun i j => \sum_(k < cols A) ent A i k * ent B k j).
Definition mmul (A B : mat) : result mat :=
  if cols A == rows B then Ok (mulm A B) else Err Py.ValueError.

(** [sp.kron(M, N)] (scipy documentation: block [[i, j]] is [M[i,j] * N]). *)
Definition kron (A B : mat) : mat :=
  mk (rows A * rows B) (cols A * cols B)
     (fun i j => ent A (i %/ rows B) (j %/ cols B) * ent B (i %% rows B) (j %% cols B)).

(** [sp.identity(n)] *)
Definition idm (n : nat) : mat := mk n n (fun i j => (i == j)%:R).

(** Zero matrix [sp.csc_matrix((r, c))]. *)
Definition zerom (r c : nat) : mat := mk r c (fun _ _ => 0).

(** [M.T] *)
Definition trm (A : mat) : mat := mk (cols A) (rows A) (fun i j => ent A j i).
(** [M.conj()] *)
Definition conjm (A : mat) : mat := mk (rows A) (cols A) (fun i j => (ent A i j)^*).

(** linearAlgebra.py hc 47-86: [matrix.T.conj()] *)
Definition hc (A : mat) : mat := conjm (trm A).

(** linearAlgebra.py trace 279-307: [matrix.diagonal().sum()];
    [diagonal()] of a rectangular array has min(rows, cols) entries. *)
Definition trace (A : mat) : C := \sum_(i < minn (rows A) (cols A)) ent A i i.

(** linearAlgebra.py innerProd 88-132 ([ket2] defaults to [ket1]). *)
Definition innerProd (ket1 : mat) (ket2 : option mat) : result C :=
  let ket2 := if ket2 is Some k then k else ket1 in
  do p <- mmul (hc ket2) ket1; Ok (trace p).

(** linearAlgebra.py norm 134-169: [np.sqrt] of the inner product. *)
Definition norm (ket : mat) : result C :=
  do p <- innerProd ket None; Ok (sqrtC p).

(** linearAlgebra.py outerProd 171-219 *)
Definition outerProd (ket1 : mat) (ket2 : option mat) : result mat :=
  let ket2 := if ket2 is Some k then k else ket1 in
  mmul ket1 (hc ket2).

(** Arguments of [tensorProd]: an int (standing for an identity) or a matrix. *)
Inductive targ := TInt (n : nat) | TMat (M : mat).

(** linearAlgebra.py tensorProd 221-277.  The first argument is replaced by an
    identity if it is an int; [args[0]] of an empty argument list raises
    IndexError. Negative ints (rejected by scipy) are not representable. *)
Definition targMat (a : targ) : mat :=
  match a with TInt n => idm n | TMat M => M end.
Fixpoint tensorProd (args : seq targ) : result mat :=
  match args with
  | [::] => Err Py.IndexError
  | a :: rest =>
      let totalProd := targMat a in
      match rest with
      | [::] => Ok totalProd
      | _ => do r <- tensorProd rest; Ok (kron totalProd r)
      end
  end.

(** linearAlgebra.py _matMulInputs 367-403 *)
Fixpoint matMulInputs (args : seq mat) : result mat :=
  match args with
  | [::] => Err Py.IndexError
  | M :: rest =>
      match rest with
      | [::] => Ok M
      | _ => do r <- matMulInputs rest; mmul M r
      end
  end.

(** linearAlgebra.py _matPower 405-446: AssertionError unless power > 0. *)
Fixpoint matPower (A : mat) (power : nat) : result mat :=
  match power with
  | 0 => Err Py.AssertionError
  | power'.+1 =>
      if power' is _.+1 then do r <- matPower A power'; mmul A r else Ok A
  end.

End Mat.

Arguments TInt {C} n.
