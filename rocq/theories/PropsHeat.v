(** C97: HeatCurrent returns for no input. *)
From mathcomp Require Import all_ssreflect all_algebra.
From Verif Require Py.
From Verif Require Import MatModel OperModel StateModel HeatModel.
Set Implicit Arguments.
Unset Strict Implicit.
Unset Printing Implicit Defensive.

Section Heat.
Variable C : numClosedFieldType.

(** The documented use, a density matrix of a system of dimension 2 or more:
    ValueError, whatever the other arguments are and however [*] is done. *)
Theorem C97_density star (L H rho : mat C) :
  rows rho = cols rho -> (1 < rows rho)%N ->
  HeatCurrent star L H rho = Err Py.ValueError.
Proof.
move=> e h; rewrite /HeatCurrent /vec2Mat /reshape -e.
case: eqP => // e2; exfalso.
have [h1 _] := PeanoNat.Nat.sqrt_specif (rows rho).
move/leP: h1; rewrite -[(_ * _)%coq_nat]/(_ * _)%N e2 => h1.
by move: h1; rewrite leqNgt -{1}[rows rho]muln1 ltn_pmul2l ?h // (ltn_trans _ h).
Qed.

(** Sparse matrices of any shapes: always an exception, and which one.
    AttributeError needs a Hamiltonian of a single row. *)
Theorem C97_sparse (L H rho : mat C) :
  let n := cols L in
  (rows rho * cols rho = n * n /\ n = PeanoNat.Nat.sqrt (rows rho) /\ rows H = 1 ->
     HeatCurrent (@mmul C) L H rho = Err Py.AttributeError) /\
  (~ (rows rho * cols rho = n * n /\ n = PeanoNat.Nat.sqrt (rows rho) /\ rows H = 1) ->
     HeatCurrent (@mmul C) L H rho = Err Py.ValueError).
Proof.
rewrite /HeatCurrent /vec2Mat /reshape; split.
  move=> [e1 [e2 e3]]; rewrite -e2 e1 eqxx /= /mmul /= eqxx /= /mat2Vec /reshape /=.
  by rewrite muln1 [X in (X == _)]mulnC eqxx /= e3.
move=> h; case: eqP => //= e1.
rewrite {1}/mmul /=; case: eqP => //= e2.
rewrite /mat2Vec /reshape /= muln1 [X in (X == _)]mulnC eqxx /= /mmul /=.
by case: eqP => //= e3; case: h; rewrite -e1 e2.
Qed.

(** No call returns, for any way to multiply. *)
Theorem C97_returns_refuted star (L H rho : mat C) x : HeatCurrent star L H rho <> Ok x.
Proof.
rewrite /HeatCurrent; case: (vec2Mat _) => //= m; case: (star L m) => //= p.
by case: (mat2Vec p) => //= f; case: (star f H).
Qed.

(** A qubit in its ground state; and a column of length 4, which gets through
    to the missing method with a Hamiltonian of one row only. *)
Example C97_ex (L H : mat C) :
  HeatCurrent (@mmul C) L H (mk 2 2 (fun i j => ((i == 0%N) && (j == 0%N))%:R%R)) = Err Py.ValueError.
Proof. exact: C97_density. Qed.
Example C97_ex_column :
  HeatCurrent (@mmul C) (mk 4 2 (fun _ _ => 1%R)) (mk 1 1 (fun _ _ => 1%R)) (mk 4 1 (fun _ _ => 1%R))
  = Err Py.AttributeError.
Proof. by apply: (proj1 (C97_sparse _ _ _)). Qed.
Example C97_ex_full :
  HeatCurrent (@mmul C) (mk 4 4 (fun _ _ => 1%R)) (mk 2 2 (fun _ _ => 1%R)) (mk 4 1 (fun _ _ => 1%R))
  = Err Py.ValueError.
Proof. by apply: (proj2 (C97_sparse _ _ _)) => -[]. Qed.
End Heat.

Print Assumptions C97_density.
Print Assumptions C97_sparse.
Print Assumptions C97_returns_refuted.
