(** A concrete oracle for the matrix exponential, used only in examples: the
    Cayley transform [(1-A)^-1 (1+A)] where it exists and the identity
    elsewhere.  It shows that the laws assumed of [expm] are satisfiable by a
    function that is not constant. *)
From mathcomp Require Import all_ssreflect all_algebra.
From Verif Require Py.
From Verif Require Import MatModel MatLib MatSpec.
Set Implicit Arguments.
Unset Strict Implicit.
Unset Printing Implicit Defensive.
Import GRing.Theory Num.Theory.
Local Open Scope ring_scope.

Section Cayley.
Variable C : numClosedFieldType.

Definition cayok n (A : 'M[C]_n) : bool := (1%:M - A \in unitmx) && (1%:M + A \in unitmx).
Definition cay n (A : 'M[C]_n) : 'M[C]_n :=
  if cayok A then invmx (1%:M - A) *m (1%:M + A) else 1%:M.

Definition cayley (A : mat C) : result (mat C) :=
  match A with
  | Mat r c D =>
      match eqVneq r c with
      | EqNotNeq e => Ok (Mat (cay (castmx (erefl r, esym e) D)))
      | NeqNotEq _ => Err Py.ValueError
      end
  end.

Lemma cayleyE n (D : 'M[C]_n) : cayley (Mat D) = Ok (Mat (cay D)).
Proof.
rewrite /cayley; case: eqVneq => [e|]; last by rewrite eqxx.
by rewrite (eq_irrelevance e (erefl n)) castmx_id.
Qed.

Lemma cay_comm n (A : 'M[C]_n) : 1%:M - A \in unitmx ->
  invmx (1%:M - A) *m (1%:M + A) = (1%:M + A) *m invmx (1%:M - A).
Proof.
move=> u; have cm : (1%:M + A) *m (1%:M - A) = (1%:M - A) *m (1%:M + A).
  rewrite mulmxDl mulmxBl !mul1mx mulmxBr mulmxDr !mulmx1 addrA subrK.
  by rewrite opprD addrA addrK.
by rewrite -[LHS](mulmxK u) -[_ *m (1%:M - A)]mulmxA cm mulKmx.
Qed.

Lemma cayN n (A : 'M[C]_n) : cay A *m cay (- A) = 1%:M.
Proof.
rewrite /cay /cayok !opprK [in X in _ *m X]andbC; case: ifP => [/andP[u v]|]; last by rewrite mul1mx.
by rewrite mulmxA -[invmx (1%:M - A) *m _ *m _]mulmxA mulmxV // mulmx1 mulVmx.
Qed.

Definition adjmx r c (A : 'M[C]_(r, c)) : 'M[C]_(c, r) := (map_mx (@conjC C) A)^T.

Lemma adj_mul r k c (A : 'M[C]_(r, k)) (B : 'M[C]_(k, c)) : adjmx (A *m B) = adjmx B *m adjmx A.
Proof. by rewrite /adjmx map_mxM trmx_mul. Qed.

Lemma adj1 n : adjmx (1%:M : 'M[C]_n) = 1%:M.
Proof. by rewrite /adjmx map_mx1 trmx1. Qed.

Lemma adj_unit n (A : 'M[C]_n) : (adjmx A \in unitmx) = (A \in unitmx).
Proof. by rewrite /adjmx unitmx_tr map_unitmx. Qed.

Lemma adj_inv n (A : 'M[C]_n) : adjmx (invmx A) = invmx (adjmx A).
Proof. by rewrite /adjmx map_invmx trmx_inv. Qed.

Lemma cay_adj n (A : 'M[C]_n) : cay (adjmx A) = adjmx (cay A).
Proof.
have e1 : 1%:M - adjmx A = adjmx (1%:M - A) by rewrite /adjmx map_mxB map_mx1 linearB /= trmx1.
have e2 : 1%:M + adjmx A = adjmx (1%:M + A) by rewrite /adjmx map_mxD map_mx1 linearD /= trmx1.
rewrite /cay /cayok e1 e2 !adj_unit; case: ifP => [/andP[u v]|]; last by rewrite adj1.
rewrite -e1 -e2 cay_comm; last by rewrite e1 adj_unit.
by rewrite e1 e2 adj_mul adj_inv.
Qed.

Lemma hc_Mat r c (D : 'M[C]_(r, c)) : hc (Mat D) = Mat (adjmx D).
Proof. by apply: mat_ext => // i j hi hj; rewrite ent_hc !ent_in !mxE. Qed.

Lemma scaleN_Mat r c (D : 'M[C]_(r, c)) : scalem (-1) (Mat D) = Mat (- D).
Proof. by apply: mat_ext => // i j hi hj; rewrite ent_scalem !ent_in mxE mulN1r. Qed.

Lemma idm_Mat n : idm C n = Mat (1%:M : 'M[C]_n).
Proof. by apply: mat_ext => // i j hi hj; rewrite ent_mk // ent_in mxE. Qed.

Lemma mulm_Mat r k c (A : 'M[C]_(r, k)) (B : 'M[C]_(k, c)) : mulm (Mat A) (Mat B) = Mat (A *m B).
Proof.
apply: mat_ext => // i j hi hj; rewrite ent_mk //= ent_in mxE; apply: eq_bigr => l _.
rewrite !ent_in; congr (A _ _ * B _ _); exact: val_inj.
Qed.

Lemma square_Mat n (A : mat C) : square n A -> exists D : 'M[C]_n, A = Mat D.
Proof. by case: A => r c D [/= er ec]; subst; exists D. Qed.

Lemma cay_fix n (A : 'M[C]_n) (w : 'rV[C]_n) : w *m A = 0 -> w *m cay A = w.
Proof.
move=> h; rewrite /cay /cayok; case: ifP => [/andP[u v]|]; last by rewrite mulmx1.
have e : w *m invmx (1%:M - A) = w.
  by rewrite -[w in LHS](mulmx1) -{1}[w *m 1%:M]subr0 -h -mulmxBr mulmxK.
by rewrite mulmxA e mulmxDr h mulmx1 addr0.
Qed.

Lemma cay_conj n (A : 'M[C]_n) : cay (map_mx (@conjC C) A) = map_mx (@conjC C) (cay A).
Proof.
have e1 : 1%:M - map_mx (@conjC C) A = map_mx (@conjC C) (1%:M - A) by rewrite map_mxB map_mx1.
have e2 : 1%:M + map_mx (@conjC C) A = map_mx (@conjC C) (1%:M + A) by rewrite map_mxD map_mx1.
rewrite /cay /cayok e1 e2 !map_unitmx; case: ifP => _; last by rewrite map_mx1.
by rewrite -map_invmx -map_mxM.
Qed.

Lemma cay_sim n (A P Q : 'M[C]_n) : P *m Q = 1%:M -> Q *m P = 1%:M ->
  cay (P *m A *m Q) = P *m cay A *m Q.
Proof.
move=> h1 h2; have [uP uQ] := mulmx1_unit h1.
have e1 : 1%:M - P *m A *m Q = P *m (1%:M - A) *m Q by rewrite mulmxBr mulmxBl mulmx1 h1.
have e2 : 1%:M + P *m A *m Q = P *m (1%:M + A) *m Q by rewrite mulmxDr mulmxDl mulmx1 h1.
rewrite /cay /cayok e1 e2 !unitmx_mul uP uQ !andbT /=; case: ifP => [/andP[u v]|]; last by rewrite mulmx1 h1.
have -> : invmx (P *m (1%:M - A) *m Q) = P *m invmx (1%:M - A) *m Q.
  have hY : P *m (1%:M - A) *m Q *m (P *m invmx (1%:M - A) *m Q) = 1%:M.
    rewrite !mulmxA -[_ *m Q *m P]mulmxA h2 mulmx1 -[_ *m _ *m invmx _]mulmxA mulmxV //.
    by rewrite mulmx1.
  have := congr1 (mulmx (invmx (P *m (1%:M - A) *m Q))) hY.
  by rewrite mulKmx ?mulmx1 // !unitmx_mul uP u uQ.
by rewrite !mulmxA -[_ *m Q *m P]mulmxA h2 mulmx1.
Qed.

Lemma conj_Mat r c (D : 'M[C]_(r, c)) : conjm (Mat D) = Mat (map_mx (@conjC C) D).
Proof. by apply: mat_ext => // i j hi hj; rewrite ent_conjm !ent_in !mxE. Qed.

Lemma zerom_Mat r c : zerom C r c = Mat (0 : 'M[C]_(r, c)).
Proof. by apply: mat_ext => // i j hi hj; rewrite ent_mk // ent_in mxE. Qed.

Lemma Mat_inj r c (D D' : 'M[C]_(r, c)) : Mat D = Mat D' -> D = D'.
Proof.
move=> e; apply/matrixP => i j; have := congr1 (fun M => ent M i j) e.
rewrite !ent_in; congr (D _ _ = D' _ _); exact: val_inj.
Qed.

Lemma hasShape_Mat r c (A : mat C) : hasShape A r c -> exists D : 'M[C]_(r, c), A = Mat D.
Proof. by case: A => r' c' D [/= er ec]; subst; exists D. Qed.

End Cayley.
