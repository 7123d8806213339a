(** An eigenvalue solver and an [argsort] meeting EigSpec.v exist. *)
From mathcomp Require Import all_ssreflect all_algebra.
From Verif Require Py.
From Verif Require Import MatModel MatLib MatSpec MatProofs StateSpec ExpmInst Spectral EigSpec SpecProofs.
Set Implicit Arguments.
Unset Strict Implicit.
Unset Printing Implicit Defensive.
Import Order.TTheory GRing.Theory Num.Theory.
Local Open Scope ring_scope.

Section Inst.
Variable C : numClosedFieldType.
Local Notation adj := (@adjmx C _ _).

Definition roots n (A : 'M[C]_n) : seq C := projT1 (closed_field_poly_normal (char_poly A)).
Lemma rootsE n (A : 'M[C]_n) : char_poly A = \prod_(z <- roots A) ('X - z%:P).
Proof.
rewrite /roots; case: closed_field_poly_normal => r /= ->.
by rewrite (monicP (char_poly_monic A)) scale1r.
Qed.
Lemma char_poly_at n (A : 'M[C]_n) x : (char_poly A).[x] = \det (x%:M - A).
Proof.
rewrite /char_poly -horner_evalE -det_map_mx; congr (\det _).
by apply/matrixP => i j; rewrite !mxE rmorphB /= !horner_evalE hornerC hornerMn hornerX.
Qed.
Lemma roots_spectrum n (A : 'M[C]_n) : isSpectrum n (Mat A) (roots A).
Proof.
apply/spectrumE; split=> [|x].
  by apply/eqP; rewrite -eqSS -(size_char_poly A) rootsE size_prod_XsubC.
rewrite -char_poly_at rootsE horner_prod; by under eq_bigr do rewrite hornerXsubC.
Qed.

Definition evec n (A : 'M[C]_n) (a : C) : 'rV[C]_n :=
  let v := nz_row (eigenspace A^T a) in (sqrtC (sqn v))^-1 *: v.
Lemma evecP n (A : 'M[C]_n) a : a \in roots A ->
  sqn (evec A a) = 1 /\ A *m (evec A a)^T = a *: (evec A a)^T.
Proof.
move=> ha; have ev : eigenvalue A^T a.
  rewrite eigenvalue_root_char /root char_poly_at -det_tr linearB /= tr_scalar_mx trmxK.
  by rewrite -char_poly_at rootsE -/(root _ a) root_prod_XsubC.
set v := nz_row (eigenspace A^T a).
have nz : v != 0 by rewrite nz_row_eq0.
have hv : A *m v^T = a *: v^T.
  have /eigenspaceP e := nz_row_sub (eigenspace A^T a).
  by rewrite -[A in LHS]trmxK -trmx_mul e linearZ.
split; last by rewrite /evec linearZ /= -scalemxAr hv !scalerA mulrC.
have s0 : 0 <= sqn v := sqn_ge0 v.
rewrite /evec -/v sqnE; under eq_bigr do rewrite mxE normrM exprMn.
rewrite -mulr_sumr -sqnE normfV ger0_norm ?sqrtC_ge0 // exprVn sqrtCK mulVf //.
by rewrite sqn_eq0.
Qed.

Definition eigI (M : mat C) : result (seq C * mat C) :=
  match M with
  | Mat r c D =>
      match @eqP _ r c with
      | ReflectT e =>
          let A := castmx (e, erefl) D in
          Ok (roots A, Mat (\matrix_(i < c, j < c) (evec A (roots A)`_j) 0 i))
      | _ => Err Py.ValueError
      end
  end.
Lemma eigI_ok : eigSpec eigI.
Proof.
move=> n M /square_Mat[A ->] /=; case: eqP => // e.
rewrite (eq_axiomK e) castmx_id; exists (roots A), (Mat (\matrix_(i < n, j < n) (evec A (roots A)`_j) 0 i)).
have sr := roots_spectrum A; have [_ sz _] := sr.
split=> // j hj; have hr : (roots A)`_j \in roots A by rewrite mem_nth // sz.
have [h1 h2] := evecP hr.
have ec : column (Mat (\matrix_(i < n, j < n) (evec A (roots A)`_j) 0 i)) j = Mat (evec A (roots A)`_j)^T.
  move: (evec A) => w; apply: mat_ext => // i k hi; rewrite ltnS leqn0 => /eqP ->.
  by rewrite ent_mk // !ent_in !mxE /=; congr (w _ _ _); apply: val_inj.
rewrite ec; split; last first.
  rewrite /eigenPair /mmul /= eqxx mulm_Mat h2; congr Ok.
  by apply: mat_ext => // i k hi hk; rewrite ent_scalem !ent_in !mxE.
split=> //; rewrite /norm2 -[RHS]h1 sqnE; move: (evec A) => w; apply: eq_bigr => i _.
by rewrite /amp ent_in !mxE; congr (`|w _ _ _| ^+ 2); apply: val_inj.
Qed.

Lemma Re_real (x : C) : 'Re x \is Num.real. Proof. exact: Creal_Re. Qed.
Lemma lexle_total : ssrbool.total (@lexle C).
Proof.
move=> x y; rewrite /lexle [('Re y == _)]eq_sym.
case: (real_ltgtP (Creal_Re x) (Creal_Re y)) => //= _.
exact: real_leVge (Creal_Im x) (Creal_Im y).
Qed.
Definition argsortI (s : seq C) : seq nat := sort (fun i j => lexle s`_i s`_j) (iota 0 (size s)).
Lemma argsortI_ok : argsortSpec argsortI.
Proof.
move=> s; split; first exact: permEl (perm_sort _ _).
by rewrite sorted_map; apply: sort_sorted => i j; apply: lexle_total.
Qed.
End Inst.
