(** Linear maps on matrices that preserve positivity and the trace: they
    contract the trace distance and have a fixed density matrix. *)
From mathcomp Require Import all_ssreflect all_algebra.
From Verif Require Py.
From Verif Require Import MatModel OperModel StateModel EvolModel EigModel MatLib MatSpec MatProofs StateSpec StateProofs EvolSpec EvolProofs ExpmInst
  EigSpec Spectral SpecProofs DistProofs PropsDist.
Set Implicit Arguments.
Unset Strict Implicit.
Unset Printing Implicit Defensive.
Import Order.TTheory GRing.Theory Num.Theory.
Local Open Scope ring_scope.

Section Chan.
Variable C : numClosedFieldType.
Local Notation adj := (@adjmx C _ _).

(** ** Positive and negative parts *)
Lemma hdec n (X : 'M[C]_n) : adj X = X -> exists Xp Xm E : 'M[C]_n,
  [/\ X = Xp - Xm, positive n (Mat Xp), positive n (Mat Xm),
      [/\ adj E = E, E *m E = E & effect n (Mat E)] & [/\ E *m Xp = Xp, E *m Xm = 0 & E *m X = Xp]].
Proof.
move=> /(@herm_spectrum _ _ _)[P [d [u r e _]]].
pose dp : 'rV[C]_n := \row_i (if 0 <= d 0 i then d 0 i else 0).
pose dm : 'rV[C]_n := \row_i (if 0 <= d 0 i then 0 else - d 0 i).
exists (adj P *m diag_mx dp *m P), (adj P *m diag_mx dm *m P), (posPart P d); split.
- rewrite e -mulmxBl -mulmxBr -linearB; congr (_ *m diag_mx _ *m _); apply/rowP => i; rewrite !mxE.
  by case: (0 <= _); rewrite ?subr0 ?opprK ?add0r.
- by apply: eig_positive => i; rewrite mxE; case: ifP.
- apply: eig_positive => i; rewrite mxE; case: ifP (r i) => // h.
  by rewrite realE h /= oppr_ge0.
- by split; [apply: posPart_adj | apply: posPart_sq | apply: posPart_effect].
have z0 : 0 = adj P *m diag_mx 0 *m P by rewrite linear0 mulmx0 mul0mx.
by rewrite e !sim_mul // !diag_mul [X in [/\ _, _ = X & _]]z0; split; congr (_ *m diag_mx _ *m _); apply/rowP => i; rewrite !mxE;
  case: ifP; rewrite ?mul1r ?mul0r ?mulr0.
Qed.

Lemma positive_adj n (A : 'M[C]_n) : positive n (Mat A) -> adj A = A.
Proof. by move=> [sA p]; apply: herm_adj; split=> //; apply: psd_herm => v; apply: p. Qed.

Lemma tr_eff n (A B : 'M[C]_n) : positive n (Mat A) -> positive n (Mat B) -> 0 <= \tr (A *m B).
Proof.
move=> pA pB; have [P [d [u _ e _]]] := herm_spectrum (positive_adj pB).
rewrite e tr_diagonal sumr_ge0 // => i _; rewrite mulr_ge0 ?positive_row //; exact: positive_eig pB u e i.
Qed.
Lemma tr_eff_le n (A B : 'M[C]_n) : effect n (Mat A) -> positive n (Mat B) -> \tr (A *m B) <= \tr B.
Proof.
move=> [_]; rewrite idm_Mat sub_Mat => pA pB; have := tr_eff pA pB.
by rewrite mulmxBl mul1mx linearB subr_ge0.
Qed.
Lemma tr_psd n (B : 'M[C]_n) : positive n (Mat B) -> 0 <= \tr B.
Proof.
move=> pB; have [P [d [u _ e _]]] := herm_spectrum (positive_adj pB).
by rewrite e tr_sim // mxtrace_diag sumr_ge0 // => i _; exact: positive_eig pB u e i.
Qed.
Lemma tr_psd0 n (B : 'M[C]_n) : positive n (Mat B) -> \tr B = 0 -> B = 0.
Proof.
move=> pB; have [P [d [u _ e _]]] := herm_spectrum (positive_adj pB).
rewrite {1}e tr_sim // mxtrace_diag => /eqP; rewrite psumr_eq0 => [/allP h|i _]; last exact: positive_eig pB u e i.
rewrite e (_ : d = 0) ?linear0 ?mulmx0 ?mul0mx //; apply/rowP => i; rewrite mxE; apply/eqP.
exact: (implyP (h i (mem_index_enum _))).
Qed.
Lemma tr_proj0 n (E B : 'M[C]_n) : adj E = E -> E *m E = E -> positive n (Mat B) -> \tr (E *m B) = 0 -> E *m B = 0.
Proof.
move=> hE EE pB t0; have aB := positive_adj pB.
have pEBE : positive n (Mat (E *m B *m E)).
  apply: positiveI => v; have := positive_row (v *m E) pB.
  by rewrite adj_mul hE !mulmxA.
have z : E *m B *m E = 0 by apply: tr_psd0 => //; rewrite mxtrace_mulC mulmxA EE.
have [P [d [u _ e _]]] := herm_spectrum aB; have d0 := positive_eig pB u e.
pose S := diag_mx (\row_i sqrtC (d 0 i)).
have aS : adj S = S.
  by rewrite adj_diag; congr diag_mx; apply/rowP => i; rewrite !mxE geC0_conj // sqrtC_ge0.
have SS : S *m S = diag_mx d by rewrite diag_mul; congr diag_mx; apply/rowP => i; rewrite !mxE -expr2 sqrtCK.
have g : S *m P *m E = 0.
  by apply: gram_eq0; rewrite !adj_mul aS hE !mulmxA -[_ *m S *m S]mulmxA SS -!mulmxA [diag_mx d *m _]mulmxA
    [adj P *m _]mulmxA [adj P *m _]mulmxA -e mulmxA.
have := congr1 (fun M => adj M) g; rewrite !adj_mul aS hE {2}/adjmx map_mx0 trmx0 => g'.
by rewrite e -SS !mulmxA -[E *m adj P *m S]mulmxA g' !mul0mx.
Qed.

(** ** Positive trace-preserving maps *)
Section Map.
Variable n : nat.
Variable Phi : 'M[C]_n -> 'M[C]_n.
Hypothesis PhiD : forall X Y, Phi (X + Y) = Phi X + Phi Y.
Hypothesis PhiZ : forall a X, Phi (a *: X) = a *: Phi X.
Hypothesis PhiP : forall X, positive n (Mat X) -> positive n (Mat (Phi X)).
Hypothesis PhiT : forall X, positive n (Mat X) -> \tr (Phi X) = \tr X.

Lemma PhiB X Y : Phi (X - Y) = Phi X - Phi Y.
Proof. by rewrite PhiD -scaleN1r PhiZ scaleN1r. Qed.
Lemma Phi_tr_herm X : adj X = X -> \tr (Phi X) = \tr X.
Proof. by move=> /hdec[Xp [Xm [E [-> pp pm _ _]]]]; rewrite PhiB !linearB /= !PhiT. Qed.
Lemma Phi_herm X : adj X = X -> adj (Phi X) = Phi X.
Proof. by move=> /hdec[Xp [Xm [E [-> pp pm _ _]]]]; rewrite PhiB adjB !positive_adj //; apply: PhiP. Qed.

(** The Hermitian and the anti-Hermitian part *)
Definition hre (X : 'M[C]_n) := half C *: (X + adj X).
Definition him (X : 'M[C]_n) := (half C * - 'i) *: (X - adj X).
Lemma hre_adj X : adj (hre X) = hre X.
Proof. by rewrite adjZ adjD adjK addrC geC0_conj ?half_ge0. Qed.
Lemma him_adj X : adj (him X) = him X.
Proof.
rewrite adjZ adjB adjK rmorphM rmorphN conjCi opprK geC0_conj ?half_ge0 // -opprB scalerN -scaleNr -mulrN.
by [].
Qed.
Lemma hreim X : X = hre X + 'i *: him X.
Proof.
rewrite /hre /him scalerA mulrCA mulrN -expr2 sqrCi opprK mulr1 -scalerDr addrACA subrr addr0 -mulr2n.
by rewrite -scaler_nat scalerA -[_ * _]mulr1 -mulrA half2 scale1r.
Qed.
Lemma Phi_adj X : Phi (adj X) = adj (Phi X).
Proof.
have [hr hi e] := And3 (hre_adj X) (him_adj X) (hreim X); rewrite e.
move: (hre X) (him X) hr hi {e} => A B hA hB.
by rewrite PhiD PhiZ !adjD !adjZ PhiD PhiZ conjCi hA hB !Phi_herm.
Qed.
Lemma Phi_tr X : \tr (Phi X) = \tr X.
Proof.
have [hr hi e] := And3 (hre_adj X) (him_adj X) (hreim X); rewrite e.
move: (hre X) (him X) hr hi {e} => A B hA hB.
by rewrite PhiD PhiZ !linearD !linearZ /= !Phi_tr_herm.
Qed.

(** A fixed Hermitian matrix has fixed positive and negative parts. *)
Lemma Phi_fixed_part X Xp Xm E : adj X = X -> Phi X = X ->
  X = Xp - Xm -> positive n (Mat Xp) -> positive n (Mat Xm) ->
  [/\ adj E = E, E *m E = E & effect n (Mat E)] -> [/\ E *m Xp = Xp, E *m Xm = 0 & E *m X = Xp] ->
  Phi Xp = Xp.
Proof.
move=> hX fX eX pp pm [aE EE eE] [Ep Em EX].
have pP := PhiP pp; have pM := PhiP pm.
have fX' : Phi Xp - Phi Xm = X by rewrite -PhiB -eX.
have e1 : \tr (E *m Phi Xp) - \tr (E *m Phi Xm) = \tr Xp.
  by rewrite -linearB /= -mulmxBr fX' EX.
have le1 := tr_eff_le eE pP; have ge1 := tr_eff (proj1 eE) pM.
rewrite (PhiT pp) -e1 in le1.
have z : \tr (E *m Phi Xm) = 0.
  by apply/eqP; rewrite eq_le ge1 andbT; move: le1; rewrite -{1}[\tr (E *m Phi Xp)]addr0 ler_add2l oppr_ge0.
have zM := tr_proj0 aE EE pM z.
have zP : (1%:M - E) *m Phi Xp = 0.
  apply: tr_proj0 => //; first by rewrite adjB adj1 aE.
    by rewrite mulmxBl mul1mx mulmxBr mulmx1 EE subrr subr0.
  by rewrite mulmxBl mul1mx linearB /= PhiT // -e1 z subr0 subrr.
move: zP; rewrite mulmxBl mul1mx => /eqP; rewrite subr_eq0 => /eqP ->.
by rewrite -[RHS]EX -fX' mulmxBr zM subr0.
Qed.
Lemma Phi_fixed X : X != 0 -> Phi X = X -> exists2 rho, isDensity n (Mat rho) & Phi rho = rho.
Proof.
have norm Y : positive n (Mat Y) -> Y != 0 -> Phi Y = Y -> exists2 rho, isDensity n (Mat rho) & Phi rho = rho.
  move=> pY nz fY; have t0 : 0 < \tr Y.
    by rewrite lt_def tr_psd // andbT; apply: contra_neq nz; apply: tr_psd0.
  exists ((\tr Y)^-1 *: Y); last by rewrite PhiZ fY.
  have pR : positive n (Mat ((\tr Y)^-1 *: Y)).
    apply: positiveI => v; rewrite -scalemxAr -scalemxAl mxE mulr_ge0 ?positive_row // invr_ge0 ltW //.
  split=> //; first by apply: adj_herm; apply: positive_adj.
  by rewrite tr_Mat linearZ /= mulVf // gt_eqF.
have herm Y : adj Y = Y -> Y != 0 -> Phi Y = Y -> exists2 rho, isDensity n (Mat rho) & Phi rho = rho.
  move=> hY nz fY; have [Xp [Xm [E [e pp pm h1 h2]]]] := hdec hY.
  have fp := Phi_fixed_part hY fY e pp pm h1 h2.
  have fm : Phi Xm = Xm by apply: oppr_inj; apply: (addrI Xp); rewrite -{1}fp -PhiB -e fY.
  have [z|nzp] := eqVneq Xp 0; last exact: (norm Xp).
  by apply: (norm Xm) => //; apply: contra_neq nz => z'; rewrite e z z' subrr.
move=> nz fX; have faX : Phi (adj X) = adj X by rewrite Phi_adj fX.
have fr : Phi (hre X) = hre X by rewrite PhiZ PhiD fX faX.
have fi : Phi (him X) = him X by rewrite PhiZ PhiB fX faX.
have [z|nzr] := eqVneq (hre X) 0; last by apply: (herm (hre X)) => //; apply: hre_adj.
apply: (herm (him X)) => //; first exact: him_adj.
by apply: contra_neq nz => z'; rewrite [X]hreim z z' scaler0 addr0.
Qed.

(** Contraction *)
Lemma Phi_dens X : isDensity n (Mat X) -> isDensity n (Mat (Phi X)).
Proof.
move=> [_ p]; rewrite tr_Mat => t; have q := PhiP p.
by split=> //; [apply: adj_herm; apply: positive_adj | rewrite tr_Mat PhiT].
Qed.
Lemma Phi_contract (eig : mat C -> result (seq C * mat C)) X Y t t' : eigSpec eig ->
  isDensity n (Mat X) -> isDensity n (Mat Y) ->
  traceDistance eig (Mat X) (Mat Y) = Ok t -> traceDistance eig (Mat (Phi X)) (Mat (Phi Y)) = Ok t' -> t' <= t.
Proof.
move=> hE dX dY e e'; have [_ [M [eM <-]]] := C70_measurement hE (Phi_dens dX) (Phi_dens dY) e'.
have [h _] := C70_measurement hE dX dY e.
have [sM _] := proj1 eM; case: (square_Mat sM) eM => M' -> eM.
have aX : adj (X - Y) = X - Y by rewrite adjB; case: dX => /herm_adj -> _ _; case: dY => /herm_adj -> _ _.
have [Xp [Xm [E [eXY pp pm [aE EE eE] [Ep Em EX]]]]] := hdec aX.
rewrite !traceProdE -linearB /= -mulmxBr -PhiB eXY PhiB mulmxBr linearB /=.
apply: (@le_trans _ _ (\tr (M' *m Phi Xp))).
  by rewrite ler_subl_addr ler_addl; apply: tr_eff (proj1 eM) (PhiP pm).
apply: le_trans (tr_eff_le eM (PhiP pp)) _; rewrite PhiT //.
have := h (Mat E) eE; rewrite !traceProdE -linearB /= -mulmxBr EX ger0_norm //; exact: tr_psd.
Qed.
End Map.
End Chan.
