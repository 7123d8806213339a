(** C68: the analytical Jaynes-Cummings propagator is the matrix exponential. *)
From Coq Require Import Reals.
From mathcomp Require Import all_ssreflect all_algebra.
From mathcomp Require Import complex.
From Verif Require Py.
From Verif Require Import RC ExpSeries ExpMatrix ExpmSpec ExpmProofs ExpScalar ExpKron.
From Verif Require Import MatModel OperModel StateModel EvolModel HamModel MatLib MatSpec MatProofs CField OperProofs GateProofs StateSpec StateProofs ExpmInst EvolSpec EvolProofs LindProofs.
From Verif Require Import HamSpec HamProofs PropsOper PropsExp PropsClosed PropsHam PropsRot.
Set Implicit Arguments.
Unset Strict Implicit.
Unset Printing Implicit Defensive.
Import Order.TTheory GRing.Theory Num.Theory.
Local Open Scope ring_scope.

Local Notation C := RC.
Local Notation cexp := ExpScalar.cexp.

Lemma ofRD (x y : R) : ofR (x + y) = ofR x + ofR y. Proof. by rewrite /ofR rmorphD. Qed.
Lemma ofRB (x y : R) : ofR (x - y) = ofR x - ofR y. Proof. by rewrite /ofR rmorphB. Qed.
Lemma ofR_nat (n : nat) : ofR n%:R = n%:R. Proof. by rewrite /ofR rmorph_nat. Qed.
Lemma ofRV (x : R) : ofR x^-1 = (ofR x)^-1. Proof. by rewrite /ofR fmorphV. Qed.

Lemma euler_at (E x : R) : eulerAt cosC sinC cexp (ofR E) (ofR x).
Proof.
have ci (y : R) : cis (- y) = cosC (ofR y) - 'i * sinC (ofR y) 
  by rewrite /cis; rewrite (cos_neg y : cos (- y) = cos y) (sin_neg y : sin (- y) = - sin y) ofRN mulrN.
have cn (y : R) : cis y = cosC (ofR y) + 'i * sinC (ofR y) by [].
split.
  by rewrite -ofRD !cexpI opprD cisD (ci x).
by rewrite -ofRB !cexpI opprB cisD mulrC (cn x).
Qed.

Lemma scalarExp_cexp f : scalarExponential f -> forall z, f z = cexp z.
Proof.
move=> h z; apply: (cvg_unique (proj1 (convergesE _ _) (h z))).
apply: (cvg_ext _ (cexp_cvg z)) => N; rewrite /ssum big_mkord; apply: eq_bigr => k _.
by rewrite /fi mulrC.
Qed.

Lemma Unitary_evolves expm n (H U : mat C) (t : C) : matrixExponential expm -> square n H -> Unitary expm H t = Ok U ->
  evolves n cexp H t U.
Proof.
move=> hE /square_Mat[D ->]; rewrite (UnitaryE _ _ hE) => /(@Ok_inj _ _ _) <-; split; first by split.
move=> l v hv i hi; pose M : 'M[C]_(n, 1) := \matrix_(p, q) v p.
have hI : (t *: (- 'i *: D)) *m M = (- 'i * (l * t)) *: M.
  apply/matrixP => p q; rewrite -!scalemxAl !mxE.
  have := hv p (ltn_ord p); rewrite /HamSpec.act.
  have -> : \sum_(j < n) ent (Mat D) p j * v j = \sum_j D p j * M j q.
    by apply: eq_bigr => j _; rewrite (ent_in _ (ltn_ord p) (ltn_ord j)) mxE; congr (D _ _ * _); apply: val_inj.
  by move=> ->; rewrite !mulrA [t * - 'i]mulrC; congr (_ * _); rewrite -!mulrA [t * l]mulrC.
have := gexp_eig hI => /matrixP/(_ (Ordinal hi) 0); rewrite !mxE => e.
rewrite /HamSpec.act -[RHS]e; apply: eq_bigr => j _; rewrite (ent_in _ hi (ltn_ord j)) mxE; congr (gexp _ _ _ * _).
by apply: val_inj.
Qed.

(** For real parameters, where no oscillation frequency vanishes, UJC with the
    true cosine, sine and exponential is what [Unitary] returns for the
    Jaynes-Cummings Hamiltonian in UJC's order of the basis. *)
Theorem C68_UJC expm expf (wq wc g t : R) (d : nat) (H H' : mat C) :
  matrixExponential expm -> scalarExponential expf -> (0 < d)%N ->
  (forall k, (1 <= k < d)%N -> rabiFreq (ofR wq) (ofR wc) (ofR g) k <> 0) ->
  JCHam (ofR wq / 2%:R) (ofR wc) (ofR g) d = Ok H -> relabelled d H H' ->
  UJC cosC sinC expf (ofR wq) (ofR wc) (ofR g) (ofR t) d = Unitary expm H' (ofR t).
Proof.
move=> hE hF hd nz eH rl; have ef := scalarExp_cexp hF.
have half : 1 / 2%:R = ofR (1 / 2%:R) by rewrite ofRM ofRV ofR_nat.
have eD : (ofR wq - ofR wc) / 2%:R * ofR t = ofR ((wq - wc) / 2%:R * t).
  by rewrite !ofRM ofRB ofRV ofR_nat.
have at_ E x : eulerAt cosC sinC expf (ofR E) (ofR x).
  by have [h1 h2] := euler_at E x; split; rewrite !ef.
have eu : eulerJC cosC sinC expf (ofR wq) (ofR wc) (ofR g) (ofR t) d.
  split.
  - by rewrite eD half -!ofRM -ofRN; apply: at_.
  - by rewrite eD half -ofR_nat -ofRB -!ofRM; apply: at_.
  - move=> k hk; have [u hu eu] : exists2 u : R, 0 <= u & rabiFreq (ofR wq) (ofR wc) (ofR g) k = ofR u.
      apply: ge0_ofR; rewrite /rabiFreq sqrtC_ge0 -ofRB -!rmorphX /=.
      by rewrite addr_ge0 // mulr_ge0 ?ler0n ?invr_ge0 ?ler0n //; apply: ofR_ge0; apply: sqr_ge0.
    by rewrite eu half -ofR_nat -ofRB -!ofRM; apply: at_.
have [U [eU [_ un]]] := C49_UJC_evolves hd nz eu eH rl.
have sH : square (2 * d) H' by case: rl.
have [D eD'] := square_Mat sH.
have eW : Unitary expm H' (ofR t) = Ok (Mat (gexp (ofR t *: (- 'i *: D)))) by rewrite eD' (UnitaryE _ _ hE).
rewrite eU eW; congr Ok; symmetry; apply: un.
have [sU ev] := Unitary_evolves hE sH eW; split; first exact: sU.
by move=> l v hv; rewrite ef; apply: ev.
Qed.
Print Assumptions C68_UJC.

(** At resonance with coupling 1, for any cavity. *)
Example C68_ex (d : nat) : exists expm expf H H', matrixExponential expm /\ scalarExponential expf /\
  (forall k, (1 <= k < d.+1)%N -> rabiFreq (ofR 4%:R) (ofR 4%:R) (ofR 1) k <> 0) /\
  JCHam (ofR 4%:R / 2%:R) (ofR 4%:R) (ofR 1) d.+1 = Ok H /\ relabelled d.+1 H H'.
Proof.
have [H [eH _]] := JCE (ofR 4%:R / 2%:R) (ofR 4%:R) (ofR 1) d.+1.
exists expmT, cexp, H, (mk (2 * d.+1) (2 * d.+1) (fun i j => ent H (ujcPos d.+1 i) (ujcPos d.+1 j))).
split; first exact: expmT_exp. split.
  move=> z; apply/convergesE; apply: (cvg_ext _ (cexp_cvg z)) => N; rewrite /ssum big_mkord; apply: eq_bigr => k _.
  by rewrite /fi mulrC.
split; last by split; [exact: eH | split; [by split | move=> i j hi hj; rewrite ent_mk]].
move=> k /andP[hk _]; rewrite /rabiFreq subrr expr0n mul0r addr0 => /eqP; rewrite sqrtC_eq0.
have -> : ofR 1 = 1 by []. by rewrite expr1n mulr1 pnatr_eq0; case: k hk.
Qed.
