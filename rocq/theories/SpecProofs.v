(** Eigenvalues with multiplicities and the spectral theorem (used by C70-C74). *)
From mathcomp Require Import all_ssreflect all_algebra.
From Verif Require Py.
From Verif Require Import MatModel MatLib MatSpec MatProofs StateSpec ExpmInst Spectral EigSpec.
Set Implicit Arguments.
Unset Strict Implicit.
Unset Printing Implicit Defensive.
Import Order.TTheory GRing.Theory Num.Theory.
Local Open Scope ring_scope.

Section SpecProofs.
Variable C : numClosedFieldType.
Local Notation adj := (@adjmx C _ _).

Lemma poly_fun_eq (p q : {poly C}) : (forall x, p.[x] = q.[x]) -> p = q.
Proof.
move=> h; apply/eqP; rewrite -subr_eq0; apply/negP => /negP nz.
pose rs : seq C := [seq i%:R | i <- iota 0 (size (p - q))].
have ar : all (root (p - q)) rs by apply/allP => x _; rewrite /root hornerD hornerN h subrr.
have ur : uniq rs.
  rewrite map_inj_uniq ?iota_uniq // => i j /eqP; rewrite eqr_nat; exact: eqP.
by have := max_poly_roots nz ar ur; rewrite size_map size_iota ltnn.
Qed.

Lemma prod_perm (s t : seq C) :
  (forall x, \prod_(z <- s) (x - z) = \prod_(z <- t) (x - z)) -> perm_eq s t.
Proof.
move=> h.
have : \prod_(z <- s) ('X - z%:P) = \prod_(z <- t) ('X - z%:P).
  apply: poly_fun_eq => x; rewrite !horner_prod.
  under eq_bigr do rewrite hornerXsubC.
  by under [in RHS]eq_bigr do rewrite hornerXsubC.
elim: s t {h} => [|a s IH] t.
  case: t => [|b t] //; rewrite big_nil => /(congr1 (fun p => root p b)).
  by rewrite big_cons rootM root_XsubC eqxx rootC oner_eq0.
move=> e; have at_ : a \in t.
  have := congr1 (fun p => root p a) e; rewrite !root_prod_XsubC /= in_cons eqxx /= => <- //.
rewrite perm_sym (perm_trans (perm_to_rem at_)) // perm_cons perm_sym; apply: IH.
move: e; rewrite (perm_big _ (perm_to_rem at_)) /= !big_cons => /mulfI; apply.
by rewrite polyXsubC_eq0.
Qed.

Definition dseq n (d : 'rV[C]_n) : seq C := [seq d 0 i | i <- enum 'I_n].
Lemma size_dseq n (d : 'rV[C]_n) : size (dseq d) = n.
Proof. by rewrite size_map size_enum_ord. Qed.
Lemma big_dseq (R : Type) (idx : R) (op : Monoid.com_law idx) n (d : 'rV[C]_n) (F : C -> R) :
  \big[op/idx]_(z <- dseq d) F z = \big[op/idx]_i F (d 0 i).
Proof. by rewrite big_map big_enum. Qed.

Lemma spectrumE n (A : 'M[C]_n) vals : isSpectrum n (Mat A) vals <->
  size vals = n /\ forall x, \det (x%:M - A) = \prod_(z <- vals) (x - z).
Proof.
have e x : \matrix_(i < n, j < n) (x * delta C i j - ent (Mat A) i j) = x%:M - A.
  apply/matrixP => i j; rewrite !mxE /delta ent_in mulr_natr.
  by congr (_ *+ _ - A _ _); apply: val_inj.
split=> [[_ s h]|[s h]]; split=> // x; first by rewrite -h e.
by rewrite e.
Qed.

Lemma det_sim n (P A : 'M[C]_n) x : unitarymx P -> \det (x%:M - adj P *m A *m P) = \det (x%:M - A).
Proof.
move=> u; have -> : x%:M - adj P *m A *m P = adj P *m (x%:M - A) *m P.
  by rewrite mulmxBr mulmxBl mul_mx_scalar -scalemxAl unitaryC // scalemx1.
by rewrite !det_mulmx mulrAC -det_mulmx unitaryC // det1 mul1r.
Qed.

Lemma det_diag_sub n (d : 'rV[C]_n) x : \det (x%:M - diag_mx d) = \prod_(z <- dseq d) (x - z).
Proof.
have -> : x%:M - diag_mx d = diag_mx (\row_i (x - d 0 i)).
  by apply/matrixP => i j; rewrite !mxE -mulrnBl.
by rewrite det_diag big_dseq; apply: eq_bigr => i _; rewrite mxE.
Qed.

Lemma spectrum_diag n (P : 'M[C]_n) (d : 'rV[C]_n) : unitarymx P ->
  isSpectrum n (Mat (adj P *m diag_mx d *m P)) (dseq d).
Proof. by move=> u; apply/spectrumE; split=> [|x]; rewrite ?size_dseq // det_sim // det_diag_sub. Qed.

Lemma spectrum_perm n M s t : isSpectrum (C := C) n M s -> isSpectrum n M t -> perm_eq s t.
Proof. by move=> [_ _ h] [_ _ h']; apply: prod_perm => x; rewrite -h. Qed.

(** The eigenvalues of a Hermitian matrix, in whatever order. *)
Lemma herm_spectrum n (A : 'M[C]_n) : adj A = A ->
  exists P (d : 'rV[C]_n), [/\ unitarymx P, forall i, d 0 i \is Num.real, A = adj P *m diag_mx d *m P
    & forall vals, isSpectrum n (Mat A) vals -> perm_eq vals (dseq d)].
Proof.
move=> /(@spectral _ _ _)[P [d [u r e]]]; exists P, d; split=> // [i|vals hv].
  by apply/CrealP; apply: r.
by apply: spectrum_perm hv _; rewrite e; apply: spectrum_diag.
Qed.

Lemma adj_sim n (P A : 'M[C]_n) : adj (adj P *m A *m P) = adj P *m adj A *m P.
Proof. by rewrite !adj_mul adjK mulmxA. Qed.
Lemma sim_mul n (P A B : 'M[C]_n) : unitarymx P ->
  (adj P *m A *m P) *m (adj P *m B *m P) = adj P *m (A *m B) *m P.
Proof. by move=> u; rewrite !mulmxA -[_ *m P *m adj P]mulmxA u mulmx1. Qed.
Lemma adj_diag n (d : 'rV[C]_n) : adj (diag_mx d) = diag_mx (\row_i (d 0 i)^*).
Proof. by apply/matrixP => i j; rewrite !mxE eq_sym; case: eqVneq => [->|]; rewrite ?mulr1n // !mulr0n conjC0. Qed.
Lemma diag_mul n (d e : 'rV[C]_n) : diag_mx d *m diag_mx e = diag_mx (\row_i (d 0 i * e 0 i)).
Proof. by rewrite mulmx_diag. Qed.
Lemma tr_sim n (P A : 'M[C]_n) : unitarymx P -> \tr (adj P *m A *m P) = \tr A.
Proof. by move=> u; rewrite mxtrace_mulC mulmxA u mul1mx. Qed.

(** Entries of a unitary matrix have modulus at most one. *)
Lemma unitary_row n (P : 'M[C]_n) i : unitarymx P -> \sum_j `|P i j| ^+ 2 = 1.
Proof.
move=> u; have := congr1 (fun M : 'M_n => M i i) u; rewrite !mxE eqxx mulr1n => <-.
by apply: eq_bigr => j _; rewrite !mxE normCK.
Qed.
Lemma unitary_col n (P : 'M[C]_n) j : unitarymx P -> \sum_i `|P i j| ^+ 2 = 1.
Proof.
move=> /unitaryC u; have := congr1 (fun M : 'M_n => M j j) u; rewrite !mxE eqxx mulr1n => <-.
by apply: eq_bigr => i _; rewrite !mxE normCKC.
Qed.
Lemma unitary_ent n (P : 'M[C]_n) i j : unitarymx P -> `|P i j| <= 1.
Proof.
move=> u; rewrite -(@ler_pexpn2r _ 2) ?nnegrE // expr1n -(unitary_row i u) (bigD1 j) //=.
by rewrite ler_addl sumr_ge0 // => k _; rewrite exprn_ge0.
Qed.
Lemma unitary_mul n (P Q : 'M[C]_n) : unitarymx P -> unitarymx Q -> unitarymx (P *m Q).
Proof. by move=> u v; rewrite /unitarymx adj_mul mulmxA -[P *m Q *m _]mulmxA v mulmx1. Qed.
Lemma unitary_adj n (P : 'M[C]_n) : unitarymx P -> unitarymx (adj P).
Proof. by move=> u; rewrite /unitarymx adjK unitaryC. Qed.

(** Positive matrices have nonnegative eigenvalues. *)
Lemma quad_sim n (A P : 'M[C]_n) (d : 'rV[C]_n) i : unitarymx P -> A = adj P *m diag_mx d *m P ->
  (row i P *m A *m adj (row i P)) 0 0 = d 0 i.
Proof.
move=> u ->; have e : row i P *m adj P = delta_mx 0 i.
  by rewrite -row_mul u row1.
rewrite !mulmxA e -[delta_mx 0 i *m diag_mx d *m P *m _]mulmxA.
have -> : P *m adj (row i P) = adj (row i P *m adj P) by rewrite adj_mul adjK.
rewrite e mxE (bigD1 i) //= big1 ?addr0 => [|j nj].
  rewrite !mxE (bigD1 i) //= big1 ?addr0 => [|k nk]; first by rewrite !mxE !eqxx mul1r conjC1 mulr1 mulr1n.
  by rewrite !mxE (negbTE nk) andbF mul0r.
by rewrite [adj _ _ _]mxE !mxE (negbTE nj) andbF conjC0 mulr0.
Qed.

Lemma tr_diag n (d : 'rV[C]_n) : \tr (diag_mx d) = \sum_i d 0 i.
Proof. exact: mxtrace_diag. Qed.

Lemma positive_row n (A : 'M[C]_n) (v : 'rV[C]_n) : positive n (Mat A) -> 0 <= (v *m A *m adj v) 0 0.
Proof.
case=> _ /(_ (fun i => ent (Mat (adj v)) i 0)); congr (_ <= _).
rewrite mxE exchange_big /=; apply: eq_bigr => j _; rewrite mxE big_distrl /=; apply: eq_bigr => i _.
rewrite !ent_in !mxE conjCK; congr (v _ _ * A _ _ * (v _ _)^*); exact: val_inj.
Qed.
Lemma positiveI n (A : 'M[C]_n) : (forall v : 'rV[C]_n, 0 <= (v *m A *m adj v) 0 0) -> positive n (Mat A).
Proof.
move=> h; split=> // v; have := h (\row_i (v i)^*); congr (_ <= _).
rewrite mxE exchange_big /=; apply: eq_bigr => i _; rewrite mxE big_distrl /=; apply: eq_bigr => j _.
rewrite !ent_in !mxE conjCK; congr ((v _)^* * A _ _ * v _); exact: val_inj.
Qed.

Lemma herm_adj n (A : 'M[C]_n) : hermitian n (Mat A) -> adj A = A.
Proof. by move=> /hermitianE[_]; rewrite hc_Mat => /(@Mat_inj _ _ _ _ _). Qed.
Lemma adj_herm n (A : 'M[C]_n) : adj A = A -> hermitian n (Mat A).
Proof. by move=> e; apply/hermitianE; split=> //; rewrite hc_Mat e. Qed.

Lemma positive_eig n (A P : 'M[C]_n) (d : 'rV[C]_n) : positive n (Mat A) -> unitarymx P ->
  A = adj P *m diag_mx d *m P -> forall i, 0 <= d 0 i.
Proof. by move=> p u e i; rewrite -(quad_sim i u e); apply: positive_row. Qed.
Lemma eig_positive n (P : 'M[C]_n) (d : 'rV[C]_n) : (forall i, 0 <= d 0 i) ->
  positive n (Mat (adj P *m diag_mx d *m P)).
Proof.
move=> h; apply: positiveI => v.
have -> : v *m (adj P *m diag_mx d *m P) *m adj v = (v *m adj P) *m diag_mx d *m adj (v *m adj P).
  by rewrite adj_mul adjK !mulmxA.
move: (v *m adj P) => w.
rewrite mul_mx_diag mxE sumr_ge0 // => i _; rewrite !mxE mulrAC mulr_ge0 // -normCK exprn_ge0 //.
Qed.

Lemma tr_Mat n (A : 'M[C]_n) : \sum_(i < n) ent (Mat A) i i = \tr A.
Proof. by apply: eq_bigr => i _; rewrite ent_in; congr (A _ _); apply: val_inj. Qed.

(** The eigenvalues of a density matrix form a probability distribution. *)
Lemma dens_spectrum n (A : 'M[C]_n) : isDensity n (Mat A) ->
  exists P (d : 'rV[C]_n), [/\ unitarymx P, A = adj P *m diag_mx d *m P, forall i, 0 <= d 0 i,
    \sum_i d 0 i = 1 & forall vals, isSpectrum n (Mat A) vals -> perm_eq vals (dseq d)].
Proof.
case=> /herm_adj h p; rewrite tr_Mat => t; have [P [d [u _ e hv]]] := herm_spectrum h.
exists P, d; split=> //; first exact: positive_eig e.
by rewrite -tr_diag -(tr_sim (diag_mx d) u) -e.
Qed.

Lemma sim_inj n (P X Y : 'M[C]_n) : unitarymx P -> adj P *m X *m P = adj P *m Y *m P -> X = Y.
Proof.
move=> u /(congr1 (fun M => P *m M *m adj P)); rewrite !mulmxA u !mul1mx -!mulmxA u !mulmx1 //.
Qed.

End SpecProofs.
