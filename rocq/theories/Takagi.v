(** Takagi's factorisation of complex symmetric matrices, and the bound on
    their singular values by the diagonal entries.  This models no code: it is
    used for the concurrence. *)
From mathcomp Require Import all_ssreflect all_algebra.
From Verif Require Py.
From Verif Require Import MatModel MatLib MatSpec ExpmInst Spectral EigSpec SpecProofs.
Set Implicit Arguments.
Unset Strict Implicit.
Unset Printing Implicit Defensive.
Import Order.TTheory GRing.Theory Num.Theory.
Local Open Scope ring_scope.

Section Takagi.
Variable C : numClosedFieldType.

Local Notation adj := (@adjmx C _ _).
Definition cj m n (A : 'M[C]_(m, n)) : 'M[C]_(m, n) := map_mx conjC A.
Lemma cjK m n (A : 'M[C]_(m, n)) : cj (cj A) = A.
Proof. by apply/matrixP => i j; rewrite !mxE conjCK. Qed.
Lemma cjM m n p (A : 'M[C]_(m, n)) (B : 'M[C]_(n, p)) : cj (A *m B) = cj A *m cj B.
Proof. exact: map_mxM. Qed.
Lemma cjD m n (A B : 'M[C]_(m, n)) : cj (A + B) = cj A + cj B.
Proof. exact: map_mxD. Qed.
Lemma cjZ m n a (A : 'M[C]_(m, n)) : cj (a *: A) = a^* *: cj A.
Proof. exact: map_mxZ. Qed.
Lemma cj1 n : cj (1%:M : 'M[C]_n) = 1%:M.
Proof. exact: map_mx1. Qed.
Lemma tr_adj m n (A : 'M[C]_(m, n)) : (adj A)^T = cj A.
Proof. by apply/matrixP => i j; rewrite !mxE. Qed.
Lemma tr_cj m n (A : 'M[C]_(m, n)) : (cj A)^T = adj A.
Proof. by apply/matrixP => i j; rewrite !mxE. Qed.
Lemma adj_cj m n (A : 'M[C]_(m, n)) : adj (cj A) = A^T.
Proof. by apply/matrixP => i j; rewrite !mxE conjCK. Qed.
Lemma cj_adj m n (A : 'M[C]_(m, n)) : cj (adj A) = A^T.
Proof. by apply/matrixP => i j; rewrite !mxE conjCK. Qed.
Lemma adj_tr m n (A : 'M[C]_(m, n)) : adj A^T = cj A.
Proof. by apply/matrixP => i j; rewrite !mxE. Qed.
Lemma unitary_cj n (P : 'M[C]_n) : unitarymx P -> unitarymx (cj P).
Proof. by move=> u; rewrite /unitarymx adj_cj -[P^T]cj_adj -cjM u cj1. Qed.

(** A complex symmetric matrix has a vector with [v T = a conj(v)]. *)
Lemma coneigen n (T : 'M[C]_n.+1) : T^T = T -> exists a (v : 'rV[C]_n.+1), sqn v = 1 /\ v *m T = a *: cj v.
Proof.
move=> sT.
suff [a [v [nv e]]] : exists a (v : 'rV[C]_n.+1), v != 0 /\ v *m T = a *: cj v.
  pose r := sqrtC (sqn v); have rn : r != 0 by rewrite sqrtC_eq0 sqn_eq0.
  have rr : r^* = r by apply: conj_Creal; rewrite realE sqrtC_ge0 sqn_ge0.
  exists a, (r^-1 *: v); split.
    rewrite sqnE; under eq_bigr => i _ do rewrite mxE normrM exprMn.
    rewrite -mulr_sumr -sqnE normfV exprVn ger0_norm ?sqrtC_ge0 ?sqn_ge0 // sqrtCK mulVf //.
    by rewrite sqn_eq0.
  by rewrite -scalemxAl e cjZ fmorphV rr !scalerA mulrC.
have [a /eigenvalueP[y hy ny]] : exists a, eigenvalue (T *m cj T) a.
  have [a ha] : exists a, root (char_poly (T *m cj T)) a by apply/closed_rootP; rewrite size_char_poly.
  by exists a; rewrite eigenvalue_root_char.
have cT : cj T = adj T by rewrite -{1}sT -adj_tr trmxK.
have a0 : 0 <= a.
  have e : a * sqn y = sqn (y *m T).
    by rewrite /sqn adj_mul mulmxA -[y *m T *m _]mulmxA -cT hy -scalemxAl [in RHS]mxE.
  have p : 0 < sqn y by rewrite lt_neqAle eq_sym sqn_eq0 ny sqn_ge0.
  by rewrite -(pmulr_lge0 _ p) e sqn_ge0.
pose s := sqrtC a; have ss : s * s = a by rewrite -expr2 sqrtCK.
have sr : s^* = s by apply: conj_Creal; rewrite realE sqrtC_ge0 a0.
pose z := cj (y *m T) + s *: y.
have [z0|nz] := eqVneq z 0; last first.
  exists s, z; split=> //.
  rewrite /z mulmxDl cjD cjK cjM -mulmxA -[cj T *m T]cjK cjM cjK -cjM hy cjZ.
  by rewrite sr [cj (a *: y)]cjZ (conj_Creal (ger0_real a0)) scalerDr scalerA ss addrC -scalemxAl.
exists (- s), y; split=> //.
have := congr1 (@cj _ _) z0; rewrite /z cjD cjK cjZ sr => /eqP.
by rewrite [X in _ == X]map_mx0 addr_eq0 scaleNr => /eqP.
Qed.

Theorem takagi n (T : 'M[C]_n) : T^T = T ->
  exists P (d : 'rV[C]_n), unitarymx P /\ T = P^T *m diag_mx d *m P.
Proof.
elim: n T => [|n IH] T sT.
  by exists 1%:M, 0; split; [rewrite /unitarymx adj1 mulmx1 | rewrite flatmx0 [RHS]flatmx0].
have [a [v [nv hv]]] := coneigen sT.
have [c [H [cn uH aH vH]]] := householder nv.
have HH : H *m H = 1%:M by rewrite -{2}aH.
have tH : H^T = cj H by rewrite -{1}aH tr_adj.
have tcH : (cj H)^T = H by rewrite tr_cj.
have cHH : cj H *m cj H = 1%:M by rewrite -cjM HH cj1.
have [B BE] : exists B : 'M[C]_(1 + n), B = H *m T *m cj H by eexists.
have sB : B^T = B by rewrite BE !trmx_mul sT tH tcH mulmxA.
pose a' := c^-1 * a * c^*.
have eB : (delta_mx 0 0 : 'rV[C]_(1 + n)) *m B = a' *: delta_mx 0 0.
  have e0 : (delta_mx 0 0 : 'rV[C]_(1 + n)) = c^-1 *: (v *m H) by rewrite vH scalerA mulVf // scale1r.
  rewrite {1}e0 -scalemxAl BE !mulmxA -[v *m H *m H]mulmxA HH mulmx1 hv -scalemxAl -cjM vH cjZ.
  rewrite !scalerA -/a'; congr (_ *: _); by apply/matrixP => i j; rewrite !mxE conjC_nat.
have rB j : B 0 j = a' * (j == 0)%:R.
  by move/rowP/(_ j): eB; rewrite -rowE !mxE eqxx eq_sym.
have ur : ursubmx B = 0 by apply/matrixP => i j; rewrite !mxE !ord1 (_ : lshift n 0 = 0) ; [rewrite rB -val_eqE /= mulr0 | apply: val_inj].
have dl : dlsubmx B = 0.
  by rewrite -[B]sB; apply/matrixP => i j; have /matrixP/(_ j i) := ur; rewrite !mxE => ->.
have ul : ulsubmx B = a'%:M.
  by apply/matrixP => i j; rewrite !ord1 !mxE (_ : lshift n 0 = 0) ; [rewrite rB -val_eqE /= mulr1 mulr1n | apply: val_inj].
have sD : (drsubmx B)^T = drsubmx B by rewrite -{2}[B]sB; apply/matrixP => i j; rewrite !mxE.
have [Q [d [uQ eD]]] := IH _ sD.
have eBB : B = block_mx a'%:M 0 0 (Q^T *m diag_mx d *m Q) by rewrite -eD -ul -{1}[B]submxK ur dl.
pose P' : 'M[C]_(1 + n) := block_mx 1%:M 0 0 Q.
have aP : adj P' = block_mx 1%:M 0 0 (adj Q).
  by rewrite /P' /adjmx map_block_mx tr_block_mx !map_mx0 !trmx0 map_mx1 trmx1.
have tP : P'^T = block_mx 1%:M 0 0 Q^T by rewrite /P' tr_block_mx !trmx0 trmx1.
have uP : unitarymx P'.
  rewrite /unitarymx aP /P' mulmx_block !mulmx0 !mul0mx !addr0 mul1mx add0r uQ.
  by rewrite -scalar_mx_block.
exists (P' *m cj H), (row_mx a'%:M d); split.
  by apply: unitary_mul => //; apply: unitary_cj.
have -> : T = H *m B *m cj H by rewrite BE !mulmxA HH mul1mx -mulmxA cHH mulmx1.
have dg : diag_mx (row_mx (a'%:M : 'rV_1) d : 'rV[C]_(1 + n)) = block_mx a'%:M 0 0 (diag_mx d).
  by rewrite diag_mx_row; congr (block_mx _ _ _ _); apply/matrixP => i j; rewrite !ord1 !mxE !mulr1n.
have e : B = P'^T *m diag_mx (row_mx (a'%:M : 'rV_1) d : 'rV[C]_(1 + n)) *m P'.
  rewrite eBB dg tP /P' !mulmx_block !mulmx0 !mul0mx !addr0 !add0r !mulmx1 !mul1mx; congr (block_mx _ _ _ _); by rewrite ?mul0mx ?mulmx0.
by rewrite trmx_mul tcH e !mulmxA.
Qed.

(** No singular value exceeds the sum of the others by more than the sum of the
    moduli of the diagonal entries. *)
Lemma takagi_diag n (P : 'M[C]_n) (d : 'rV[C]_n) i : unitarymx P ->
  2%:R * `|d 0 i| - \sum_j `|d 0 j| <= \sum_k `|(P^T *m diag_mx d *m P) k k|.
Proof.
move=> u.
have tk k : (P^T *m diag_mx d *m P) k k = \sum_j P j k ^+ 2 * d 0 j.
  rewrite mxE; apply: eq_bigr => j _; rewrite mul_mx_diag !mxE; rewrite mulrAC expr2 //.
have hk k : `|P i k| ^+ 2 * `|d 0 i| - \sum_(j | j != i) `|P j k| ^+ 2 * `|d 0 j|
   <= `|(P^T *m diag_mx d *m P) k k|.
  rewrite tk [X in _ <= `|X|](bigD1 i) //= -normrX -normrM.
  apply: le_trans (ler_sub_norm_add _ _); rewrite ler_sub //.
  apply: le_trans (ler_norm_sum _ _ _) _; apply: ler_sum => j _; by rewrite normrM normrX.
apply: le_trans (ler_sum _ (fun k _ => hk k)).
rewrite sumrB -mulr_suml unitary_row // mul1r exchange_big /=.
under [X in _ <= _ - X]eq_bigr => j _ do rewrite -mulr_suml unitary_row // mul1r.
by rewrite [X in _ - X <= _](bigD1 i) //= mulr_natl mulr2n opprD addrACA subrr add0r.
Qed.

(** The squared singular values are the eigenvalues of [T T^+]. *)
Lemma takagi_gram n (P : 'M[C]_n) (d : 'rV[C]_n) (T := P^T *m diag_mx d *m P) : unitarymx P ->
  isSpectrum n (Mat (T *m adj T)) [seq `|z| ^+ 2 | z <- dseq d].
Proof.
move=> u; have u' := unitary_cj u.
have -> : T *m adj T = adj (cj P) *m diag_mx (\row_i (`|d 0 i| ^+ 2)) *m cj P.
  rewrite /T !adj_mul adj_tr adj_cj adj_diag !mulmxA -[_ *m P *m adj P]mulmxA u mulmx1.
  rewrite -[_ *m diag_mx _ *m diag_mx _]mulmxA diag_mul; congr (_ *m diag_mx _ *m _).
  by apply/rowP => i; rewrite !mxE normCK.
have -> : [seq `|z| ^+ 2 | z <- dseq d] = dseq (\row_i (`|d 0 i| ^+ 2)).
  by rewrite /dseq -map_comp; apply: eq_map => i; rewrite /= mxE.
exact: spectrum_diag.
Qed.
End Takagi.
