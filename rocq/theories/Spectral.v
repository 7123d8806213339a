(** The spectral theorem for Hermitian matrices over a [numClosedFieldType].
    This models no code: it is used for the functions that call an eigenvalue
    solver. *)
From mathcomp Require Import all_ssreflect all_algebra.
From Verif Require Py.
From Verif Require Import MatModel MatLib MatSpec ExpmInst.
Set Implicit Arguments.
Unset Strict Implicit.
Unset Printing Implicit Defensive.
Import Order.TTheory GRing.Theory Num.Theory.
Local Open Scope ring_scope.

Section Spectral.
Variable C : numClosedFieldType.

Local Notation adj := (@adjmx C _ _).
Lemma adjK m n (A : 'M[C]_(m, n)) : adj (adj A) = A.
Proof. by apply/matrixP => i j; rewrite !mxE conjCK. Qed.
Lemma adjD m n (A B : 'M[C]_(m, n)) : adj (A + B) = adj A + adj B.
Proof. by apply/matrixP => i j; rewrite !mxE rmorphD. Qed.
Lemma adjB m n (A B : 'M[C]_(m, n)) : adj (A - B) = adj A - adj B.
Proof. by apply/matrixP => i j; rewrite !mxE rmorphB. Qed.
Lemma adjZ m n a (A : 'M[C]_(m, n)) : adj (a *: A) = a^* *: adj A.
Proof. by apply/matrixP => i j; rewrite !mxE rmorphM. Qed.
Lemma adj_scalar n (a : C) : adj (a%:M : 'M[C]_n) = (a^*)%:M.
Proof. by rewrite -scalemx1 adjZ adj1 scalemx1. Qed.

Definition unitarymx n (P : 'M[C]_n) := P *m adj P = 1%:M.
Lemma unitaryC n (P : 'M[C]_n) : unitarymx P -> adj P *m P = 1%:M.
Proof. exact: mulmx1C. Qed.

Definition sqn n (v : 'rV[C]_n) : C := (v *m adj v) 0 0.
Lemma sqnE n (v : 'rV[C]_n) : sqn v = \sum_i `|v 0 i| ^+ 2.
Proof. by rewrite /sqn !mxE; apply: eq_bigr => i _; rewrite !mxE normCK. Qed.
Lemma sqn_ge0 n (v : 'rV[C]_n) : 0 <= sqn v.
Proof. by rewrite sqnE sumr_ge0 // => i _; rewrite exprn_ge0. Qed.
Lemma sqn_eq0 n (v : 'rV[C]_n) : (sqn v == 0) = (v == 0).
Proof.
apply/idP/eqP => [|->]; last by rewrite /sqn mul0mx mxE.
rewrite sqnE psumr_eq0 => [/allP h|i _]; last by rewrite exprn_ge0.
apply/rowP => i; rewrite mxE; apply/eqP; rewrite -normr_eq0 -sqrf_eq0.
by apply: (implyP (h i (mem_index_enum _))).
Qed.

(** A unit vector is sent to the first basis vector by a Hermitian unitary
    matrix, up to a phase. *)
Lemma householder n (v : 'rV[C]_n.+1) : sqn v = 1 ->
  exists c H, [/\ c != 0, unitarymx H, adj H = H & v *m H = c *: delta_mx 0 0].
Proof.
move=> hv.
have [p hp wp] : exists2 p : C, `|p| = 1 & 0 <= p * v 0 0.
  have [->|nz] := eqVneq (v 0 0) 0; first by exists 1; rewrite ?normr1 // mulr0.
  have nn : `|v 0 0| != 0 by rewrite normr_eq0.
  exists ((v 0 0)^* / `|v 0 0|).
    by rewrite normf_div norm_conjC normr_id divff.
  by rewrite mulrAC [(_)^* * _]mulrC -normCK expr2 mulfK.
have pn : p != 0 by rewrite -normr_eq0 hp oner_eq0.
pose w := p *: v; pose e : 'rV[C]_n.+1 := delta_mx 0 0; pose u := w - e.
have w0 : (w 0 0)^* = w 0 0 by apply/CrealP; rewrite realE mxE wp.
have ww : w *m adj w = 1%:M.
  rewrite /w adjZ -scalemxAl -scalemxAr scalerA -normCK hp expr1n scale1r.
  by apply/matrixP => i j; rewrite !ord1 -[LHS]/(sqn v) hv mxE.
have we : w *m adj e = (w 0 0)%:M.
  apply/matrixP => i j; rewrite !ord1 !mxE (bigD1 ord0) //= big1 ?addr0; last first.
    by move=> k hk; rewrite !mxE (negbTE hk) andbF conjC0 mulr0.
  by rewrite !mxE conjC1 mulr1 mulr1n.
have ew : e *m adj w = (w 0 0)%:M.
  by rewrite -[LHS]adjK adj_mul adjK we adj_scalar w0.
have ee : e *m adj e = 1%:M.
  apply/matrixP => i j; rewrite !ord1 !mxE (bigD1 ord0) //= big1 ?addr0; last first.
    by move=> k hk; rewrite !mxE (negbTE hk) andbF mul0r.
  by rewrite !mxE conjC1 mulr1.
have pv H : w *m H = e -> v *m H = p^-1 *: e.
  by move=> h; rewrite -h /w -scalemxAl scalerA mulVf // scale1r.
have [u0|un] := eqVneq u 0.
  exists p^-1, 1%:M; split; rewrite ?invr_eq0 ?adj1 //; first by rewrite /unitarymx adj1 mulmx1.
  by apply: pv; rewrite mulmx1; apply/eqP; rewrite -subr_eq0 -/u u0.
pose s := 1 - w 0 0.
have wu : w *m adj u = s%:M by rewrite /u adjB mulmxBr ww we -raddfB.
have uu : u *m adj u = (s + s)%:M.
  by rewrite {1}/u mulmxBl wu /u adjB mulmxBr ew ee -!raddfB opprB.
have sn : s + s != 0.
  apply: contra un; rewrite -sqn_eq0 /sqn uu => /eqP ->; by rewrite mxE.
have sr : (s + s)^* = s + s by rewrite /s rmorphD rmorphB conjC1 w0.
pose H : 'M[C]_n.+1 := 1%:M - (2%:R / (s + s)) *: (adj u *m u).
have aH : adj H = H.
  by rewrite /H adjB adjZ adj1 adj_mul adjK fmorph_div conjC_nat sr.
exists p^-1, H; split; rewrite ?invr_eq0 //.
  rewrite /unitarymx aH /H; set X := adj u *m u; set k := 2%:R / (s + s).
  have XX : X *m X = (s + s) *: X.
    by rewrite /X mulmxA -[adj u *m u *m adj u]mulmxA uu mul_mx_scalar scalemxAl.
  rewrite mulmxBl mul1mx [X in _ - X]mulmxBr mulmx1 -scalemxAl -scalemxAr XX !scalerA.
  have ks : k * (s + s) = 2%:R by rewrite /k divfK.
  rewrite ?[k * k * _]mulrAC -?[k * k * _]mulrA ks ?mulr_natr ?mulr_natl mulr2n scalerDl.
  have -> : k *: X - (k *: X + k *: X) = - (k *: X) by rewrite opprD addrA subrr sub0r.
  by rewrite opprK subrK.
apply: pv; rewrite /H mulmxBr mulmx1 -scalemxAr mulmxA wu mul_scalar_mx scalerA.
have -> : 2%:R / (s + s) * s = 1 by rewrite mulrAC mulr_natl mulr2n divff.
by rewrite scale1r /u opprB addrC subrK.
Qed.

Theorem spectral n (A : 'M[C]_n) : adj A = A ->
  exists P (d : 'rV[C]_n), [/\ unitarymx P, forall i, (d 0 i)^* = d 0 i & A = adj P *m diag_mx d *m P].
Proof.
elim: n A => [|n IH] A hA.
  by exists 1%:M, 0; split; [rewrite /unitarymx adj1 mulmx1 | case | rewrite flatmx0 [RHS]flatmx0].
have [a /eigenvalueP[v0 hv0 nv0]] : exists a, eigenvalue A a.
  have [a ha] : exists a, root (char_poly A) a by apply/closed_rootP; rewrite size_char_poly.
  by exists a; rewrite eigenvalue_root_char.
pose r := sqrtC (sqn v0); have rn : r != 0 by rewrite sqrtC_eq0 sqn_eq0.
have rr : r^* = r by apply: conj_Creal; rewrite realE sqrtC_ge0 sqn_ge0.
pose v := r^-1 *: v0.
have hv : v *m A = a *: v by rewrite /v -scalemxAl hv0 !scalerA mulrC.
have nv : sqn v = 1.
  rewrite /sqn /v adjZ -scalemxAl -scalemxAr !mxE -[\sum__ _]/(\sum_j v0 0 j * adj v0 j 0).
  have -> : \sum_j v0 0 j * adj v0 j 0 = sqn v0 by rewrite /sqn mxE.
  by rewrite fmorphV rr mulrA -invfM -expr2 sqrtCK mulVf // sqn_eq0.
have [c [H [cn uH aH vH]]] := householder nv.
have HH : H *m H = 1%:M by rewrite -{2}aH.
have [B BE] : exists B : 'M[C]_(1 + n), B = H *m A *m H by eexists.
have aB : adj B = B by rewrite BE !adj_mul aH hA mulmxA.
have eB : (delta_mx 0 0 : 'rV[C]_(1 + n)) *m B = a *: delta_mx 0 0.
  have -> : (delta_mx 0 0 : 'rV[C]_(1 + n)) = c^-1 *: (v *m H) by rewrite vH scalerA mulVf // scale1r.
  by rewrite -scalemxAl BE !mulmxA -[v *m H *m H]mulmxA HH mulmx1 hv -scalemxAl scalerA mulrC -scalerA.
have rB j : B 0 j = a * (j == 0)%:R.
  by move/rowP/(_ j): eB; rewrite -rowE !mxE eqxx eq_sym.
have ur : ursubmx B = 0 by apply/matrixP => i j; rewrite !mxE !ord1 (_ : lshift n 0 = 0) ; [rewrite rB -val_eqE /= mulr0 | apply: val_inj].
have dl : dlsubmx B = 0.
  by rewrite -[B]aB; apply/matrixP => i j; have /matrixP/(_ j i) := ur; rewrite !mxE => ->; rewrite conjC0.
have ul : ulsubmx B = a%:M.
  by apply/matrixP => i j; rewrite !ord1 !mxE (_ : lshift n 0 = 0) ; [rewrite rB -val_eqE /= mulr1 mulr1n | apply: val_inj].
have ar : a^* = a.
  by move/matrixP/(_ 0 0): aB; rewrite !mxE !rB mulr1.
have aD : adj (drsubmx B) = drsubmx B by rewrite -{2}[B]aB; apply/matrixP => i j; rewrite !mxE.
have [Q [d [uQ rd eD]]] := IH _ aD.
have eBB : B = block_mx a%:M 0 0 (adj Q *m diag_mx d *m Q) by rewrite -eD -ul -{1}[B]submxK ur dl.
pose P' : 'M[C]_(1 + n) := block_mx 1%:M 0 0 Q.
have aP : adj P' = block_mx 1%:M 0 0 (adj Q).
  by rewrite /P' /adjmx map_block_mx tr_block_mx !map_mx0 !trmx0 map_mx1 trmx1.
have uP : unitarymx P'.
  rewrite /unitarymx aP /P' mulmx_block !mulmx0 !mul0mx !addr0 mul1mx add0r uQ.
  by rewrite -scalar_mx_block.
exists (P' *m H), (row_mx a%:M d); split.
- rewrite /unitarymx adj_mul aH mulmxA -[P' *m H *m H]mulmxA HH mulmx1; exact: uP.
- by move=> i; rewrite !mxE; case: split_ordP => j _; rewrite ?mxE // !ord1 mulr1n.
- have -> : A = H *m B *m H by rewrite BE !mulmxA HH mul1mx -mulmxA HH mulmx1.
  have dg : diag_mx (row_mx (a%:M : 'rV_1) d : 'rV[C]_(1 + n)) = block_mx a%:M 0 0 (diag_mx d).
    by rewrite diag_mx_row; congr (block_mx _ _ _ _); apply/matrixP => i j; rewrite !ord1 !mxE !mulr1n.
  have e : B = adj P' *m diag_mx (row_mx (a%:M : 'rV_1) d : 'rV[C]_(1 + n)) *m P'.
    rewrite eBB dg aP /P' !mulmx_block !mulmx0 !mul0mx !addr0 !add0r !mulmx1 !mul1mx; congr (block_mx _ _ _ _); by rewrite ?mul0mx ?mulmx0.
  by rewrite adj_mul aH e !mulmxA.
Qed.
End Spectral.
