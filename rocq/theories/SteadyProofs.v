(** Super-operators as maps on matrices, simple eigenvalues, and the powers of
    a super-operator. *)
From mathcomp Require Import all_ssreflect all_algebra.
From Verif Require Py.
From Verif Require Import MatModel OperModel StateModel EvolModel EigModel MatLib MatSpec MatProofs StateSpec StateProofs EvolSpec EvolProofs ExpmInst
  EigSpec EigInst Spectral SpecProofs LindProofs DistProofs PropsDist GateProofs ChanProofs.
Set Implicit Arguments.
Unset Strict Implicit.
Unset Printing Implicit Defensive.
Import Order.TTheory GRing.Theory Num.Theory.
Local Open Scope ring_scope.

Section Steady.
Variable C : numClosedFieldType.
Local Notation adj := (@adjmx C _ _).

(** ** Vectorisation over ['M] *)
Definition vc n (X : 'M[C]_n) : 'cV[C]_(n * n) := \col_k ent (Mat X) (k %% n) (k %/ n).
Definition uv n (v : 'cV[C]_(n * n)) : 'M[C]_n := \matrix_(i, j) ent (Mat v) (j * n + i) 0.
Lemma vcE n (X : 'M[C]_n) : vecm (Mat X) = Mat (vc X).
Proof. by apply: mat_ext => // k j hk hj; rewrite ent_mk //= (ent_in _ hk hj) mxE. Qed.
Lemma uvE n (v : 'cV[C]_(n * n)) : unvecm n (Mat v) = Mat (uv v).
Proof. by apply: mat_ext => // i j hi hj; rewrite ent_mk //= (ent_in _ hi hj) mxE. Qed.
Lemma vcK n (X : 'M[C]_n) : uv (vc X) = X.
Proof. by apply: (@Mat_inj C n n); rewrite -uvE -vcE unvecK. Qed.
Lemma uvK n (v : 'cV[C]_(n * n)) : vc (uv v) = v.
Proof. by apply: (@Mat_inj C (n * n) 1); rewrite -vcE -uvE vecK. Qed.
Lemma uvD n (v w : 'cV[C]_(n * n)) : uv (v + w) = uv v + uv w.
Proof. by apply/matrixP => i j; rewrite !mxE -add_Mat ent_addm. Qed.
Lemma uvZ n a (v : 'cV[C]_(n * n)) : uv (a *: v) = a *: uv v.
Proof. by apply/matrixP => i j; rewrite !mxE -scale_Mat ent_scalem. Qed.
Lemma uvB n (v w : 'cV[C]_(n * n)) : uv (v - w) = uv v - uv w.
Proof. by rewrite uvD -scaleN1r uvZ scaleN1r. Qed.
Lemma vcD n (X Y : 'M[C]_n) : vc (X + Y) = vc X + vc Y.
Proof. by rewrite -[X]vcK -[Y]vcK -uvD !uvK. Qed.
Lemma vcZ n a (X : 'M[C]_n) : vc (a *: X) = a *: vc X.
Proof. by rewrite -[X]vcK -uvZ !uvK. Qed.

Definition so n (E : 'M[C]_(n * n)) (X : 'M[C]_n) : 'M[C]_n := uv (E *m vc X).
Lemma soE n (E : 'M[C]_(n * n)) X : applySO (Mat E) (Mat X) = Ok (Mat (so E X)).
Proof. by rewrite (@applyE C n) // vcE (mulm_Mat E (vc X)) uvE. Qed.
Lemma soD n (E : 'M[C]_(n * n)) X Y : so E (X + Y) = so E X + so E Y.
Proof. by rewrite /so vcD mulmxDr uvD. Qed.
Lemma soZ n (E : 'M[C]_(n * n)) a X : so E (a *: X) = a *: so E X.
Proof. by rewrite /so vcZ -scalemxAr uvZ. Qed.
Lemma soB n (E : 'M[C]_(n * n)) X Y : so E (X - Y) = so E X - so E Y.
Proof. by rewrite soD -scaleN1r soZ scaleN1r. Qed.
Lemma so_vc n (E : 'M[C]_(n * n)) X : vc (so E X) = E *m vc X.
Proof. by rewrite /so uvK. Qed.

(** ** Simple eigenvalues *)
Lemma eig_root N (A : 'M[C]_N) vals a : isSpectrum N (Mat A) vals -> eigenvalue A a -> a \in vals.
Proof.
move=> /spectrumE[_ hs]; rewrite eigenvalue_root_char /root char_poly_at hs prodf_seq_eq0 => /hasP[z hz].
by rewrite subr_eq0 => /eqP ->.
Qed.

Lemma row_simple N (A : 'M[C]_N) vals a (v w : 'rV[C]_N) : isSpectrum N (Mat A) vals ->
  (count_mem a vals <= 1)%N -> v *m A = a *: v -> w *m A = a *: w -> v != 0 -> exists c, w = c *: v.
Proof.
case: N A v w => [|n] A v0 w sp c1 hv0 hw nv0; first by rewrite [v0]thinmx0 eqxx in nv0.
pose r := sqrtC (sqn v0); have rn : r != 0 by rewrite sqrtC_eq0 sqn_eq0.
have rr : r^* = r by apply: conj_Creal; rewrite realE sqrtC_ge0 sqn_ge0.
pose v := r^-1 *: v0.
have hv : v *m A = a *: v by rewrite /v -scalemxAl hv0 !scalerA mulrC.
have nv : sqn v = 1.
  rewrite /sqn /v adjZ -scalemxAl -scalemxAr !mxE -[\sum__ _]/(\sum_j v0 0 j * adj v0 j 0).
  have -> : \sum_j v0 0 j * adj v0 j 0 = sqn v0 by rewrite /sqn mxE.
  by rewrite fmorphV rr mulrA -invfM -expr2 sqrtCK mulVf // sqn_eq0.
have [c [H [cn uH aH vH]]] := householder nv.
have HH : H *m H = 1%:M by rewrite -{2}aH.
have [B BE] : exists B : 'M[C]_(1 + n), B = H *m A *m H by eexists.
have eB : (delta_mx 0 0 : 'rV[C]_(1 + n)) *m B = a *: delta_mx 0 0.
  have -> : (delta_mx 0 0 : 'rV[C]_(1 + n)) = c^-1 *: (v *m H) by rewrite vH scalerA mulVf // scale1r.
  by rewrite -scalemxAl BE !mulmxA -[v *m H *m H]mulmxA HH mulmx1 hv -scalemxAl scalerA mulrC -scalerA.
have rB j : B 0 j = a * (j == 0)%:R.
  by move/rowP/(_ j): eB; rewrite -rowE !mxE eqxx eq_sym.
have ur : ursubmx B = 0 by apply/matrixP => i j; rewrite !mxE !ord1 (_ : lshift n 0 = 0) ; [rewrite rB -val_eqE /= mulr0 | apply: val_inj].
have ul : ulsubmx B = a%:M.
  by apply/matrixP => i j; rewrite !ord1 !mxE (_ : lshift n 0 = 0) ; [rewrite rB -val_eqE /= mulr1 mulr1n | apply: val_inj].
pose D := drsubmx B.
have eBB : B = block_mx a%:M 0 (dlsubmx B) D by rewrite -ul -ur submxK.
have spB : isSpectrum (1 + n) (Mat B) (a :: roots D).
  have /spectrumE[sD hD] := roots_spectrum D.
  apply/spectrumE; split=> [|x]; first by rewrite /= sD.
  rewrite {1}eBB -[x%:M]/((x%:M : 'M_(1 + n))) scalar_mx_block opp_block_mx add_block_mx oppr0 addr0 add0r.
  by rewrite det_lblock hD big_cons; congr (_ * _); rewrite -raddfB det_scalar1.
have spA : isSpectrum (1 + n) (Mat B) vals.
  move/spectrumE: sp => [s1 h1]; apply/spectrumE; split=> // x; rewrite -h1.
  by rewrite BE -{1}aH det_sim.
have pe := spectrum_perm spA spB.
pose w' : 'rV[C]_(1 + n) := w *m H.
have hw' : w' *m B = a *: w' by rewrite /w' BE !mulmxA -[w *m H *m H]mulmxA HH mulmx1 hw -scalemxAl.
have [z|nz] := eqVneq (rsubmx w') 0.
  exists (w' 0 0 * c^-1 * r^-1).
  have e1 : w' = w' 0 0 *: delta_mx 0 0.
    apply/rowP => j; rewrite !mxE eqxx /=; case: (eqVneq j 0) => [->|nj]; first by rewrite mulr1.
    rewrite mulr0; case: (split_ordP j) nj => k ->.
      by rewrite ord1 (_ : lshift n 0 = 0) ?eqxx //; apply: val_inj.
    by move=> _; move/rowP/(_ k): z; rewrite !mxE.
  have -> : w = w' *m H by rewrite /w' -mulmxA HH mulmx1.
  rewrite {1}e1 (_ : delta_mx 0 0 = c^-1 *: (v *m H)); last by rewrite vH scalerA mulVf // scale1r.
  by rewrite -!scalemxAl -mulmxA HH mulmx1 /v !scalerA.
exfalso; have hD : rsubmx w' *m D = a *: rsubmx w'.
  have := congr1 rsubmx hw'; rewrite {1}eBB -{1}[w']hsubmxK mul_row_block row_mxKr mulmx0 add0r => ->.
  by apply/rowP => j; rewrite !mxE.
have : a \in roots D by apply: (eig_root (roots_spectrum D)); apply/eigenvalueP; exists (rsubmx w').
by move: c1; rewrite (permP pe) /= eqxx add1n ltnS leqn0 => /eqP h; rewrite -has_pred1 has_count h.
Qed.

Lemma spectrum_trA N (A : 'M[C]_N) vals : isSpectrum N (Mat A) vals -> isSpectrum N (Mat A^T) vals.
Proof.
move=> /spectrumE[h1 h2]; apply/spectrumE; split=> // x.
by rewrite -h2 -[RHS]det_tr linearB /= tr_scalar_mx.
Qed.
Lemma col_simple N (A : 'M[C]_N) vals a (v w : 'cV[C]_N) : isSpectrum N (Mat A) vals ->
  (count_mem a vals <= 1)%N -> A *m v = a *: v -> A *m w = a *: w -> v != 0 -> exists c, w = c *: v.
Proof.
move=> sp c1 hv hw nz.
have [|||c e] := @row_simple _ _ _ a v^T w^T (spectrum_trA sp) c1.
- by rewrite -trmx_mul hv linearZ.
- by rewrite -trmx_mul hw linearZ.
- by apply: contra_neq nz => z; rewrite -[v]trmxK z trmx0.
by exists c; rewrite -[w]trmxK e linearZ /= trmxK.
Qed.
(** ** The eigenvalue one *)
Definition trow n : 'rV[C]_(n * n) := \row_k \tr (uv (delta_mx k 0 : 'cV[C]_(n * n))).
Lemma uv_sum n (I : Type) (s : seq I) (F : I -> 'cV[C]_(n * n)) : uv (\sum_(i <- s) F i) = \sum_(i <- s) uv (F i).
Proof.
elim: s => [|i s IH]; last by rewrite !big_cons uvD IH.
by rewrite !big_nil -[0]/(0 : 'cV_(n * n)) -(scale0r (0 : 'cV[C]_(n * n))) uvZ scale0r.
Qed.
Lemma trowE n (v : 'cV[C]_(n * n)) : (trow n *m v) 0 0 = \tr (uv v).
Proof.
rewrite {2}[v]matrix_sum_delta exchange_big /= big_ord1 uv_sum linear_sum /= mxE.
by apply: eq_bigr => k _; rewrite mxE uvZ linearZ mulrC.
Qed.
Lemma so_eig1 n (E : 'M[C]_(n * n)) vals : (0 < n)%N -> (forall X, \tr (so E X) = \tr X) ->
  isSpectrum (n * n) (Mat E) vals -> 1 \in vals.
Proof.
move=> hn hT hs.
have tE : trow n *m E = 1 *: trow n.
  apply/rowP => k; rewrite scale1r.
  have h (v : 'cV_(n * n)) : (trow n *m (E *m v)) 0 0 = (trow n *m v) 0 0.
    by rewrite !trowE -{1}[v]uvK -[uv (E *m _)]/(so E _) hT.
  by have := h (delta_mx k 0); rewrite mulmxA -!colE [LHS]mxE [RHS]mxE.
have nz : trow n != 0.
  apply/eqP => z; have := trowE (vc (1%:M : 'M[C]_n)); rewrite z mul0mx mxE vcK mxtrace1 => /esym/eqP.
  by rewrite pnatr_eq0; case: (n) hn.
have : eigenvalue E 1 by apply/eigenvalueP; exists (trow n).
exact: eig_root hs.
Qed.


(** ** Sequences that tend to zero *)
Definition nullC (f : nat -> C) : Prop := forall e : C, 0 < e -> exists N, forall m, (N <= m)%N -> `|f m| < e.
Definition powNull : Prop := forall l : C, `|l| < 1 -> nullC (fun m => l ^+ m).

Lemma null_linear (x w : nat -> C) l : powNull -> `|l| < 1 -> (forall m, x m.+1 = l * x m + w m) -> nullC w -> nullC x.
Proof.
move=> hp hl hx hw e e0; have l1 : 0 < 1 - `|l| by rewrite subr_gt0.
pose d := half C * e * (1 - `|l|); have d0 : 0 < d by rewrite mulr_gt0 // mulr_gt0 // half_gt0.
have [N hN] := hw d d0.
have bd k : `|x (k + N)%N| <= `|l| ^+ k * `|x N| + half C * e.
  elim: k => [|k IH]; first by rewrite expr0 mul1r ler_addl mulr_ge0 ?half_ge0 // ltW.
  rewrite addSn hx; apply: le_trans (ler_norm_add _ _) _; rewrite normrM exprS.
  apply: (@le_trans _ _ (`|l| * (`|l| ^+ k * `|x N| + half C * e) + d)).
    by rewrite ler_add ?ler_wpmul2l // ltW // hN // leq_addl.
  rewrite mulrDr mulrA -addrA; apply: ler_add => //.
  by rewrite /d mulrBr mulr1 [`|l| * _]mulrC addrC subrK.
have x1 : 0 < 1 + `|x N| by rewrite ltr_paddr // ltr01.
have e2 : 0 < half C * e / (1 + `|x N|) by rewrite divr_gt0 // mulr_gt0 // half_gt0.
have [K hK] := hp _ hl _ e2.
exists (K + N)%N => m hm; have hm' : (m = (m - N) + N)%N by rewrite subnK // (leq_trans _ hm) // leq_addl.
rewrite hm'; apply: le_lt_trans (bd _) _.
have hk : (K <= m - N)%N by rewrite leq_subRL ?(leq_trans _ hm) ?leq_addl // addnC.
have eE : e = half C * e + half C * e by rewrite -[LHS]half2 mulr2n mulrDl mul1r mulrDr.
rewrite [X in _ < X]eE ltr_add2r; have := hK _ hk; rewrite normrX lter_pdivl_mulr // => h.
by apply: le_lt_trans h; rewrite ler_wpmul2l ?exprn_ge0 // ler_addr ler01.
Qed.

(** ** Powers of a matrix *)
Definition nullV N (f : nat -> 'cV[C]_N) : Prop := forall i, nullC (fun m => f m i 0).

Lemma pow_null N (A : 'M[C]_N) (ls : seq C) (v : 'cV[C]_N) : powNull -> (forall l, l \in ls -> `|l| < 1) ->
  foldl (fun u l => A *m u - l *: u) v ls = 0 -> nullV (fun m => iter m (mulmx A) v).
Proof.
move=> hp; elim: ls v => [|l ls IH] v hl /=.
  move=> -> i e e0; exists 0%N => m _.
  by rewrite (_ : iter m (mulmx A) 0 = 0) ?mxE ?normr0 //; elim: m => //= m ->; rewrite mulmx0.
move=> h; have {}IH := IH _ (fun z hz => hl z (@mem_behead _ (l :: ls) z hz)) h.
move=> i; apply: (@null_linear _ (fun m => iter m (mulmx A) (A *m v - l *: v) i 0) l) => //.
  by apply: hl; rewrite mem_head.
move=> m; have -> : iter m (mulmx A) (A *m v - l *: v) = iter m.+1 (mulmx A) v - l *: iter m (mulmx A) v.
  by elim: m => //= m ->; rewrite mulmxBr -scalemxAr.
by rewrite [in RHS]mxE addrC [X in _ + X + _]mxE [X in _ - X + _]mxE subrK.
Qed.

Lemma foldl_horner N (A : 'M[C]_N.+1) (ls : seq C) (v : 'cV[C]_N.+1) :
  foldl (fun u l => A *m u - l *: u) v ls = horner_mx A (\prod_(z <- ls) ('X - z%:P)) *m v.
Proof.
elim: ls v => [|l ls IH] v /=; first by rewrite big_nil rmorph1 mul1mx.
rewrite IH big_cons mulrC rmorphM /= -mulmxE -mulmxA; congr (_ *m _).
by rewrite rmorphB /= horner_mx_X horner_mx_C mulmxBl mul_scalar_mx.
Qed.
Lemma cayley N (A : 'M[C]_N) vals (v : 'cV[C]_N) : isSpectrum N (Mat A) vals ->
  foldl (fun u l => A *m u - l *: u) v vals = 0.
Proof.
case: N A v => [|N] A v sp; first by rewrite [LHS]flatmx0.
have -> : foldl (fun u l => A *m u - l *: u) v vals = horner_mx A (char_poly A) *m v.
  rewrite foldl_horner; congr (horner_mx A _ *m v); apply: poly_fun_eq => x.
  move/spectrumE: sp => [_ h]; rewrite char_poly_at h horner_prod.
  by under eq_bigr do rewrite hornerXsubC.
by rewrite Cayley_Hamilton mul0mx.
Qed.

(** ** Convergence to the fixed density matrix *)
Lemma so_limit n (E : 'M[C]_(n * n)) vs (rho sigma : 'M[C]_n) : powNull ->
  (forall X, \tr (so E X) = \tr X) -> isSpectrum (n * n) (Mat E) (rcons vs 1) ->
  (forall l, l \in vs -> `|l| < 1) -> so E rho = rho -> \tr rho = 1 -> \tr sigma = 1 ->
  forall i j, nullC (fun m => (iter m (so E) sigma - rho) i j).
Proof.
move=> hp hT sp hl fr tr1 ts1 i j.
pose v := vc sigma - vc rho.
have tv : \tr (uv v) = 0 by rewrite /v uvB !vcK linearB /= tr1 ts1 subrr.
have hc := cayley v sp; rewrite -cats1 foldl_cat /= in hc.
pose u := foldl (fun u l => E *m u - l *: u) v vs; rewrite -/u scale1r in hc.
have tu : \tr (uv u) = 0.
  have gen s w : \tr (uv w) = 0 -> \tr (uv (foldl (fun u l => E *m u - l *: u) w s)) = 0; last exact: gen.
  elim: s w => //= l s IH w tw; apply: IH.
  rewrite -scaleNr uvD uvZ linearD linearZ /= tw mulr0 addr0.
  by rewrite -[w in E *m w]uvK -[uv (E *m _)]/(so E _) hT.
have fu : E *m u = 1 *: u by move/eqP: hc; rewrite subr_eq0 scale1r => /eqP.
have fv : E *m vc rho = 1 *: vc rho by rewrite -so_vc fr scale1r.
have nz : vc rho != 0.
  apply/eqP => z; move: tr1; rewrite -[rho]vcK z -(scale0r (0 : 'cV[C]_(n * n))) uvZ scale0r mxtrace0 => /esym/eqP.
  by rewrite oner_eq0.
have c1 : (count_mem (1%R : C) (rcons vs 1%R) <= 1)%N.
  rewrite -cats1 count_cat /= eqxx addn0 addn1 ltnS leqn0 -[_ == 0%N]negbK -lt0n -has_count has_pred1.
  by apply/negP => /hl; rewrite normr1 ltxx.
have [c e] := col_simple sp c1 fv fu nz.
have c0 : c = 0 by move: tu; rewrite e uvZ vcK linearZ /= tr1 mulr1.
have u0 : u = 0 by rewrite e c0 scale0r.
have hN := pow_null hp hl u0.
have it m : iter m (so E) sigma - rho = uv (iter m (mulmx E) v).
  elim: m => [|m IH] /=; first by rewrite /v uvB !vcK.
  by rewrite -[X in E *m X]uvK -IH -[RHS]/(so E _) soB fr.
have h : (j * n + i < n * n)%N by apply: idx_lt.
move=> e' e0; have [N hN'] := hN (Ordinal h) e' e0; exists N => m hm.
by rewrite it mxE (ent_in _ h (ltn0Sn 0)) (_ : Ordinal (ltn0Sn 0) = 0); [apply: hN' | apply: val_inj].
Qed.

(** The trace distance of Hermitian matrices is at most half the sum of the
    moduli of the entries of the difference. *)
Lemma td_entries (eig : mat C -> result (seq C * mat C)) n (A B : 'M[C]_n) t : eigSpec eig ->
  adj A = A -> adj B = B -> traceDistance eig (Mat A) (Mat B) = Ok t -> t <= half C * \sum_i \sum_j `|(A - B) i j|.
Proof.
move=> hE hA hB; have hD : adj (A - B) = A - B by rewrite adjB hA hB.
have [P [d [u r e _]]] := herm_spectrum hD; rewrite (td_herm hE u r e) => -[<-].
rewrite ler_wpmul2l ?half_ge0 //; have [U uU hU] := tr_attained u r.
have s0 : 0 <= \sum_i `|d 0 i| by rewrite sumr_ge0.
rewrite -[X in X <= _]ger0_norm // -hU -e exchange_big /=.
apply: le_trans (ler_norm_sum _ _ _) _; apply: ler_sum => i _; rewrite mxE.
apply: le_trans (ler_norm_sum _ _ _) _; apply: ler_sum => j _; rewrite normrM.
by rewrite -[X in _ <= X]mul1r ler_wpmul2r // unitary_ent.
Qed.
Lemma null_sum (I : finType) (f : I -> nat -> C) : (forall i, nullC (f i)) -> nullC (fun m => \sum_i `|f i m|).
Proof.
move=> hf e e0.
have k0 : 0 < (#|I|.+1)%:R :> C by rewrite ltr0n.
have d0 : 0 < e / (#|I|.+1)%:R by rewrite divr_gt0.
have [N hN] : exists N, forall i m, (N <= m)%N -> `|f i m| < e / (#|I|.+1)%:R.
  have [N hN] : exists N, forall i, i \in enum I -> forall m, (N <= m)%N -> `|f i m| < e / (#|I|.+1)%:R.
    elim: (enum I) => [|a s [N IH]]; first by exists 0%N.
    have [N' h'] := hf a _ d0; exists (maxn N N') => i; rewrite in_cons => /orP[/eqP->|hi] m hm.
      by apply: h'; apply: leq_trans hm; apply: leq_maxr.
    by apply: IH => //; apply: leq_trans hm; apply: leq_maxl.
  by exists N => i; apply: hN; rewrite mem_enum.
exists N => m hm; rewrite ger0_norm; last by rewrite sumr_ge0.
apply: (@le_lt_trans _ _ (\sum_(i : I) e / (#|I|.+1)%:R)); first by apply: ler_sum => i _; apply/ltW/hN.
rewrite sumr_const -mulr_natr -mulrA -[X in _ < X]mulr1 ltr_pmul2l // mulrC ltr_pdivr_mulr // mul1r ltr_nat ltnS.
exact: max_card.
Qed.

(** ** Eigenvalues have modulus at most one *)
Lemma psd_ent n (P : 'M[C]_n) i j : positive n (Mat P) -> `|P i j| <= \tr P.
Proof.
move=> pP; have [sP p] := pP; have hP : psd n (ent (Mat P)) := p.
have cs := psd_cs (psd_herm hP) hP (ltn_ord i) (ltn_ord j); move: cs.
have e (a b : 'I_n) : ent (Mat P) a b = P a b by rewrite ent_in; congr (P _ _); apply: val_inj.
have d0 a : 0 <= P a a by rewrite -e; apply: psd_diag.
have dt a : P a a <= \tr P by rewrite /mxtrace (bigD1 a) //= ler_addl sumr_ge0.
rewrite !e => cs; rewrite -(@ler_pexpn2r _ 2) ?nnegrE ?tr_psd //.
by apply: le_trans cs _; rewrite expr2 ler_pmul.
Qed.
Section Bound.
Variable n : nat.
Variable Phi : 'M[C]_n -> 'M[C]_n.
Hypothesis PhiD : forall X Y, Phi (X + Y) = Phi X + Phi Y.
Hypothesis PhiZ : forall a X, Phi (a *: X) = a *: Phi X.
Hypothesis PhiP : forall X, positive n (Mat X) -> positive n (Mat (Phi X)).
Hypothesis PhiT : forall X, positive n (Mat X) -> \tr (Phi X) = \tr X.
Lemma iterD m X Y : iter m Phi (X + Y) = iter m Phi X + iter m Phi Y.
Proof. by elim: m => //= m ->. Qed.
Lemma iterZ m a X : iter m Phi (a *: X) = a *: iter m Phi X.
Proof. by elim: m => //= m ->. Qed.
Definition bounded X := exists K, forall m i j, `|iter m Phi X i j| <= K.
Lemma bounded_pos X : positive n (Mat X) -> bounded X.
Proof.
move=> p; exists (\tr X) => m i j.
have [pm tm] : positive n (Mat (iter m Phi X)) /\ \tr (iter m Phi X) = \tr X.
  by elim: m => //= m [IH <-]; split; [apply: PhiP | apply: PhiT].
by rewrite -tm psd_ent.
Qed.
Lemma boundedD X Y : bounded X -> bounded Y -> bounded (X + Y).
Proof.
move=> [K h] [K' h']; exists (K + K') => m i j; rewrite iterD mxE.
by apply: le_trans (ler_norm_add _ _) _; apply: ler_add.
Qed.
Lemma boundedZ a X : bounded X -> bounded (a *: X).
Proof. by move=> [K h]; exists (`|a| * K) => m i j; rewrite iterZ mxE normrM ler_wpmul2l. Qed.
Lemma bounded_all X : bounded X.
Proof.
have hh Y : adj Y = Y -> bounded Y.
  move=> /hdec[Xp [Xm [E' [-> pp pm _ _]]]]; rewrite -scaleN1r.
  by apply: boundedD; last apply: boundedZ; apply: bounded_pos.
by rewrite [X]hreim; apply: boundedD; last apply: boundedZ; apply: hh; [apply: hre_adj | apply: him_adj].
Qed.
Lemma Phi_eig X l : powNull -> X != 0 -> Phi X = l *: X -> `|l| <= 1.
Proof.
move=> hp nz e; have [K hK] := bounded_all X.
have it m : iter m Phi X = l ^+ m *: X.
  by elim: m => [|m IH] /=; rewrite ?expr0 ?scale1r // IH PhiZ e scalerA -exprSr.
have [i [j nij]] : exists i j, X i j != 0.
  have /existsP[i /existsP[j h]] : [exists i, exists j, X i j != 0]; last by exists i, j.
  apply: contraNT nz; rewrite negb_exists => /forallP h; apply/eqP/matrixP => i j; rewrite mxE; apply/eqP.
  by have := h i; rewrite negb_exists => /forallP/(_ j); rewrite negbK.
rewrite real_leNgt ?normr_real ?real1 //; apply/negP => l1.
have l0 : 0 < `|l| by apply: lt_trans l1; apply: ltr01.
have li : `|l^-1| < 1 by rewrite normfV invf_lt1.
have K1 : 0 < 1 + `|K| by rewrite ltr_paddr // ltr01.
have x0 : 0 < `|X i j| by rewrite normr_gt0.
have [N hN] := hp _ li _ (divr_gt0 x0 K1).
have := hN N (leqnn N); rewrite normrX normfV exprVn.
have := hK N i j; rewrite it mxE normrM normrX => hb.
have lN : 0 < `|l| ^+ N by rewrite exprn_gt0.
rewrite ltr_pdivl_mulr // mulrC ltr_pdivr_mulr // [X in _ < X]mulrC => h.
have : 1 + `|K| < K by apply: lt_le_trans hb.
have K0 : K \is Num.real by apply: ger0_real; apply: le_trans hb; rewrite mulr_ge0 // exprn_ge0.
by move=> h2; have := lt_le_trans h2 (real_ler_norm K0); rewrite gtr_addr ltr10.
Qed.
End Bound.
End Steady.

(** ** A qubit that decays by sigma_- at rate one *)
Section Decay.
Variable C : numClosedFieldType.
Definition decayS : 'M[C]_(2 * 2) := 1%:M - delta_mx (inord 3) (inord 0).
Lemma decay_lind (X : mat C) i j : (i < 2)%N -> (j < 2)%N -> lindblad 2 (zerom C 2 2) (zip [:: m2 0 0 1 0] [:: 1]) X i j =
  match i, j with
  | 0%N, 0%N => - ent X 0 0
  | 1%N, 1%N => ent X 0 0
  | _, _ => - (1 / 2%:R) * ent X i j
  end.
Proof.
have [e1 e2 e3 e4] := ent_m2 (0 : C) 0 1 0.
have h2 : 1 / 2%:R * 2%:R = 1 :> C by rewrite mul1r mulVf // pnatr_eq0.
rewrite /lindblad big_seq1 /= mul1r => hi hj.
have -> : hamiltonianPart 2 (zerom C 2 2) X i j = 0.
  by rewrite /hamiltonianPart /prod2 !big1 ?subrr ?mulr0 // => k _; rewrite ent_mk ?mul0r ?mulr0.
rewrite add0r /dissipation !big_ord_recl !big_ord0.
case: i hi => [|[|//]] _; case: j hj => [|[|//]] _ /=; rewrite -?[bump _ _]/1%N ?(e1, e2, e3, e4) ?conjC0 ?conjC1 ?(mul0r, mulr0, mul1r, mulr1, addr0, add0r, subr0, sub0r) //.
- by rewrite -mulr2n -[ent X 0 0 *+ 2]mulr_natl mulrA mulVf ?mul1r // pnatr_eq0.
- by rewrite mulNr.
- by rewrite mulNr.
Qed.

Lemma decay_unit : decayS \in unitmx.
Proof.
have h : decayS *m (1%:M + delta_mx (inord 3) (inord 0)) = 1%:M.
  rewrite /decayS mulmxBl mul1mx mulmxDr mulmx1 mul_delta_mx_cond.
  have -> : (inord 0 == inord 3 :> 'I_(2 * 2)) = false by apply/eqP => /(congr1 val) /=; rewrite !inordK.
  by rewrite mulr0n addr0 addrK.
by case: (mulmx1_unit h).
Qed.

Definition decayD : 'rV[C]_(2 * 2) := \row_k [:: -1; - (1 / 2%:R); - (1 / 2%:R); 0]`_k.
Lemma decayS_ent (k : 'I_(2 * 2)) a b : (a < 2)%N -> (b < 2)%N ->
  ent (Mat (uv (col k decayS))) a b = (b * 2 + a == k)%N%:R - ((b * 2 + a == 3)%N && (k == 0 :> nat)%N)%:R.
Proof.
move=> ha hb; rewrite (ent_in _ ha hb) mxE (ent_in _ (idx_lt ha hb) (ltn0Sn 0)) !mxE.
by rewrite -!val_eqE /= !inordK // [(_ == 3)%N]eq_sym.
Qed.
Lemma decay_eig (DL : 'M[C]_(2 * 2)) :
  (forall (X : 'M[C]_2) (i j : 'I_2), so DL X i j = lindblad 2 (zerom C 2 2) (zip [:: m2 0 0 1 0] [:: 1]) (Mat X) i j) ->
  forall k, DL *m col k decayS = decayD 0 k *: col k decayS.
Proof.
move=> hL k; have e : so DL (uv (col k decayS)) = decayD 0 k *: uv (col k decayS).
  apply/matrixP => i j; rewrite hL decay_lind // [RHS]mxE [decayD 0 k]mxE.
  have -> : uv (col k decayS) i j = ent (Mat (uv (col k decayS))) i j.
    by rewrite ent_in; congr (uv _ _ _); apply: val_inj.
  rewrite !decayS_ent //.
  case: k => [[|[|[|[|//]]]]] hk; case: i => [[|[|//]]] hi; case: j => [[|[|//]]] hj;
    by rewrite /= ?(subr0, sub0r, mulr0, mulr1, mul0r, oppr0, mulrN, mulN1r, opprK, subrr).
by have := congr1 (@vc C 2) e; rewrite so_vc vcZ uvK.
Qed.
Lemma diag_cols N (G S : 'M[C]_N) (e : 'rV[C]_N) : (forall k, G *m col k S = e 0 k *: col k S) -> G *m S = S *m diag_mx e.
Proof.
move=> h; apply/matrixP => i k; have := congr1 (fun M : 'cV[C]_N => M i 0) (h k).
rewrite mul_mx_diag !mxE [RHS]mulrC => <-; by apply: eq_bigr => j _; rewrite !mxE.
Qed.
Lemma last_perm (vals s : seq C) : perm_eq vals (rcons s 1) -> (forall z, z \in s -> `|z| < 1) ->
  `|last 0 vals| = 1 -> forall i, (i < (size vals).-1)%N -> `|vals`_i| < 1.
Proof.
case/lastP: vals => [|v a] //; rewrite last_rcons size_rcons => p hs ha i hi /=.
have ea : a = 1.
  have : a \in rcons s 1 by rewrite -(perm_mem p) mem_rcons mem_head.
  by rewrite mem_rcons inE => /orP[/eqP //|/hs]; rewrite ha ltxx.
rewrite nth_rcons hi; apply: hs; move: p; rewrite ea -!cats1 perm_cat2r => /perm_mem <-.
by rewrite mem_nth.
Qed.
End Decay.
