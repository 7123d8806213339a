(** C70: the trace distance. *)
From mathcomp Require Import all_ssreflect all_algebra all_field.
From Verif Require Py PropsMeas.
From Verif Require Import MatModel MatLib MatSpec MatProofs StateModel StateSpec StateProofs EvolModel EvolProofs ExpmInst.
From Verif Require Import Spectral EigSpec EigModel SpecProofs EigInst DistProofs PropsState.
Set Implicit Arguments.
Unset Strict Implicit.
Unset Printing Implicit Defensive.
Import Order.TTheory GRing.Theory Num.Theory.
Local Open Scope ring_scope.

Section C70.
Variable C : numClosedFieldType.
Variable eig : mat C -> result (seq C * mat C).
Local Notation adj := (@adjmx C _ _).
Local Notation td := (traceDistance eig).

(** For square matrices of one size the trace distance is a nonnegative
    number, the same in both orders, and zero for equal matrices only. *)
Theorem C70_distance : eigSpec eig -> forall n (A B : mat C), square n A -> square n B ->
  exists t, [/\ td A B = Ok t, td B A = Ok t, 0 <= t & t = 0 <-> A = B].
Proof.
move=> h n A B /square_Mat[A' ->] /square_Mat[B' ->].
have [P [s [u s0 e]]] := traceNorm_spec (A' - B').
exists (half C * \sum_i s 0 i); split.
- exact: td_value e.
- by apply: td_value u s0 _; rewrite // -opprB -[A' - B']/(A' - B') [adj _](_ : _ = - adj (A' - B')) ?mulNmx ?mulmxN ?opprK //; apply/matrixP => i j; rewrite !mxE rmorphN.
- by rewrite mulr_ge0 ?half_ge0 // sumr_ge0.
split=> [/eqP|/(@Mat_inj _ _ _ _ _) eAB]; last first.
  have e0 : adj (A' - B') *m (A' - B') = 0 by rewrite eAB subrr mulmx0.
  suff -> : s = 0 by rewrite big1 ?mulr0 // => i _; rewrite mxE.
  have d0 : diag_mx (\row_i (s 0 i ^+ 2)) = 0.
    have := congr1 (fun M => P *m M *m adj P) e; rewrite e0 mulmx0 mul0mx.
    by rewrite !mulmxA u mul1mx -!mulmxA u mulmx1.
  apply/rowP => i; have := congr1 (fun M : 'M_n => M i i) d0; rewrite !mxE eqxx mulr1n => /eqP.
  by rewrite sqrf_eq0 => /eqP.
rewrite mulf_eq0 (gt_eqF (half_gt0 C)) /= psumr_eq0 // => /allP z.
have e0 : adj (A' - B') *m (A' - B') = 0.
  rewrite e; have -> : diag_mx (\row_i (s 0 i ^+ 2)) = 0.
    apply/matrixP => i j; rewrite !mxE (eqP (implyP (z i (mem_index_enum _)) isT)) expr0n mul0rn //.
  by rewrite mulmx0 mul0mx.
by have /eqP := gram_eq0 e0; rewrite subr_eq0 => /eqP ->.
Qed.

(** The triangle inequality for Hermitian matrices. *)
Theorem C70_triangle : eigSpec eig -> forall n (A B D : mat C) x y z,
  hermitian n A -> hermitian n B -> hermitian n D ->
  td A D = Ok x -> td A B = Ok y -> td B D = Ok z -> x <= y + z.
Proof.
move=> h n A B D x y z hA hB hD; have [[sA _] [sB _] [sD _]] := And3 hA hB hD.
case: (square_Mat sA) hA => A' -> /herm_adj hA; case: (square_Mat sB) hB => B' -> /herm_adj hB.
case: (square_Mat sD) hD => D' -> /herm_adj hD.
have [P [d [u r e _]]] := @herm_spectrum _ _ (A' - D') (etrans (adjB _ _) (congr2 _ hA (congr1 _ hD))).
have [P1 [d1 [u1 r1 e1 _]]] := @herm_spectrum _ _ (A' - B') (etrans (adjB _ _) (congr2 _ hA (congr1 _ hB))).
have [P2 [d2 [u2 r2 e2 _]]] := @herm_spectrum _ _ (B' - D') (etrans (adjB _ _) (congr2 _ hB (congr1 _ hD))).
rewrite (td_herm h u r e) (td_herm h u1 r1 e1) (td_herm h u2 r2 e2) => -[<-] [<-] [<-].
rewrite -mulrDr ler_pmul2l ?half_gt0 //.
have [U hU hT] := tr_attained u r.
have -> : \sum_i `|d 0 i| = `|\tr (U *m (A' - B')) + \tr (U *m (B' - D'))|.
  rewrite -mxtraceD -mulmxDr addrA subrK e hT ger0_norm // sumr_ge0 //.
by apply: le_trans (ler_norm_add _ _) _; rewrite e1 e2; apply: ler_add; apply: tr_le.
Qed.
(** An effect: [0 <= E <= 1]. *)
Definition effect (n : nat) (E : mat C) : Prop := positive n E /\ positive n (subm (idm C n) E).

Lemma effect_w n (E : 'M[C]_n) (P : 'M[C]_n) i : effect n (Mat E) -> unitarymx P ->
  0 <= (row i P *m E *m adj (row i P)) 0 0 <= 1.
Proof.
have subE (X Y : 'M[C]_1) : (X - Y) 0 0 = X 0 0 - Y 0 0 by rewrite !mxE.
move=> [p q] u; rewrite positive_row //=; move: q; rewrite idm_Mat sub_Mat => q.
have := positive_row (row i P) q; rewrite mulmxBr mulmx1 mulmxBl subE subr_ge0.
suff -> : (row i P *m adj (row i P)) 0 0 = 1 by [].
by rewrite -[LHS]/(sqn _) sqnE; under eq_bigr do rewrite mxE; apply: unitary_row.
Qed.

Lemma dens_diff n (A B : 'M[C]_n) : isDensity n (Mat A) -> isDensity n (Mat B) ->
  exists P (d : 'rV[C]_n), [/\ unitarymx P, forall i, d 0 i \is Num.real,
    A - B = adj P *m diag_mx d *m P & \sum_i d 0 i = 0].
Proof.
move=> [/herm_adj hA _] tA [/herm_adj hB _] tB.
have [P [d [u r e _]]] := @herm_spectrum _ _ (A - B) (etrans (adjB _ _) (congr2 _ hA (congr1 _ hB))).
exists P, d; split=> //; rewrite -tr_diag -(tr_sim (diag_mx d) u) -e linearB /=.
by rewrite -!tr_Mat tA tB subrr.
Qed.

(** The projector on the eigenvectors with nonnegative eigenvalues. *)
Definition posPart n (P : 'M[C]_n) (d : 'rV[C]_n) : 'M[C]_n :=
  adj P *m diag_mx (\row_i (0 <= d 0 i)%R%:R) *m P.
Lemma posPart_adj n (P : 'M[C]_n) d : adj (posPart P d) = posPart P d.
Proof.
rewrite adj_sim adj_diag; congr (_ *m diag_mx _ *m _); apply/rowP => i; rewrite !mxE.
by case: (_ <= _); rewrite ?conjC0 ?conjC1.
Qed.
Lemma posPart_sq n (P : 'M[C]_n) d : unitarymx P -> posPart P d *m posPart P d = posPart P d.
Proof.
move=> u; rewrite sim_mul // mulmx_diag; congr (_ *m diag_mx _ *m _); apply/rowP => i; rewrite !mxE.
by case: (_ <= _); rewrite ?mulr0 ?mulr1.
Qed.
Lemma posPart_compl n (P : 'M[C]_n) d : unitarymx P ->
  1%:M - posPart P d = adj P *m diag_mx (\row_i (~~ (0 <= d 0 i)%R)%:R) *m P.
Proof.
move=> u; have -> : 1%:M = adj P *m diag_mx (const_mx 1) *m P by rewrite diag_const_mx mulmx1 unitaryC.
rewrite -mulmxBl -mulmxBr -linearB /=; congr (_ *m diag_mx _ *m _); apply/rowP => i; rewrite !mxE.
by case: (_ <= _); rewrite ?subr0 ?subrr.
Qed.
Lemma posPart_effect n (P : 'M[C]_n) d : unitarymx P -> effect n (Mat (posPart P d)).
Proof.
move=> u; split; first by apply: eig_positive => i; rewrite mxE ler0n.
by rewrite idm_Mat sub_Mat posPart_compl //; apply: eig_positive => i; rewrite mxE ler0n.
Qed.
Lemma posPart_tr n (P : 'M[C]_n) (d : 'rV[C]_n) : unitarymx P -> (forall i, d 0 i \is Num.real) ->
  \sum_i d 0 i = 0 ->
  \tr (posPart P d *m (adj P *m diag_mx d *m P)) = half C * \sum_i `|d 0 i|.
Proof.
move=> u r z; rewrite sim_mul // tr_sim // mulmx_diag mxtrace_diag.
rewrite -[LHS]half2; congr (_ * _); rewrite mulr_sumr -[LHS]subr0 -[X in _ - X = _]z -sumrB.
apply: eq_bigr => i _; rewrite !mxE; case: (boolP (0 <= d 0 i)) (r i) => [h _|/negbTE h].
  by rewrite ger0_norm // mul1r mulr2n mulrDl !mul1r addrK.
by rewrite realE h /= => h'; rewrite mul0r mulr0 sub0r ler0_norm.
Qed.

(** The trace distance of two density matrices is the largest difference of
    the probabilities they give to any effect. *)
Theorem C70_measurement : eigSpec eig -> forall n (A B : mat C) t, isDensity n A -> isDensity n B ->
  td A B = Ok t ->
  (forall E, effect n E -> `|traceProd n E A - traceProd n E B| <= t) /\
  (exists E, effect n E /\ traceProd n E A - traceProd n E B = t).
Proof.
move=> h n A B t hA hB; have [[sA _] _ _] := hA; have [[sB _] _ _] := hB.
case: (square_Mat sA) hA => A' -> hA; case: (square_Mat sB) hB => B' -> hB.
have [P [d [u r e z]]] := dens_diff hA hB.
rewrite (td_herm h u r e) => -[<-]; split=> [E hE|].
  case: (hE) => -[sE _] _; case: (square_Mat sE) hE => E' -> hE.
  rewrite !traceProdE -linearB /= -mulmxBr e tr_diagonal.
  have -> : \sum_i (row i P *m E' *m adj (row i P)) 0 0 * d 0 i
    = \sum_i ((row i P *m E' *m adj (row i P)) 0 0 - half C) * d 0 i.
    rewrite -[LHS]subr0 -[X in _ - X = _](mulr0 (half C)) -[X in _ - _ * X = _]z mulr_sumr -sumrB.
    by apply: eq_bigr => i _; rewrite mulrBl.
  rewrite mulr_sumr; apply: le_trans (ler_norm_sum _ _ _) _; apply: ler_sum => i _.
  rewrite normrM ler_wpmul2r //; have /andP[w0 w1] := effect_w i hE u.
  have hh : 1 - half C = half C by apply/eqP; rewrite subr_eq -mulr2n -mulr_natl /half mulrC divfK ?pnatr_eq0.
  rewrite real_ler_norml ?rpredB ?ger0_real ?half_ge0 //.
  by rewrite ler_subl_addr ler_subr_addl addrN w0 /= -{1}hh subrK w1.
exists (Mat (posPart P d)); split; first exact: posPart_effect.
by rewrite !traceProdE -linearB /= -mulmxBr e posPart_tr.
Qed.

(** For density matrices it is at most one, and one exactly for orthogonal
    states. *)
Theorem C70_range : eigSpec eig -> forall n (A B : mat C) t, isDensity n A -> isDensity n B ->
  td A B = Ok t -> t <= 1 /\ (t = 1 <-> mmul A B = Ok (zerom C n n)).
Proof.
move=> h n A B t hA hB; have [[sA _] _ _] := hA; have [[sB _] _ _] := hB.
case: (square_Mat sA) hA => A' -> hA; case: (square_Mat sB) hB => B' -> hB.
have [P [d [u r e z]]] := dens_diff hA hB.
set E := posPart P d; have [pE pE'] := posPart_effect d u; rewrite -/E in pE pE'.
have aE : adj E = E := posPart_adj P d; have EE : E *m E = E := posPart_sq d u.
have tA : \tr A' = 1 by case: hA => _ _; rewrite tr_Mat.
have tB : \tr B' = 1 by case: hB => _ _; rewrite tr_Mat.
have a0 := tr_pos pE hA; have b0 := tr_pos pE hB.
have a1 : 0 <= 1 - \tr (E *m A').
  by move: pE'; rewrite idm_Mat sub_Mat => /tr_pos /(_ hA); rewrite mulmxBl mul1mx linearB /= tA.
have tE : \tr (E *m A') - \tr (E *m B') = half C * \sum_i `|d 0 i|.
  by rewrite -linearB /= -mulmxBr e posPart_tr.
rewrite (td_herm h u r e) mmul_Mat zerom_Mat => -[<-]; rewrite -tE; split.
  by rewrite ler_subl_addr; rewrite subr_ge0 in a1; apply: le_trans a1 _; rewrite ler_addl.
split=> [t1|/(@Ok_inj _ _ _) /(@Mat_inj _ _ _ _ _) AB].
  have sum0 : (1 - \tr (E *m A')) + \tr (E *m B') = 0.
    by rewrite -addrA -[X in _ + (_ + X)]opprK -opprD t1 subrr.
  have /andP[/eqP x0 /eqP y0] : (1 - \tr (E *m A') == 0) && (\tr (E *m B') == 0).
    by rewrite -paddr_eq0 // sum0.
  have B0 := proj_tr0 aE EE hB y0.
  have A0 : A' *m (1%:M - E) = 0.
    apply: proj_tr0 hA _.
    - by rewrite adjB adj1 aE.
    - by rewrite mulmxBl mul1mx mulmxBr mulmx1 EE subrr subr0.
    by rewrite mulmxBl mul1mx linearB /= tA.
  have {}A0 : A' = A' *m E.
    by move/eqP: A0; rewrite mulmxBr mulmx1 subr_eq0 => /eqP.
  have {}B0 : E *m B' = 0.
    case: hB => /herm_adj hB _ _.
    by have := congr1 (fun M => adj M) B0; rewrite adj_mul aE hB => ->; apply/matrixP => i j; rewrite !mxE conjC0.
  by rewrite A0 -mulmxA B0 mulmx0.
rewrite tE; case: hA => /herm_adj aA pA _; case: hB => /herm_adj aB pB _.
have BA : B' *m A' = 0.
  have := congr1 (fun M => adj M) AB; rewrite adj_mul aA aB => ->.
  by apply/matrixP => i j; rewrite !mxE conjC0.
have aS : adj (A' + B') = A' + B' by rewrite adjD aA aB.
have [Q [s [uQ _ eS _]]] := herm_spectrum aS.
have pS : positive n (Mat (A' + B')).
  apply: positiveI => v; rewrite mulmxDr mulmxDl.
  have addE (X Y : 'M[C]_1) : (X + Y) 0 0 = X 0 0 + Y 0 0 by rewrite !mxE.
  by rewrite addE addr_ge0 // positive_row.
have s0 := positive_eig pS uQ eS.
have eq : adj (A' - B') *m (A' - B') = adj Q *m diag_mx (\row_i (s 0 i ^+ 2)) *m Q.
  have -> : diag_mx (\row_i (s 0 i ^+ 2)) = diag_mx s *m diag_mx s.
    by rewrite mulmx_diag; congr diag_mx; apply/rowP => i; rewrite !mxE.
  rewrite -sim_mul // -eS adjB aA aB mulmxBl !mulmxBr mulmxDl !mulmxDr AB BA.
  by rewrite !subr0 !sub0r opprK !addr0 !add0r.
have := td_value h uQ s0 eq; rewrite (td_herm h u r e) => -[->].
by rewrite -tr_diag -(tr_sim (diag_mx s) uQ) -eS linearD /= tA tB -mulr2n -mulr_natl half2.
Qed.

(** It does not change when both matrices are transformed by one unitary. *)
Theorem C70_unitary : eigSpec eig -> forall n (U A B A' B' : mat C),
  unitary n U -> square n A -> square n B -> conjBy U A A' -> conjBy U B B' ->
  td A' B' = td A B.
Proof.
move=> h n U A B A' B' /unitaryE[sU hU _] /square_Mat[A0 ->] /square_Mat[B0 ->].
case: (square_Mat sU) hU => U0 ->; rewrite hc_Mat (mulm_Mat (adj U0) U0) idm_Mat => /(@Mat_inj _ _ _ _ _) hU.
have uU : unitarymx U0 by apply: mulmx1C.
move=> [X []]; rewrite hc_Mat !mmul_Mat => /(@Ok_inj _ _ _) <-; rewrite mmul_Mat => /(@Ok_inj _ _ _) <-.
move=> [Y []]; rewrite hc_Mat !mmul_Mat => /(@Ok_inj _ _ _) <-; rewrite mmul_Mat => /(@Ok_inj _ _ _) <-.
have [P [s [u s0 e]]] := traceNorm_spec (A0 - B0).
rewrite (td_value h u s0 e); apply: (td_value h (P := P *m adj U0) _ s0).
  by apply: unitary_mul => //; apply: unitary_adj.
have e2 : adj (adj U0) = U0 by rewrite adjK.
rewrite -mulmxBl -mulmxBr -{1 3}e2 adj_sim sim_mul; last exact: unitary_adj.
by rewrite e adj_mul !adjK !mulmxA.
Qed.

Lemma diff_sq n (K L : 'M[C]_n) : K *m K = K -> L *m L = L ->
  (K - L) *m (K - L) = K + L - K *m L - L *m K.
Proof.
by move=> KK LL; rewrite mulmxBl !mulmxBr KK LL opprB addrA [K - _ + L]addrAC.
Qed.
Lemma diff_cube n (K L : 'M[C]_n) a : K *m K = K -> L *m L = L -> K *m L *m K = a *: K ->
  L *m K *m L = a *: L -> (K - L) *m (K - L) *m (K - L) = (1 - a) *: (K - L).
Proof.
move=> KK LL KLK LKL; rewrite diff_sq // !mulmxBr !mulmxBl !mulmxDl KK LL KLK LKL.
rewrite -[K *m L *m L]mulmxA LL -[L *m K *m K]mulmxA KK scalerBl scale1r scalerBr.
move: (K *m L) (L *m K) (a *: K) (a *: L) => x y z w.
rewrite [K + y - z - y]addrAC addrK [x + L - x]addrAC subrr add0r.
by rewrite !opprB addrACA [RHS]addrACA [- z - L]addrC.
Qed.

(** For pure states it is [sqrt(1 - |<u|v>|^2)]. *)
Theorem C70_pure : eigSpec eig -> forall n (u v : mat C) A B, normalised n u -> normalised n v ->
  densityMatrix u = Ok A -> densityMatrix v = Ok B ->
  td A B = Ok (sqrtC (1 - `|overlap n u v| ^+ 2)).
Proof.
move=> h n u v A B [ku nu] [kv nv]; rewrite (densityE ku) (densityE kv) => -[<-] [<-].
case: (ket_Mat ku) nu => k [-> ->]; case: (ket_Mat kv) nv => l [-> ->] {u v ku kv A B}.
rewrite !norm2E overlapE => n2 n1; set c := (adj k *m l) 0 0.
have kk : adj k *m k = 1%:M by apply/matrixP => i j; rewrite !ord1 n1 mxE eqxx.
have ll : adj l *m l = 1%:M by apply/matrixP => i j; rewrite !ord1 n2 mxE eqxx.
have kl : adj k *m l = c%:M by apply/matrixP => i j; rewrite !ord1 [RHS]mxE eqxx.
have lk : adj l *m k = (c^*)%:M by rewrite -[k]adjK -adj_mul kl adj_scalar.
set D := k *m adj k - l *m adj l; set q := 1 - `|c| ^+ 2.
have aD : adj D = D by rewrite adjB !adj_mul !adjK.
have KK : k *m adj k *m (k *m adj k) = k *m adj k by rewrite mulmxA -[k *m _ *m k]mulmxA kk mulmx1.
have LL : l *m adj l *m (l *m adj l) = l *m adj l by rewrite mulmxA -[l *m _ *m l]mulmxA ll mulmx1.
have KLK : k *m adj k *m (l *m adj l) *m (k *m adj k) = `|c| ^+ 2 *: (k *m adj k).
  rewrite !mulmxA -[k *m adj k *m l]mulmxA kl mul_mx_scalar -!scalemxAl -[k *m adj l *m k]mulmxA lk.
  by rewrite mul_mx_scalar -scalemxAl scalerA normCK.
have LKL : l *m adj l *m (k *m adj k) *m (l *m adj l) = `|c| ^+ 2 *: (l *m adj l).
  rewrite !mulmxA -[l *m adj l *m k]mulmxA lk mul_mx_scalar -!scalemxAl -[l *m adj k *m l]mulmxA kl.
  by rewrite mul_mx_scalar -scalemxAl scalerA normCKC.
have DDD : D *m D *m D = q *: D by apply: diff_cube.
have tK : \tr (k *m adj k) = 1 by rewrite mxtrace_mulC kk mxtrace1.
have tL : \tr (l *m adj l) = 1 by rewrite mxtrace_mulC ll mxtrace1.
have tKL : \tr (k *m adj k *m (l *m adj l)) = `|c| ^+ 2.
  rewrite !mulmxA -[k *m adj k *m l]mulmxA kl mul_mx_scalar -scalemxAl mxtraceZ mxtrace_mulC lk.
  by rewrite mxtrace_scalar mulr1n normCK.
have tD : \tr (D *m D) = 2%:R * q.
  rewrite diff_sq // !linearB linearD /= [\tr (l *m _ *m _)]mxtrace_mulC tKL tK tL.
  by rewrite /q mulr_natl mulr2n addrACA addrA.
have [P [d [uP r e _]]] := herm_spectrum aD.
have d3 i : d 0 i ^+ 3 = q * d 0 i.
  move: DDD; rewrite e !sim_mul // !mulmx_diag scalemxAl scalemxAr => /(sim_inj uP).
  by move/matrixP => /(_ i i); rewrite !mxE eqxx !mulr1n -expr2 -exprSr.
have t2 : \sum_i d 0 i ^+ 2 = 2%:R * q.
  rewrite -tD e sim_mul // tr_sim // mulmx_diag mxtrace_diag.
  by apply: eq_bigr => i _; rewrite !mxE.
have q0 : 0 <= q.
  rewrite -(pmulr_rge0 _ (ltr0Sn _ 1)) -t2 sumr_ge0 // => i _.
  by rewrite -real_normK // exprn_ge0.
rewrite (td_herm h uP r e); congr Ok.
have dn i : `|d 0 i| = d 0 i ^+ 2 / sqrtC q.
  have [d0|nz] := eqVneq (d 0 i) 0; first by rewrite d0 normr0 expr0n mul0r.
  have d2 : d 0 i ^+ 2 = q by apply: (mulIf nz); rewrite -exprSr d3.
  have nq : sqrtC q != 0 by rewrite sqrtC_eq0 -d2 expf_eq0.
  rewrite d2 -{1}(sqrtCK q) expr2 mulfK //; apply/eqP.
  by rewrite -(@eqr_expn2 _ 2) ?sqrtC_ge0 // real_normK // d2 sqrtCK.
under eq_bigr do rewrite dn; rewrite -mulr_suml t2 -mulrA half2.
have [->|nq] := eqVneq q 0; first by rewrite mul0r sqrtC0.
by rewrite -{1}(sqrtCK q) expr2 mulfK // sqrtC_eq0.
Qed.
(** Matrices of different shapes raise ValueError. *)
Theorem C70_errors (A B : mat C) : (rows A != rows B) || (cols A != cols B) ->
  td A B = Err Py.ValueError.
Proof. by rewrite /traceDistance /msub -negb_and => /negbTE ->. Qed.
End C70.
Print Assumptions C70_distance.
Print Assumptions C70_triangle.
Print Assumptions C70_measurement.
Print Assumptions C70_range.
Print Assumptions C70_unitary.
Print Assumptions C70_pure.
Print Assumptions C70_errors.

Notation AC := [numClosedFieldType of algC].

(** The assumption on the solver can be met, and the two basis states of a
    two-level system are at distance one. *)
Example C70_ex : exists eig : mat AC -> result (seq AC * mat AC), eigSpec eig /\
  exists A B, [/\ densityMatrix (mk 2 1 (fun i _ => delta AC i 0)) = Ok A,
    densityMatrix (mk 2 1 (fun i _ => delta AC i 1)) = Ok B,
    isDensity 2 A, isDensity 2 B & traceDistance eig A B = Ok 1].
Proof.
exists (@eigI AC); split; first exact: eigI_ok.
pose u k : mat AC := mk 2 1 (fun i _ => delta AC i k).
have nu k : (k < 2)%N -> normalised 2 (u k).
  move=> hk; split=> //; rewrite /norm2 !big_ord_recl big_ord0 /amp !ent_mk // /delta.
  by case: k hk => [|[|k]] //= _; rewrite /bump /= !normr_nat !expr2 ?mulr0 ?mulr1 ?addr0 ?add0r.
have [ka _] := nu 0%N isT; have [kb _] := nu 1%N isT.
exists (proj 2 (u 0%N)), (proj 2 (u 1%N)); split.
- exact: densityE.
- exact: densityE.
- exact: PropsMeas.proj_density (nu _ _).
- exact: PropsMeas.proj_density (nu _ _).
rewrite (C70_pure (@eigI_ok _) (nu 0%N isT) (nu 1%N isT) (densityE ka) (densityE kb)).
rewrite /overlap !big_ord_recl big_ord0 /amp !ent_mk // /delta /= /bump /= !mulr0 conjC0 mul0r !addr0.
by rewrite normr0 expr0n subr0 sqrtC1.
Qed.
