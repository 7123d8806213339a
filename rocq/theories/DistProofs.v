(** Proofs about the trace distance (C70). *)
From mathcomp Require Import all_ssreflect all_algebra.
From Verif Require Py.
From Verif Require Import MatModel MatLib MatSpec MatProofs StateModel StateSpec StateProofs EvolModel ExpmInst Spectral.
From Verif Require Import EigSpec EigModel SpecProofs.
Set Implicit Arguments.
Unset Strict Implicit.
Unset Printing Implicit Defensive.
Import Order.TTheory GRing.Theory Num.Theory.
Local Open Scope ring_scope.

Section Dist.
Variable C : numClosedFieldType.
Local Notation adj := (@adjmx C _ _).

Lemma sub_Mat r c (A B : 'M[C]_(r, c)) : subm (Mat A) (Mat B) = Mat (A - B).
Proof. by apply: mat_ext => // i j hi hj; rewrite ent_mk // !ent_in !mxE. Qed.
Lemma msub_Mat r c (A B : 'M[C]_(r, c)) : msub (Mat A) (Mat B) = Ok (Mat (A - B)).
Proof. by rewrite /msub /= !eqxx sub_Mat. Qed.
Lemma mmul_Mat r k c (A : 'M[C]_(r, k)) (B : 'M[C]_(k, c)) : mmul (Mat A) (Mat B) = Ok (Mat (A *m B)).
Proof. by rewrite /mmul /= eqxx mulm_Mat. Qed.

Definition half : C := 1 / 2%:R.
Lemma half_gt0 : 0 < half. Proof. by rewrite divr_gt0 ?ltr01 // ltr0n. Qed.
Lemma half_ge0 : 0 <= half. Proof. exact: ltW half_gt0. Qed.
Lemma half2 x : half * (2%:R * x) = x.
Proof. by rewrite mulrA /half mul1r mulVf ?mul1r // pnatr_eq0. Qed.

(** The sum of the square roots of the eigenvalues of [D^+ D]. *)
Lemma traceNorm_spec n (D : 'M[C]_n) : exists P (s : 'rV[C]_n),
  [/\ unitarymx P, forall i, 0 <= s 0 i & adj D *m D = adj P *m diag_mx (\row_i (s 0 i ^+ 2)) *m P].
Proof.
have h : adj (adj D *m D) = adj D *m D by rewrite adj_mul adjK.
have [P [d [u r e _]]] := herm_spectrum h.
have p : positive n (Mat (adj D *m D)).
  apply: positiveI => v; have -> : v *m (adj D *m D) *m adj v = (v *m adj D) *m adj (v *m adj D).
    by rewrite adj_mul adjK !mulmxA.
  exact: sqn_ge0.
have d0 := positive_eig p u e.
exists P, (\row_i sqrtC (d 0 i)); split=> // [i|]; first by rewrite mxE sqrtC_ge0.
by rewrite e; congr (_ *m diag_mx _ *m _); apply/rowP => i; rewrite !mxE sqrtCK.
Qed.

Lemma gram_eq0 m n (D : 'M[C]_(m, n)) : adj D *m D = 0 -> D = 0.
Proof.
move=> e0; apply/matrixP => i j; rewrite [RHS]mxE; apply/eqP; rewrite -normr_eq0 -sqrf_eq0.
have : \sum_k `|D k j| ^+ 2 == 0.
  have := congr1 (fun M : 'M_n => M j j) e0; rewrite mxE [in X in _ = X]mxE => h0; apply/eqP.
  by rewrite -[RHS]h0; apply: eq_bigr => k _; rewrite !mxE normCKC.
rewrite psumr_eq0 => [/allP /(_ i (mem_index_enum _)) //|k _]; exact: exprn_ge0.
Qed.

Lemma gram_tr_eq0 m n (D : 'M[C]_(m, n)) : \tr (adj D *m D) = 0 -> D = 0.
Proof.
move=> t0; have t1 : \sum_j \sum_k `|D k j| ^+ 2 = 0.
  rewrite -[RHS]t0; apply: eq_bigr => j _; rewrite mxE; apply: eq_bigr => k _.
  by rewrite !mxE normCKC.
have p2 (k : 'I_m) (j : 'I_n) : 0 <= `|D k j| ^+ 2 by rewrite exprn_ge0.
apply/matrixP => i j; rewrite [RHS]mxE; apply/eqP; rewrite -normr_eq0 -sqrf_eq0.
move/eqP: t1; rewrite psumr_eq0 => [/allP /(_ j (mem_index_enum _)) /=|k _]; last exact: sumr_ge0.
by rewrite psumr_eq0 // => /allP /(_ i (mem_index_enum _)).
Qed.

Lemma traceProdE n (A B : 'M[C]_n) : traceProd n (Mat A) (Mat B) = \tr (A *m B).
Proof.
apply: eq_bigr => i _; rewrite mxE; apply: eq_bigr => j _; rewrite !ent_in.
congr (A _ _ * B _ _); exact: val_inj.
Qed.

(** [Tr(E D)] in the eigenbasis of [D]. *)
Lemma tr_diagonal n (E P : 'M[C]_n) (d : 'rV[C]_n) :
  \tr (E *m (adj P *m diag_mx d *m P)) = \sum_i (row i P *m E *m adj (row i P)) 0 0 * d 0 i.
Proof.
have -> : \tr (E *m (adj P *m diag_mx d *m P)) = \tr ((P *m E *m adj P) *m diag_mx d).
  by rewrite !mulmxA mxtrace_mulC !mulmxA.
rewrite mul_mx_diag; apply: eq_bigr => i _; rewrite mxE; congr (_ * _).
rewrite -row_mul [LHS]mxE [RHS]mxE; apply: eq_bigr => j _.
by rewrite [row _ _ _ _]mxE [adj P _ _]mxE [adj (row _ _) _ _]mxE !mxE.
Qed.

Lemma tr_pos n (A B : 'M[C]_n) : positive n (Mat A) -> isDensity n (Mat B) -> 0 <= \tr (A *m B).
Proof.
move=> pA /dens_spectrum[P [d [_ -> d0 _ _]]]; rewrite tr_diagonal sumr_ge0 // => i _.
by rewrite mulr_ge0 // positive_row.
Qed.

(** A projector that never finds the state annihilates it. *)
Lemma proj_tr0 n (E B : 'M[C]_n) : adj E = E -> E *m E = E -> isDensity n (Mat B) ->
  \tr (E *m B) = 0 -> B *m E = 0.
Proof.
move=> hE EE /dens_spectrum[P [d [_ -> d0 _ _]]] t0.
pose S := diag_mx (\row_i sqrtC (d 0 i)).
have SS : S *m S = diag_mx d.
  by rewrite mulmx_diag; congr diag_mx; apply/rowP => i; rewrite !mxE -expr2 sqrtCK.
have aS : adj S = S.
  rewrite adj_diag; congr diag_mx; apply/rowP => i; rewrite !mxE.
  by apply/CrealP; rewrite ger0_real // sqrtC_ge0.
have F0 : S *m P *m E = 0.
  apply: gram_tr_eq0; rewrite !adj_mul hE aS -[RHS]t0 -SS.
  by rewrite !mulmxA mxtrace_mulC !mulmxA EE.
by rewrite -SS -!mulmxA [S *m (P *m E)]mulmxA F0 !mulmx0.
Qed.

Lemma ket_Mat n (v : mat C) : isKet n v -> exists k : 'cV[C]_n, v = Mat k /\ proj n v = Mat (k *m adj k).
Proof.
move=> /(@hasShape_Mat _ _ _ _)[k ->]; exists k; split=> //.
apply: mat_ext => // i j hi hj; rewrite ent_mk // ent_in mxE big_ord1 !mxE /amp !ent_in.
congr (k _ _ * (k _ _)^*); exact: val_inj.
Qed.
Lemma overlapE n (k l : 'cV[C]_n) : overlap n (Mat k) (Mat l) = (adj k *m l) 0 0.
Proof.
rewrite mxE; apply: eq_bigr => i _; rewrite !mxE /amp !ent_in.
congr ((k _ _)^* * l _ _); exact: val_inj.
Qed.
Lemma norm2E n (k : 'cV[C]_n) : norm2 n (Mat k) = (adj k *m k) 0 0.
Proof.
rewrite mxE; apply: eq_bigr => i _; rewrite !mxE /amp !ent_in normCKC.
congr ((k _ _)^* * k _ _); exact: val_inj.
Qed.

Variable eig : mat C -> result (seq C * mat C).
Hypothesis eigOk : eigSpec eig.

Lemma linaEigE n (M : 'M[C]_n) : exists vals V, linaEig eig (Mat M) = Ok (vals, V) /\ isSpectrum n (Mat M) vals.
Proof.
have [|vals [V [e s _ _]]] := @eigOk n (Mat M); first by [].
by exists vals, V; rewrite /linaEig /= eqxx.
Qed.

Lemma td_value n (A B P : 'M[C]_n) (s : 'rV[C]_n) : unitarymx P -> (forall i, 0 <= s 0 i) ->
  adj (A - B) *m (A - B) = adj P *m diag_mx (\row_i (s 0 i ^+ 2)) *m P ->
  traceDistance eig (Mat A) (Mat B) = Ok (half * \sum_i s 0 i).
Proof.
move=> u s0 e; rewrite /traceDistance msub_Mat /= hc_Mat mmul_Mat /= e.
have [vals [V [-> hv]]] /= := linaEigE (adj P *m diag_mx (\row_i (s 0 i ^+ 2)) *m P).
have /(perm_big _) -> := spectrum_perm hv (spectrum_diag (\row_i (s 0 i ^+ 2)) u).
rewrite big_dseq; have -> : \sum_i sqrtC `|(\row_i (s 0 i ^+ 2)) 0 i| = \sum_i s 0 i.
  by apply: eq_bigr => i _; rewrite mxE ger0_norm ?exprn_ge0 // sqrCK.
by congr Ok; apply/Creal_ReP; rewrite ger0_real // mulr_ge0 ?half_ge0 // sumr_ge0.
Qed.

Lemma td_herm n (A B P : 'M[C]_n) (d : 'rV[C]_n) : unitarymx P -> (forall i, d 0 i \is Num.real) ->
  A - B = adj P *m diag_mx d *m P ->
  traceDistance eig (Mat A) (Mat B) = Ok (half * \sum_i `|d 0 i|).
Proof.
move=> u r e; rewrite (@td_value _ _ _ P (\row_i `|d 0 i|)) //; last 2 first.
- by move=> i; rewrite mxE.
- rewrite e adj_sim sim_mul // adj_diag mulmx_diag; congr (_ *m diag_mx _ *m _).
  by apply/rowP => i; rewrite !mxE (CrealP (r i)) -expr2 real_normK.
by congr (Ok (_ * _)); apply: eq_bigr => i _; rewrite mxE.
Qed.

(** [|Tr(U D)|] is at most the trace norm of the Hermitian matrix [D]. *)
Lemma tr_le n (U P : 'M[C]_n) (d : 'rV[C]_n) : unitarymx U -> unitarymx P ->
  `|\tr (U *m (adj P *m diag_mx d *m P))| <= \sum_i `|d 0 i|.
Proof.
move=> hU hP; have -> : \tr (U *m (adj P *m diag_mx d *m P)) = \tr ((P *m U *m adj P) *m diag_mx d).
  by rewrite !mulmxA mxtrace_mulC !mulmxA.
have hW : unitarymx (P *m U *m adj P) by do ?apply: unitary_mul => //; apply: unitary_adj.
rewrite mul_mx_diag /mxtrace; apply: le_trans (ler_norm_sum _ _ _) _; apply: ler_sum => i _.
by rewrite mxE normrM ler_pimull // unitary_ent.
Qed.

(** The sign of a Hermitian matrix attains the bound. *)
Lemma tr_attained n (P : 'M[C]_n) (d : 'rV[C]_n) : unitarymx P -> (forall i, d 0 i \is Num.real) ->
  exists2 U : 'M[C]_n, unitarymx U & \tr (U *m (adj P *m diag_mx d *m P)) = \sum_i `|d 0 i|.
Proof.
move=> hP r; pose sg : 'rV[C]_n := \row_i (if 0 <= d 0 i then 1 else -1).
exists (adj P *m diag_mx sg *m P).
  rewrite /unitarymx adj_sim sim_mul // adj_diag mulmx_diag.
  have -> : \row_i (sg 0 i * (\row_i (sg 0 i)^*) 0 i) = const_mx 1.
    by apply/rowP => i; rewrite !mxE; case: ifP; rewrite ?rmorphN conjC1 ?mulrNN mulr1.
  by rewrite diag_const_mx mulmx1 unitaryC.
rewrite sim_mul // tr_sim // mulmx_diag mxtrace_diag; apply: eq_bigr => i _; rewrite !mxE.
case: ifP => [h|h]; first by rewrite mul1r ger0_norm.
by rewrite mulN1r ler0_norm //; have := r i; rewrite realE h.
Qed.
End Dist.
