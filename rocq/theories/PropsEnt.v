(** C73: von Neumann entropy. *)
From Coq Require Import Reals.
From mathcomp Require Import all_ssreflect all_algebra.
From mathcomp Require Import complex.
From Verif Require Py PropsMeas PropsTrace PropsState LindProofs.
From Verif Require Import RC ExpmSpec EntReal.
From Verif Require Import MatModel MatLib MatSpec MatProofs StateModel StateSpec StateProofs EvolModel EvolProofs ExpmInst.
From Verif Require Import Spectral EigSpec EigModel SpecProofs EigInst DistProofs.
From Verif Require Import TraceModel TraceSpec TraceProofs SchmidtProofs.
Set Implicit Arguments.
Unset Strict Implicit.
Unset Printing Implicit Defensive.
Import Order.TTheory GRing.Theory Num.Theory.
Local Open Scope ring_scope.

Local Notation C := RC.
Local Notation adj := (@adjmx C _ _).

(** What is assumed of the logarithms: the natural and the binary logarithm of
    a positive number. *)
Definition isLog (log : C -> C) : Prop := forall x : R, 0 < x -> log (ofR x) = ofR (ln x).
Definition isLog2 (log2 : C -> C) : Prop := forall x : R, 0 < x -> log2 (ofR x) = ofR (ln x / ln 2%:R).

Lemma ge0_ofR (z : C) : 0 <= z -> exists2 r : R, 0 <= r & z = ofR r.
Proof. by case: z => a b; rewrite lecE /= => /andP[/eqP -> h]; exists a. Qed.
Lemma ofR0 : ofR 0 = 0. Proof. by []. Qed.
Lemma ofR_inj (x y : R) : ofR x = ofR y -> x = y.
Proof. by case. Qed.
Lemma ofR_sum n (f : 'I_n -> R) : ofR (\sum_i f i) = \sum_i ofR (f i).
Proof. by rewrite /ofR rmorph_sum. Qed.
Lemma ofR_Re (x : R) : 'Re (ofR x) = ofR x.
Proof. by apply/Creal_ReP; apply/CrealP; rewrite /ofR /=; apply/eqP; rewrite eq_complex /= oppr0 !eqxx. Qed.

Lemma zip_map_sum (s : seq C) (f : C -> C) : \sum_(p <- zip s [seq f v | v <- s]) p.1 * p.2 = \sum_(x <- s) x * f x.
Proof. by elim: s => [|x s IH] /=; rewrite ?big_nil // !big_cons IH. Qed.

Section C73.
Variable eig : mat C -> result (seq C * mat C).
Variables log log2 : C -> C.
Local Notation S := (entropy eig log log2).

Definition hsum n (r : 'I_n -> R) : R := - \sum_i xlnx (r i).

Lemma ent_sum (s : seq C) (f : C -> C) n (r : 'I_n -> R) (c : R) :
  perm_eq s (dseq (\row_i ofR (r i))) -> (forall i, 0 <= r i) ->
  (forall x : R, 0 < x -> f (ofR x) = ofR (ln x / c)) ->
  'Re (- \sum_(p <- zip [seq v <- s | v != 0] [seq f v | v <- [seq v <- s | v != 0]]) p.1 * p.2)
  = ofR (hsum r / c).
Proof.
move=> p r0 hf; rewrite zip_map_sum big_filter (perm_big _ p) /= big_mkcond big_dseq.
have -> : \sum_i (if (\row_i ofR (r i)) 0 i != 0 then (\row_i ofR (r i)) 0 i * f ((\row_i ofR (r i)) 0 i) else 0)
  = ofR (\sum_i xlnx (r i) / c).
  rewrite ofR_sum; apply: eq_bigr => i _; rewrite !mxE.
  have [e|nz] := eqVneq (r i) 0; first by rewrite e (xlnx0 : xlnx 0 = 0) [0 / c]mul0r ofR0 eqxx.
  have -> : ofR (r i) != 0 by apply: contra nz => /eqP/ofR_inj ->.
  rewrite hf; last by rewrite lt_neqAle eq_sym nz r0.
  by rewrite /ofR -rmorphM mulrA; congr (_%:C)%C; rewrite (xlnx_nz _ (elimN eqP nz)).
by rewrite /ofR -rmorphN ofR_Re -mulr_suml -mulNr.
Qed.

Hypothesis eigOk : eigSpec eig.
Hypothesis logOk : isLog log.
Hypothesis log2Ok : isLog2 log2.

Lemma entropyE n (A P : 'M[C]_n) (r : 'I_n -> R) b : unitarymx P -> (forall i, 0 <= r i) ->
  A = adj P *m diag_mx (\row_i ofR (r i)) *m P ->
  S (Mat A) b = Ok (ofR (if b then hsum r / ln 2%:R else hsum r)).
Proof.
move=> u r0 e; rewrite /entropy /= eqxx /=.
have [vals [V [-> hv]]] /= := linaEigE eigOk A.
have p : perm_eq vals (dseq (\row_i ofR (r i))).
  by apply: spectrum_perm hv _; rewrite e; apply: spectrum_diag.
case: b; first by rewrite (ent_sum p r0 log2Ok).
by rewrite (@ent_sum _ _ _ _ 1 p r0) ?divr1 // => x hx; rewrite logOk // divr1.
Qed.

Lemma dens_real n (A : 'M[C]_n) : isDensity n (Mat A) -> exists P (r : 'I_n -> R),
  [/\ unitarymx P, forall i, 0 <= r i, A = adj P *m diag_mx (\row_i ofR (r i)) *m P & \sum_i r i = 1].
Proof.
move=> /dens_spectrum[P [d [u e d0 d1 _]]]; exists P, (fun i => complex.Re (d 0 i)).
have er i : d 0 i = ofR (complex.Re (d 0 i)) by have [x _ ->] := ge0_ofR (d0 i).
split=> //.
- by move=> i; have := d0 i; rewrite er lecR.
- by rewrite e; congr (_ *m diag_mx _ *m _); apply/rowP => i; rewrite mxE -er.
by apply: ofR_inj; rewrite ofR_sum -[RHS]d1; apply: eq_bigr => i _; rewrite -er.
Qed.

(** If [rho = U diag(p) U^+] with a unitary [U] and nonnegative [p], the
    entropy is [- sum_i p_i ln p_i], where [0 ln 0 = 0], and in base 2 the same
    divided by [ln 2]. *)
Theorem C73_value n (U D rho : mat C) (p : nat -> R) :
  unitary n U -> diagonal n (fun i => ofR (p i)) D -> conjBy U D rho -> (forall i, (i < n)%N -> 0 <= p i) ->
  S rho false = Ok (ofR (- \sum_(i < n) xlnx (p i))) /\
  S rho true = Ok (ofR (- (\sum_(i < n) xlnx (p i)) / ln 2%:R)).
Proof.
move=> /unitaryE[sU hU _] [sD hD] [X [h1 h2]] p0.
case: (square_Mat sU) hU h1 h2 => U0 ->; case: (square_Mat sD) hD => D0 -> hD.
rewrite hc_Mat (mulm_Mat (adj U0) U0) idm_Mat mmul_Mat => /(@Mat_inj _ _ _ _ _) hU /(@Ok_inj _ _ _) <-.
rewrite mmul_Mat => /(@Ok_inj _ _ _) <-.
have e : U0 *m D0 *m adj U0 = adj (adj U0) *m diag_mx (\row_i ofR (p (i : 'I_n))) *m adj U0.
  rewrite adjK; congr (_ *m _ *m _); apply/matrixP => i j; rewrite !mxE.
  have oi (k : 'I_n) : Ordinal (ltn_ord k) = k by apply: val_inj.
  by have := hD i j (ltn_ord i) (ltn_ord j); rewrite ent_in /delta mulr_natl !oi => ->.
have u : unitarymx (adj U0) by rewrite /unitarymx adjK.
have r0 (i : 'I_n) : 0 <= p i by apply: p0.
by rewrite !(@entropyE n _ (adj U0) (fun i => p i) _ u r0 e).
Qed.

(** The entropy of a density matrix of size [n] lies between 0 and [ln n]; it is
    0 exactly for pure states ([rho^2 = rho]) and [ln n] exactly for the
    completely mixed state. *)
Theorem C73_range n (rho : mat C) : isDensity n rho -> exists s : R,
  [/\ S rho false = Ok (ofR s) /\ S rho true = Ok (ofR (s / ln 2%:R)), 0 <= s, s <= ln n%:R,
    s = 0 <-> mmul rho rho = Ok rho & s = ln n%:R <-> rho = scalem (1 / n%:R) (idm C n)].
Proof.
move=> hr; have [[sr _] _ _] := hr; case: (square_Mat sr) hr => A -> /dens_real[P [r [u r0 e r1]]].
exists (hsum r); rewrite !(entropyE _ u r0 e) mmul_Mat.
have rle i : r i <= 1.
  by rewrite -r1 (bigD1 i) //= ler_addl sumr_ge0.
have x0 i : 0 <= - xlnx (r i).
  by rewrite oppr_ge0; apply/RleP; apply: xlnx_le0; apply/RleP.
have hs : hsum r = \sum_i - xlnx (r i) by rewrite /hsum sumrN.
have n0 : (0 < n)%N.
  by case: n {sr A e hs x0 rle u P r0} r r1 => // r; rewrite big_ord0 => /esym/eqP; rewrite oner_eq0.
have nR : 0 < n%:R :> R by rewrite ltr0n.
have nRn : n%:R != 0 :> R by rewrite pnatr_eq0 -lt0n.
pose g i := (n%:R^-1 - r i) - (- xlnx (r i) - r i * ln n%:R).
have g0 i : 0 <= g i.
  rewrite subr_ge0; apply/RleP; rewrite RinvE //; apply: gibbs; [exact/RltP | exact/RleP].
have gs : \sum_i g i = ln n%:R - hsum r.
  rewrite /g !sumrB sumr_const card_ord -[_^-1 *+ _]mulr_natl mulfV // r1 subrr sub0r -hs opprB.
  by rewrite -mulr_suml r1 mul1r.
split=> //.
- by rewrite hs sumr_ge0.
- by rewrite -subr_ge0 -gs sumr_ge0.
- rewrite hs; split=> [/eqP|/(@Ok_inj _ _ _) /(@Mat_inj _ _ _ _ _)].
    rewrite psumr_eq0 // => /allP z; rewrite e sim_mul // mulmx_diag; congr (Ok (Mat (_ *m diag_mx _ *m _))).
    apply/rowP => i; rewrite !mxE; have := z i (mem_index_enum _); rewrite /= oppr_eq0 => /eqP h.
    have [||->|->] := xlnx_eq0 _ _ _ h; [exact/RleP | exact/RleP | by rewrite ofR0 mulr0 | by rewrite (_ : ofR 1 = 1) // mulr1].
  rewrite e sim_mul // mulmx_diag => /(sim_inj u) h; apply: big1 => i _.
  have := congr1 (fun M : 'M_n => M i i) h; rewrite !mxE eqxx !mulr1n => /eqP.
  rewrite -subr_eq0 -{3}[ofR (r i)]mulr1 -mulrBr mulf_eq0 => /orP[/eqP/ofR_inj ->|].
    by rewrite (xlnx0 : xlnx 0 = 0) oppr0.
  by rewrite subr_eq0 => /eqP/ofR_inj ->; rewrite (xlnx1 : xlnx 1 = 0) oppr0.
have eI : @Mat C n n (1 / n%:R *: 1%:M) = scalem (1 / n%:R) (idm C n).
  by rewrite idm_Mat; apply: mat_ext => // i j hi hj; rewrite ent_scalem !ent_in !mxE.
have sI : (1 / n%:R : C) *: (1%:M : 'M[C]_n) = adj P *m diag_mx (\row_i ofR n%:R^-1) *m P.
  have -> : diag_mx (\row_(i < n) ofR n%:R^-1) = (ofR n%:R^-1)%:M.
    by apply/matrixP => i j; rewrite !mxE.
  rewrite mul_mx_scalar -scalemxAl unitaryC // /ofR fmorphV rmorph_nat mul1r //.
split=> [h|]; last first.
  rewrite -eI => /(@Mat_inj _ _ _ _ _); rewrite sI e => /(sim_inj u) h.
  have hi i : r i = n%:R^-1.
    by have := congr1 (fun M : 'M_n => M i i) h; rewrite !mxE eqxx !mulr1n => /ofR_inj.
  rewrite hs; under eq_bigr do rewrite hi; rewrite sumr_const card_ord -[(- _) *+ _]mulr_natl.
  have iz : n%:R^-1 != 0 :> R by rewrite invr_eq0.
  rewrite (xlnx_nz _ (elimN eqP iz)) -RmulE mulrN mulrA mulfV // mul1r RinvE //.
  rewrite ln_Rinv ?opprK //; exact/RltP.
rewrite -eI; congr Mat; rewrite sI e; congr (_ *m diag_mx _ *m _); apply/rowP => i; rewrite !mxE.
have /eqP : \sum_i g i = 0 by rewrite gs h subrr.
rewrite psumr_eq0 // => /allP /(_ i (mem_index_enum _)) /=; rewrite subr_eq0 => /eqP gi.
congr ofR; rewrite RinvE //; apply: gibbs_eq; [exact/RltP | exact/RleP |].
by move/esym: gi; rewrite RinvE.
Qed.

(** A normalised ket (of more than one level) has entropy 0. *)
Theorem C73_ket n (v : mat C) b : normalised n v -> n <> 1%N -> S v b = Ok 0.
Proof.
move=> nv n1; have [[rv cv] _] := nv.
have e : S v b = S (proj n v) b.
  by rewrite /entropy rv cv (introN eqP n1) (densityE (conj rv cv)) /= eqxx.
have [s [[h1 h2] _ _ [_ h3] _]] := C73_range (PropsMeas.proj_density nv).
have z : s = 0.
  apply: h3; have [k [ek ep]] := ket_Mat (conj rv cv); rewrite ep mmul_Mat.
  move: nv => []; rewrite ek norm2E => _ nk.
  have kk : adj k *m k = 1%:M by apply/matrixP => i j; rewrite !ord1 nk mxE eqxx.
  by rewrite mulmxA -[k *m _ *m k]mulmxA kk mulmx1.
by rewrite e; case: b {e}; rewrite ?h1 ?h2 z ?mul0r.
Qed.

(** A change of basis leaves the entropy unchanged. *)
Theorem C73_unitary n (U A A' : mat C) b : unitary n U -> square n A -> conjBy U A A' ->
  S A' b = S A b.
Proof.
move=> /unitaryE[sU _ hU] /square_Mat[A0 ->].
case: (square_Mat sU) hU => U0 ->; rewrite hc_Mat (mulm_Mat U0) idm_Mat => /(@Mat_inj _ _ _ _ _) hU.
move=> [X []]; rewrite hc_Mat !mmul_Mat => /(@Ok_inj _ _ _) <-; rewrite mmul_Mat => /(@Ok_inj _ _ _) <-.
have [vals [V [eA hv]]] := linaEigE eigOk A0.
have [vals' [V' [eA' hv']]] := linaEigE eigOk (U0 *m A0 *m adj U0).
rewrite /entropy /= !eqxx /= eA eA' /=.
have p : perm_eq vals' vals.
  apply: spectrum_perm hv' _; case/spectrumE: hv => sz hx; apply/spectrumE; split=> // x.
  have u : unitarymx (adj U0) by rewrite /unitarymx adjK; apply: mulmx1C.
  by rewrite -{1}[U0]adjK det_sim.
by case: b; rewrite !zip_map_sum !big_filter !(perm_big _ p).
Qed.

(** The entropy of independent systems is the sum of their entropies. *)
Theorem C73_additive n m (rho sigma : mat C) b x y : isDensity n rho -> isDensity m sigma ->
  S rho b = Ok x -> S sigma b = Ok y -> S (kron rho sigma) b = Ok (x + y).
Proof.
move=> hr hs; have [[sr _] _ _] := hr; have [[ss _] _ _] := hs.
case: (square_Mat sr) hr => A -> /dens_real[P [r [u r0 e r1]]].
case: (square_Mat ss) hs => B -> /dens_real[Q [t [v t0 f t1]]].
rewrite (entropyE _ u r0 e) (entropyE _ v t0 f) => -[<-] [<-].
pose nt k (w : 'I_k -> R) i := if insub i is Some j then w j else 0.
have ntE k (w : 'I_k -> R) (i : 'I_k) : nt k w i = w i by rewrite /nt valK.
pose p i := nt n r (i %/ m)%N * nt m t (i %% m)%N.
pose U := kron (Mat (adj P)) (Mat (adj Q)).
pose D := kron (Mat (diag_mx (\row_i ofR (r i)))) (Mat (diag_mx (\row_i ofR (t i)))).
have uU : unitary (n * m) U.
  apply/unitaryE; split=> //; rewrite hc_kron !hc_Mat kron_mulm // !adjK !mulm_Mat.
    by rewrite (u : P *m _ = _) (v : Q *m _ = _) -!idm_Mat kron_idm.
  by rewrite (mulmx1C u) (mulmx1C v) -!idm_Mat kron_idm.
have dD : diagonal (n * m) (fun i => ofR (p i)) D.
  split=> // i j hi hj; rewrite ent_kron_in //=.
  rewrite (ent_in _ (div_lt_l hi) (div_lt_l hj)) (ent_in _ (mod_lt_l hi) (mod_lt_l hj)) !mxE /p.
  rewrite -[(i %/ m)%N]/(val (Ordinal (div_lt_l hi))) -[(i %% m)%N]/(val (Ordinal (mod_lt_l hi))) !ntE.
  rewrite /delta -val_eqE /= -val_eqE /=.
  have -> : (i == j) = ((i %/ m == j %/ m) && (i %% m == j %% m))%N.
    by apply/eqP/andP => [->|[/eqP h1 /eqP h2]] //; rewrite (divn_eq i m) (divn_eq j m) h1 h2.
  by case: (_ == _); case: (_ == _); rewrite /= ?mulr0n ?mulr1n ?mul0r ?mulr0 ?mul1r // /ofR rmorphM.
have cD : conjBy U D (kron (Mat A) (Mat B)).
  exists (mulm U D); rewrite /mmul /= !eqxx /=; split=> //.
  rewrite hc_kron !kron_mulm // !hc_Mat (mulm_Mat (adj P) (diag_mx _)) (mulm_Mat (adj Q) (diag_mx _)) !mulm_Mat !adjK.
  by rewrite -e -f.
have p0 i : (i < n * m)%N -> 0 <= p i.
  by move=> _; apply: mulr_ge0; rewrite /nt; case: insubP.
have [h1 h2] := C73_value uU dD cD p0.
have hsE : - (\sum_(i < n * m) xlnx (p i)) = hsum r + hsum t.
  suff h : \sum_(i < n * m) xlnx (p i) = \sum_(i < n) \sum_(j < m) xlnx (r i * t j).
    rewrite h /hsum -opprD; congr (- _).
    have hi i : \sum_(j < m) xlnx (r i * t j) = r i * (\sum_(j < m) xlnx (t j)) + xlnx (r i).
      rewrite (eq_bigr (fun j => r i * xlnx (t j) + t j * xlnx (r i))) => [|j _].
        by rewrite big_split /= -mulr_sumr -mulr_suml t1 mul1r.
      by rewrite xlnx_mul //; exact/RleP.
    rewrite (eq_bigr _ (fun i _ => hi i)).
    by rewrite big_split /= -mulr_suml r1 mul1r addrC.
  apply: ofR_inj; rewrite !ofR_sum (sum_divmod n m (fun i j => ofR (xlnx (nt n r i * nt m t j)))).
  by apply: eq_bigr => i _; rewrite ofR_sum; apply: eq_bigr => j _; rewrite !ntE.
by case: b; rewrite ?h1 ?h2 hsE ?mulrDl /ofR rmorphD.
Qed.
(** The two parts of a system in a pure state have the same entropy, whatever
    subsystems are kept in one part and in the other. *)
Theorem C73_bipartite keep keep' dims psi R R' b : prodn dims <> 1%N -> isKet (prodn dims) psi ->
  validKeep dims keep -> validKeep dims keep' -> (forall i, (i < size dims)%N -> (i \in keep') = (i \notin keep)) ->
  partialTrace (map Posz keep) dims psi = Ok R -> partialTrace (map Posz keep') dims psi = Ok R' ->
  S R b = S R' b /\ Py.is_ok (S R b).
Proof.
move=> n1 hk vk vk' co.
have [rho [hr ->]] := PropsTrace.C36_ket (map Posz keep) dims n1 hk.
have [rho' [hr' ->]] := PropsTrace.C36_ket (map Posz keep') dims n1 hk.
move: hr hr'; rewrite (densityE hk) => /(@Ok_inj _ _ _) <- /(@Ok_inj _ _ _) <- e e'.
have sq : square (prodn dims) (proj (prodn dims) psi) by [].
have p := PropsTrace.ptE vk sq e; have p' := PropsTrace.ptE vk' sq e'.
have em : keepMask (size dims) keep' = map negb (keepMask (size dims) keep).
  by rewrite /keepMask -map_comp; apply/eq_in_map => i; rewrite mem_iota /= => hi; rewrite co.
rewrite em in p'.
have [|i j hi hj|X [-> ->]] := isPT_gram (psi := amp psi) _ _ p p'.
- by rewrite size_keepMask.
- by rewrite PropsState.ent_proj.
have [vals [V [eA hv]]] := linaEigE eigOk (X *m adj X).
have [vals' [V' [eA' hv']]] := linaEigE eigOk (adj X *m X)^T.
rewrite /entropy /= !eqxx /= eA eA' /=; split=> //.
by case: b; rewrite !zip_map_sum !(perm_big _ (nonzero_perm hv hv')).
Qed.
End C73.

(** A concrete case: the completely mixed qubit has an entropy of one bit. *)
Example C73_ex : exists (eig : mat C -> result (seq C * mat C)) (log log2 : C -> C),
  [/\ eigSpec eig, isLog log, isLog2 log2
    & entropy eig log log2 (scalem (ofR 2%:R^-1) (idm C 2)) true = Ok 1].
Proof.
exists (@eigI C), (fun z => ofR (ln (complex.Re z))), (fun z => ofR (ln (complex.Re z) / ln 2%:R)).
have h1 : isLog (fun z => ofR (ln (complex.Re z))) by [].
have h2 : isLog2 (fun z => ofR (ln (complex.Re z) / ln 2%:R)) by [].
split=> //; first exact: eigI_ok.
have iE : idm C 2 = Mat (1%:M : 'M[C]_2) by rewrite idm_Mat.
have uI : unitary 2 (idm C 2).
  by apply/unitaryE; rewrite iE hc_Mat !mulm_Mat adj1 !mulmx1.
set D := scalem _ _.
have dD : diagonal 2 (fun i => ofR ((fun=> 2%:R^-1) i)) D.
  by split=> // i j hi hj; rewrite /D ent_scalem ent_idm hi andbT mulrC.
have cD : conjBy (idm C 2) D D.
  exists D; rewrite /D iE hc_Mat adj1 LindProofs.scale_Mat !mmul_Mat.
  by rewrite mul1mx mulmx1.
have [i _|_ ->] := C73_value (@eigI_ok C) h1 h2 uI dD cD; first by rewrite invr_ge0 ler0n.
rewrite !big_ord_recl big_ord0 addr0.
have two : 2%:R = Rplus 1 1 :> R by [].
have l0 : ln 2%:R != 0 :> R by rewrite gt_eqF //; apply/RltP; exact: ln2_pos.
have n2 : 2%:R != 0 :> R by rewrite pnatr_eq0.
have hx : xlnx 2%:R^-1 = - (2%:R^-1 * ln 2%:R) by rewrite RinvE // two; exact: xlnx_half.
rewrite hx -opprD opprK -mulrDl mulfK // -mulr2n -mulr_natl mulfV //.
Qed.
Print Assumptions C73_value.
Print Assumptions C73_range.
Print Assumptions C73_ket.
Print Assumptions C73_unitary.
Print Assumptions C73_additive.
Print Assumptions C73_bipartite.
Print Assumptions C73_ex.
