(** C74: concurrence of two qubits. *)
From mathcomp Require Import all_ssreflect all_algebra all_field.
From Verif Require Py GateProofs LindProofs PropsMeas.
From Verif Require Import MatModel MatLib MatSpec MatProofs OperModel StateModel StateSpec StateProofs EvolModel EvolProofs ExpmInst.
From Verif Require Import Spectral EigSpec EigModel SpecProofs EigInst DistProofs SchmidtProofs Takagi ConcSpec CField ConcProofs.
Set Implicit Arguments.
Unset Strict Implicit.
Unset Printing Implicit Defensive.
Import Order.TTheory GRing.Theory Num.Theory.
Local Open Scope ring_scope.

Section C74.
Variable C : numClosedFieldType.
Add Field Cf : (@C_field C).
Ltac cring := cnorm1 C; ring.
Local Notation adj := (@adjmx C _ _).
Local Notation cj := (@cj C _ _).
Local Notation flip := (@flip C).
Variable eig : mat C -> result (seq C * mat C).
Variable argsort : seq C -> seq nat.
Variables sqrt rnd : C -> C.
Variable eps : C.
Hypotheses (eigOk : eigSpec eig) (argsortOk : argsortSpec argsort) (sqrtOk : isSqrt sqrt).
Hypothesis rndOk : isRounding eps rnd.
Local Notation conc := (concurrence eig argsort sqrt rnd).

Lemma id_rounding : isRounding 0 (id : C -> C).
Proof. by split=> // x h; rewrite subrr normr0. Qed.

Lemma flip_sym m (B : 'M[C]_(4, m)) : (adj B *m flip *m cj B)^T = adj B *m flip *m cj B.
Proof. by rewrite !trmx_mul tr_cj tr_adj flip_tr mulmxA. Qed.

Lemma q_real m (d : 'rV[C]_m) x : isMax d x -> 2%:R * x - \sum_j `|d 0 j| \is Num.real.
Proof. by case=> x0 _ _; rewrite rpredB ?rpredM ?realn ?ger0_real // sumr_ge0. Qed.

(** The value behind the rounding, and its two characterisations. *)
Lemma conc_gram m (B : 'M[C]_(4, m)) : exists c,
  [/\ 0 <= c, c <= \sum_k `|(adj B *m flip *m cj B) k k|,
      conc (Mat (B *m adj B)) = Ok (rnd c)
    & concurrence eig argsort sqrt id (Mat (B *m adj B)) = Ok c].
Proof.
have [P [d [u e]]] := takagi (flip_sym B).
have [x mx h] := concE rnd eigOk argsortOk sqrtOk u e.
have [x' mx' h'] := concE id eigOk argsortOk sqrtOk u e.
have ex : x' = x by apply: isMax_uniq mx' mx.
have r := q_real mx; rewrite (clipE rndOk r) in h; rewrite ex (clipE id_rounding r) in h'.
exists (pos (2%:R * x - \sum_j `|d 0 j|)); split=> //; first exact: pos_ge0.
rewrite e /pos; case: ifP => _; last by rewrite sumr_ge0.
case: mx => x0 _ [->|[i ->]]; last exact: takagi_diag.
by rewrite mulr0 sub0r; apply: le_trans (_ : 0 <= _); rewrite ?oppr_le0 sumr_ge0.
Qed.

(** The concurrence of a density matrix is the least average of [2|ad - bc|]
    over all ways to write it as a mixture of kets. *)
Theorem C74_minimum (rho : mat C) : isDensity 4 rho -> exists c,
  [/\ conc rho = Ok (rnd c), 0 <= c /\ c <= 1,
      forall xs, isMixture 4 xs rho -> c <= \sum_(x <- xs) tangle x
    & exists xs, isMixture 4 xs rho /\ \sum_(x <- xs) tangle x = c].
Proof.
move=> [hh hp ht]; have [sr _] := hh; case: (square_Mat sr) hh hp ht => A -> /herm_adj hA hp.
rewrite tr_Mat => t1.
have [B eB] := positive_gram hA hp; rewrite eB in t1 *.
have [P [d [u e]]] := takagi (flip_sym B).
have [x mx h] := concE rnd eigOk argsortOk sqrtOk u e.
have [x' mx' h'] := concE id eigOk argsortOk sqrtOk u e.
have ex : x' = x by apply: isMax_uniq mx' mx.
have r := q_real mx; rewrite (clipE rndOk r) in h; rewrite ex (clipE id_rounding r) in h'.
have [B' eB' sB'] := attain u e mx.
set c := pos _ in h h' sB'.
have [xs [_ mxs sxs]] := B_mixture B'; rewrite eB' in mxs.
exists c; split=> //.
- split; first exact: pos_ge0.
  rewrite -sB' -t1 -eB' mxtrace_mulC; apply: ler_sum => k _.
  rewrite diag_col -tangle_Mat; apply: le_trans (tangle_le _) _.
  rewrite [X in _ <= X]mxE le_eqVlt; apply/orP; left; apply/eqP; apply: eq_bigr => i _.
  by rewrite !mxE normCKC.
- move=> ys /mixture_B[B2 [e2 <-]].
  have [c2 [_ le2 _ h2]] := conc_gram B2.
  by move: h2; rewrite -e2 h' => -[->].
by exists xs; rewrite sxs sB'.
Qed.

(** For a ket [(a, b, c, d)] it is [2|ad - bc|], given as a ket or as a density
    matrix; this is 0 exactly for products of two kets of one qubit. *)
Theorem C74_ket (psi : mat C) : isKet 4 psi ->
  conc psi = Ok (rnd (tangle psi)) /\
  (forall rho, densityMatrix psi = Ok rho -> conc rho = Ok (rnd (tangle psi))).
Proof.
move=> kp.
have h : conc (proj 4 psi) = Ok (rnd (tangle psi)).
  have [k [ek ep]] := ket_Mat kp; rewrite ep ek tangle_Mat.
  have e : adj k *m flip *m cj k = (1%:M)^T *m diag_mx (\row__ (adj k *m flip *m cj k) 0 0) *m 1%:M.
    rewrite trmx1 mul1mx mulmx1; move: (adj k *m flip *m cj k) => M.
    by apply/matrixP => i j; rewrite !ord1 !mxE eqxx mulr1n.
  have u : unitarymx (1%:M : 'M[C]_1) by rewrite /unitarymx adj1 mulmx1.
  have [x mx ->] := concE rnd eigOk argsortOk sqrtOk u e.
  rewrite (clipE rndOk (q_real mx)) big_ord1 mxE; case: mx => x0 hx a.
  have := hx 0; rewrite mxE; set t := `|_| => tx.
  have -> : x = t.
    apply/eqP; rewrite eq_le tx andbT; case: a => [->|[i ->]]; first exact: normr_ge0.
    by rewrite [(\row__ _) _ _]mxE.
  by rewrite mulr_natl mulr2n addrK /pos normr_ge0.
split; last by move=> rho; rewrite (densityE kp) => -[<-].
by rewrite -h /concurrence; case: kp => rp cp; rewrite rp cp /= (densityE (conj rp cp)).
Qed.

Theorem C74_product (psi : mat C) : isKet 4 psi -> (tangle psi = 0 <-> isProduct psi).
Proof.
move=> [rp cp]; split; last first.
  move=> [x [y [[rx cx] [ry cy] ->]]].
  have e i : (i < 4)%N -> amp (kron x y) i = amp x (i %/ 2) * amp y (i %% 2).
    by move=> hi; rewrite /amp ent_kron_in ?rx ?cx ?ry ?cy // modn_small.
  rewrite /tangle !e //=.
  have -> : amp x 0 * amp y 0 * (amp x 1 * amp y 1) - amp x 0 * amp y 1 * (amp x 1 * amp y 0) = 0.
    move: (amp x 0) (amp x 1) (amp y 0) (amp y 1) => a b c d; cring.
  by rewrite normr0 mulr0.
pose v i := amp psi i; rewrite /tangle -!/(v _) => /eqP.
rewrite mulf_eq0 pnatr_eq0 /= normr_eq0 subr_eq0 => /eqP h.
pose ket2 (a b : C) : mat C := mk 2 1 (fun i _ => if i is 0%N then a else b).
have k2 a b : isKet 2 (ket2 a b) by [].
have mkP a b c d : v 0%N = a * c -> v 1%N = a * d -> v 2%N = b * c -> v 3%N = b * d -> isProduct psi.
  move=> h0 h1 h2 h3; exists (ket2 a b), (ket2 c d); split=> //.
  apply: mat_ext => // i j; rewrite rp cp => hi; rewrite ltnS leqn0 => /eqP ->.
  rewrite ent_kron_in // -/(amp psi i) -/(v i).
  by move: i hi => [|[|[|[|i]]]] // hi; rewrite !ent_mk.
have [a0|an] := eqVneq (v 0%N) 0; last first.
  apply: (mkP 1 (v 2%N / v 0%N) (v 0%N) (v 1%N)); rewrite ?mul1r ?divfK //.
  by rewrite mulrAC [v 2%N * _]mulrC -h mulrC mulKf.
have [b0|bn] := eqVneq (v 1%N) 0.
  by apply: (mkP 0 1 (v 2%N) (v 3%N)); rewrite ?mul0r ?mul1r.
apply: (mkP 1 (v 3%N / v 1%N) (v 0%N) (v 1%N)); rewrite ?mul1r ?divfK //.
by move/esym/eqP: h; rewrite a0 mul0r mulf_eq0 (negbTE bn) mulr0 => /eqP.
Qed.

Lemma tangle_ge0 (x : mat C) : 0 <= tangle x.
Proof. by rewrite /tangle mulr_ge0 ?ler0n. Qed.

(** It is 0 (before rounding) exactly for separable states: mixtures of product
    kets. *)
Theorem C74_separable (rho : mat C) : isDensity 4 rho -> exists c,
  [/\ conc rho = Ok (rnd c), 0 <= c
    & c = 0 <-> exists xs, isMixture 4 xs rho /\ List.Forall (@isProduct C) xs].
Proof.
move=> hr; have [c [h [c0 _] lo [xs [mxs sxs]]]] := C74_minimum hr.
exists c; split=> //; split=> [z|[ys [mys py]]].
  exists xs; split=> //; move: sxs; rewrite z; case: mxs => _ kx _.
  elim: xs kx => [|x xs IH] kx //; rewrite big_cons => /eqP.
  have [k ks] : isKet 4 x /\ List.Forall (isKet 4) xs by inversion kx.
  rewrite paddr_eq0 ?tangle_ge0 // ?sumr_ge0 // => [/andP[/eqP t0 /eqP tr]|i _]; last exact: tangle_ge0.
  by constructor; [apply/C74_product | apply: IH].
apply/eqP; rewrite eq_le c0 andbT; apply: le_trans (lo _ mys) _.
case: mys => _ ky _; elim: ys ky py => [|y ys IH] ky py; first by rewrite big_nil.
have [k ks] : isKet 4 y /\ List.Forall (isKet 4) ys by inversion ky.
have [p ps] : isProduct y /\ List.Forall (@isProduct C) ys by inversion py.
by rewrite big_cons ((C74_product k).2 p) add0r; apply: IH.
Qed.

(** A separable state has concurrence 0 whatever the rounding. *)
Corollary C74_separable_zero (rho : mat C) xs : isDensity 4 rho -> isMixture 4 xs rho ->
  List.Forall (@isProduct C) xs -> conc rho = Ok 0.
Proof.
move=> hr mx px; have [c [-> _ [_ h]]] := C74_separable hr.
by rewrite h; [case: rndOk => _ _ -> | exists xs].
Qed.

Local Notation sy := (GateProofs.m2 0 (- 'i) 'i (0 : C)).
Lemma flip_unitary (u : mat C) : unitary 2 u -> exists a, `|a| = 1 /\
  mulm (mulm (hc u) sy) (conjm u) = scalem a sy.
Proof.
move=> /unitaryE[[ru cu] h _].
have := GateProofs.m2_ext ru cu erefl erefl erefl erefl.
move: (ent u 0 0) (ent u 0 1) (ent u 1 0) (ent u 1 1) => a b c d e.
have ec : conjm u = GateProofs.m2 a^* b^* c^* d^*.
  have [e1 e2 e3 e4] := GateProofs.ent_m2 a b c d.
  by rewrite e; apply: GateProofs.m2_ext => //; rewrite ent_conjm ?(e1, e2, e3, e4).
move: h; rewrite ec e !GateProofs.m2E => h.
have [h1 h2 h3 h4] : [/\ a^* * a + c^* * c = 1, a^* * b + c^* * d = 0, b^* * a + d^* * c = 0 & b^* * b + d^* * d = 1].
  have f i j := congr1 (fun M => ent M i j) h.
  have := f 0%N 0%N; have := f 0%N 1%N; have := f 1%N 0%N; have := f 1%N 1%N.
  have [-> -> -> ->] := GateProofs.ent_m2 (a^* * a + c^* * c) (a^* * b + c^* * d) (b^* * a + d^* * c) (b^* * b + d^* * d).
  by have [-> -> -> ->] := GateProofs.ent_m2 (1 : C) 0 0 1.
exists (a * d - b * c)^*; split.
  apply/eqP; rewrite norm_conjC -(@eqr_expn2 _ 2) // expr1n normCK rmorphB !rmorphM; apply/eqP.
  have -> : (a * d - b * c) * (a^* * d^* - b^* * c^*) =
    (a^* * a + c^* * c) * (b^* * b + d^* * d) - (a^* * b + c^* * d) * (b^* * a + d^* * c).
    move: (a^*) (b^*) (c^*) (d^*) => a' b' c' d'; cring.
  by rewrite h1 h2 h4 mulr1 mul0r subr0.
rewrite rmorphB !rmorphM !GateProofs.m2E; move: (a^*) (b^*) (c^*) (d^*) 'i => a' b' c' d' i.
by apply: GateProofs.m2_eq; cring.
Qed.

(** Unitaries on each of the two qubits leave it unchanged. *)
Theorem C74_local (u v rho rho' : mat C) : unitary 2 u -> unitary 2 v -> isDensity 4 rho ->
  conjBy (kron u v) rho rho' -> conc rho' = conc rho.
Proof.
move=> uu uv [hh hp _]; have [sr _] := hh; case: (square_Mat sr) hh hp => A -> /herm_adj hA hp.
have [B eB] := positive_gram hA hp; rewrite eB.
have [a [na ea]] := flip_unitary uu; have [b [nb eb]] := flip_unitary uv.
have /unitaryE[su _ _] := uu; have /unitaryE[sv _ _] := uv.
have [U0 eU] : exists U0 : 'M[C]_4, kron u v = Mat U0.
  by case: su sv => ru cu [rv cv]; apply: square_Mat; split; rewrite /= ?ru ?cu ?rv ?cv.
have eF : adj U0 *m flip *m cj U0 = (a * b) *: flip.
  apply: (@Mat_inj C 4 4); rewrite -LindProofs.scale_Mat -!mulm_Mat -hc_Mat -conj_Mat -eU.
  have -> : Mat flip = kron sy sy.
    by apply: (@Ok_inj (mat C)); rewrite -flipE tensorProdE //= kronm1.
  case: su sv => ru cu [rv cv].
  have -> : conjm (kron u v) = kron (conjm u) (conjm v).
    by apply: mat_ext => // i j hi hj; rewrite ent_conjm !ent_kron_in //= !ent_conjm rmorphM.
  rewrite hc_kron !kron_mulm ?ea ?eb //=.
  by rewrite kron_scaleml kron_scalemr scalemA.
move=> [X []]; rewrite eU hc_Mat mmul_Mat => -[<-]; rewrite mmul_Mat => -[<-].
have -> : U0 *m (B *m adj B) *m adj U0 = (U0 *m B) *m adj (U0 *m B) by rewrite adj_mul !mulmxA.
have [P [d [u' e]]] := takagi (flip_sym B).
have [x mx ->] := concE rnd eigOk argsortOk sqrtOk u' e.
have e' : adj (U0 *m B) *m flip *m cj (U0 *m B) = P^T *m diag_mx ((a * b) *: d) *m P.
  have -> : adj (U0 *m B) *m flip *m cj (U0 *m B) = adj B *m (adj U0 *m flip *m cj U0) *m cj B.
    by rewrite adj_mul cjM !mulmxA.
  rewrite eF -scalemxAr -scalemxAl e.
  by rewrite [diag_mx (_ *: _)]linearZ /= -scalemxAr -scalemxAl.
have [x' mx' ->] := concE rnd eigOk argsortOk sqrtOk u' e'.
have nd j : `|((a * b) *: d) 0 j| = `|d 0 j| by rewrite mxE !normrM na nb !mul1r.
have -> : x' = x by apply: isMax_uniq mx' mx.
by rewrite (eq_bigr _ (fun j _ => nd j)).
Qed.

(** A matrix or ket of another size than 4 raises ValueError. *)
Theorem C74_errors n (M : mat C) : n <> 4%N -> square n M \/ isKet n M -> conc M = Err Py.ValueError.
Proof.
move=> n4 h.
have e M' : square n M' -> (do sy <- sigmay; do SySy <- tensorProd [:: TMat sy; TMat sy];
  do x <- mmul SySy (conjm M'); do magicConj <- mmul x SySy;
  do R <- mmul M' magicConj; do e <- sortedEigens eig argsort R false;
  match [seq 'Re (sqrt v) | v <- e.1] with
  | v0 :: v1 :: v2 :: v3 :: _ => let r := rnd (v3 - v2 - v1 - v0) in Ok (if 0 < r then r else 0)
  | _ => Err Py.IndexError
  end) = Err Py.ValueError.
  case=> r c; rewrite GateProofs.sigmayE; cbn [Py.bind]; rewrite flipE; cbn [Py.bind].
  have -> // : mmul (Mat flip) (conjm M') = Err Py.ValueError.
  by rewrite /mmul /= r eq_sym; case: eqP.
case: h => [sM|kM]; rewrite /concurrence.
  by case: (sM) => rM cM; rewrite rM cM eqxx; apply: e.
case: (kM) => rM cM; rewrite rM cM; case: (eqVneq n 1%N) => n1; cbn [negb].
  by apply: e; split; rewrite ?rM ?cM ?n1.
by rewrite (densityE kM); apply: e.
Qed.
End C74.
Print Assumptions C74_minimum.
Print Assumptions C74_ket.
Print Assumptions C74_product.
Print Assumptions C74_separable.
Print Assumptions C74_separable_zero.
Print Assumptions C74_local.
Print Assumptions C74_errors.

(** Rounding to multiples of [1/N]. *)
Notation AC := [numClosedFieldType of algC].
Definition roundTo (N : nat) (x : AC) : AC := (floorC (N%:R * x + 2%:R^-1))%:~R / N%:R.
Lemma roundTo_ok N : (0 < N)%N -> isRounding (2%:R * N%:R)^-1 (roundTo N).
Proof.
move=> N0; have Np : 0 < N%:R :> AC by rewrite ltr0n.
have Nn : N%:R != 0 :> AC by rewrite pnatr_eq0 -lt0n.
have h0 : 0 < 2%:R^-1 :> AC by rewrite invr_gt0 ltr0n.
have h1 : 2%:R^-1 < 1 :> AC by rewrite invf_lt1 ?ltr0n // ltr1n.
have hh : 2%:R^-1 + 2%:R^-1 = 1 :> AC by rewrite -mulr2n -[_ *+ 2]mulr_natl mulfV ?pnatr_eq0.
have rr (x : AC) : x \is Num.real -> N%:R * x + 2%:R^-1 \is Num.real.
  by move=> hx; rewrite rpredD ?rpredM ?realn // ger0_real // ltW.
split.
- move=> x hx; have /andP[l1 l2] := floorC_itv (rr _ hx).
  have rf : roundTo N x \is Num.real by rewrite /roundTo rpred_div ?realn // Creal_Cint // Cint_int.
  split=> //.
  have e : N%:R * (roundTo N x - x) = (floorC (N%:R * x + 2%:R^-1))%:~R - N%:R * x.
    by rewrite mulrBr /roundTo mulrC divfK.
  rewrite -(ler_pmul2l Np) -[X in X * `|_|](ger0_norm (ltW Np)) -normrM e invfM mulrCA mulfV // mulr1.
  rewrite real_ler_norml; last by rewrite rpredB ?rpredM ?realn // Creal_Cint // Cint_int.
  rewrite ler_subl_addl l1 andbT ler_subr_addr.
  apply: ltW; move: l2; rewrite rmorphD /= -(ltr_add2r 1); congr (_ < _).
  by rewrite -[X in _ = _ + X]hh [- _ + _]addrC addrA subrK.
- move=> x y hx hy le; rewrite /roundTo ler_pmul2r ?invr_gt0 // ler_int.
  have /andP[l1 _] := floorC_itv (rr _ hx); have /andP[_ l2] := floorC_itv (rr _ hy).
  rewrite -ltz_addr1 -(ltr_int [numDomainType of algC]); apply: le_lt_trans l1 _; apply: le_lt_trans l2.
  by rewrite ler_add2r ler_pmul2l.
- rewrite /roundTo mulr0 add0r (@floorC_def _ 0) ?mul0r // ltW //=.
rewrite /roundTo mulr1 (@floorC_def _ N%:Z) ?divff // ler_addl (ltW h0) /=.
by rewrite rmorphD /= ltr_add2l.
Qed.

(** A concrete case: a Bell state has concurrence 1 and is a legal argument of
    the theorems on density matrices. *)
Example C74_ex : exists (eig : mat AC -> result (seq AC * mat AC)) argsort sqrt rnd,
  [/\ eigSpec eig, argsortSpec argsort, isSqrt sqrt, isRounding (2%:R * (10 ^ 15)%:R)^-1 rnd
    & exists psi rho, [/\ normalised 4 psi, densityMatrix psi = Ok rho, isDensity 4 rho
      & concurrence eig argsort sqrt rnd rho = Ok 1]].
Proof.
have r15 : isRounding (2%:R * (10 ^ 15)%:R)^-1 (roundTo (10 ^ 15)) by apply: roundTo_ok; rewrite expn_gt0.
move: (10 ^ 15)%N r15 => N r15.
exists (@eigI AC), (@argsortI AC), (fun x => sqrtC x), (roundTo N).
split=> //; [exact: eigI_ok | exact: argsortI_ok|].
pose s : AC := (sqrtC 2%:R)^-1.
have ss : s * s = 2%:R^-1 by rewrite /s -invfM -expr2 sqrtCK.
have s0 : 0 <= s by rewrite invr_ge0 sqrtC_ge0 ler0n.
have hh : 2%:R^-1 + 2%:R^-1 = 1 :> AC by rewrite -mulr2n -[_ *+ 2]mulr_natl mulfV ?pnatr_eq0.
pose psi : mat AC := mk 4 1 (fun i _ => nth 0 [:: s; 0; 0; s] i).
have kp : isKet 4 psi by [].
have np : normalised 4 psi.
  split=> //; rewrite /norm2 /amp !big_ord_recl big_ord0 /= !ent_mk //= normr0 expr0n /= !add0r addr0.
  by rewrite ger0_norm // expr2 ss hh.
exists psi, (proj 4 psi); split=> //; [exact: densityE | exact: PropsMeas.proj_density |].
have [_ h] := C74_ket (@eigI_ok AC) (@argsortI_ok AC) (fun x _ => erefl) r15 kp.
rewrite (h _ (densityE kp)) /tangle /amp !ent_mk //= mul0r subr0 ss ger0_norm ?invr_ge0 ?ler0n // mulfV ?pnatr_eq0 //.
by case: r15 => _ _ _ ->.
Qed.
Print Assumptions C74_ex.
