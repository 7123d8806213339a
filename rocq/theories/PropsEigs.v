(** C71: sorted eigenvalues and eigenvectors; C72: the spectral norm. *)
From mathcomp Require Import all_ssreflect all_algebra all_field.
From Verif Require Py GateProofs.
From Verif Require Import MatModel MatLib MatSpec MatProofs OperModel StateModel StateSpec EvolModel EvolProofs ExpmInst.
From Verif Require Import Spectral EigSpec EigModel SpecProofs EigInst DistProofs.
Set Implicit Arguments.
Unset Strict Implicit.
Unset Printing Implicit Defensive.
Import Order.TTheory GRing.Theory Num.Theory.
Local Open Scope ring_scope.

Section C71.
Variable C : numClosedFieldType.
Variable eig : mat C -> result (seq C * mat C).
Variable argsort : seq C -> seq nat.
Local Notation adj := (@adjmx C _ _).

Lemma perm_nth (s : seq C) (idx : seq nat) : perm_eq idx (iota 0 (size s)) ->
  perm_eq [seq s`_i | i <- idx] s.
Proof.
by move=> h; rewrite -[X in perm_eq _ X](mkseq_nth 0) /mkseq perm_map.
Qed.
Lemma spectrum_perm_eq n (M : mat C) s t : perm_eq s t -> isSpectrum n M s -> isSpectrum n M t.
Proof.
move=> p [h1 h2 h3]; split=> //; first by rewrite -(perm_size p).
by move=> x; rewrite h3 (perm_big _ p).
Qed.

Lemma lexle_real (x y : C) : x \is Num.real -> y \is Num.real -> lexle x y = (x <= y).
Proof.
move=> rx ry; rewrite /lexle (Creal_ReP _ rx) (Creal_ReP _ ry).
have -> : 'Im x = 0 by apply/Creal_ImP.
have -> : 'Im y = 0 by apply/Creal_ImP.
by rewrite lexx andbT orbC le_eqVlt.
Qed.

Lemma sub_sorted (e1 e2 : rel C) (s : seq C) : {in s &, forall x y, e1 x y -> e2 x y} ->
  sorted e1 s -> sorted e2 s.
Proof.
case: s => // a s; elim: s a => //= b s IH a h /andP[h1 h2].
rewrite h ?inE ?eqxx ?orbT //=; apply: IH h2 => x y hx hy; apply: h; rewrite inE ?hx ?hy orbT //.
Qed.

(** sortedEigens returns all eigenvalues with their multiplicities, in
    increasing order of (real part, imaginary part) or of magnitude, and a
    normalised eigenvector for each at the same position. *)
Theorem C71_sorted : eigSpec eig -> argsortSpec argsort -> forall n (M : mat C) mag, square n M ->
  exists vals vecs, [/\ sortedEigens eig argsort M mag = Ok (vals, vecs), isSpectrum n M vals,
    size vecs = n,
    forall i, (i < n)%N -> let v := nth (zerom C 0 0) vecs i in normalised n v /\ eigenPair M vals`_i v
    & sorted (if mag then fun x y => `|x| <= `|y| else @lexle C) vals].
Proof.
move=> hE hA n M mag sM; have [vals [V [e sp sV hV]]] := hE n M sM.
have [_ sz _] := sp; have [rV _] := sV; have [rM cM] := sM.
rewrite /sortedEigens /linaEig rM cM eqxx e /=.
set idx := if mag then _ else _.
have pI : perm_eq idx (iota 0 n).
  by rewrite /idx; case: mag {idx}; [have [h _] := hA [seq `|v| | v <- vals] | have [h _] := hA vals];
    move: h; rewrite ?size_map sz.
have sI : size idx = n by rewrite (perm_size pI) size_iota.
have lI i : (i < n)%N -> (nth 0%N idx i < n)%N.
  move=> hi; have : nth 0%N idx i \in iota 0 n by rewrite -(perm_mem pI) mem_nth // sI.
  by rewrite mem_iota.
exists [seq vals`_i | i <- idx], [seq colVec V (nth 0%N idx ind) | ind <- range 0 (rows V)].
split=> //.
- apply: spectrum_perm_eq sp; rewrite perm_sym; apply: perm_nth; by rewrite sz.
- by rewrite size_map size_iota subn0.
- move=> i hi /=.
  have -> : nth (zerom C 0 0) [seq colVec V (nth 0%N idx ind) | ind <- range 0 (rows V)] i = column V (nth 0%N idx i).
    by rewrite (nth_map 0%N) ?size_iota rV ?subn0 // nth_iota ?subn0 // add0n.
  by rewrite (nth_map 0%N) ?sI //; apply: hV; apply: lI.
case: mag @idx pI sI lI => idx pI sI lI; last by have [_] := hA vals.
have [_] := hA [seq `|v| | v <- vals]; rewrite -/idx.
have -> : [seq [seq `|v| | v <- vals]`_i | i <- idx] = [seq `|v| | v <- [seq vals`_i | i <- idx]].
  rewrite -map_comp; apply/eq_in_map => i; rewrite (perm_mem pI) mem_iota => /= hi.
  by rewrite (nth_map 0) ?sz.
rewrite sorted_map; apply: sub_sorted => x y _ _ /=.
by rewrite lexle_real ?normr_real.
Qed.

(** For a Hermitian matrix the eigenvalues are real and in increasing order. *)
Theorem C71_hermitian : eigSpec eig -> argsortSpec argsort -> forall n (M : mat C), hermitian n M ->
  exists vals vecs, [/\ sortedEigens eig argsort M false = Ok (vals, vecs), isSpectrum n M vals,
    all (fun x => x \is Num.real) vals & sorted <=%R vals].
Proof.
move=> hE hA n M hM; have [sM _] := hM.
have [vals [vecs [e sp _ _ so]]] := C71_sorted hE hA false sM.
exists vals, vecs; case: (square_Mat sM) e sp hM => M' -> e sp /herm_adj hM.
have [P [d [_ r _ /(_ _ sp) p]]] := herm_spectrum hM.
have ar : all (fun x => x \is Num.real) vals.
  by rewrite (perm_all _ p); apply/allP => x /mapP[i _ ->].
split=> //; apply: sub_sorted so => x y /(allP ar) rx /(allP ar) ry.
by rewrite lexle_real.
Qed.

(** Anything but a square matrix raises ValueError. *)
Theorem C71_errors (M : mat C) mag : rows M != cols M ->
  sortedEigens eig argsort M mag = Err Py.ValueError.
Proof. by rewrite /sortedEigens /linaEig => ->. Qed.

Lemma npLt_real (x y : C) : x \is Num.real -> y \is Num.real -> npLt x y = (x < y).
Proof.
move=> rx ry; rewrite /npLt (Creal_ReP _ rx) (Creal_ReP _ ry).
have -> : 'Im x = 0 by apply/Creal_ImP.
have -> : 'Im y = 0 by apply/Creal_ImP.
by rewrite ltxx andbF orbF.
Qed.

Lemma pymaxP (s : seq C) : s != [::] -> all (fun x => x \is Num.real) s ->
  exists2 m, pymax s = Ok m & (m \in s) /\ forall x, x \in s -> x <= m.
Proof.
case: s => // a s _ /= /andP[ra rs]; eexists; first by [].
elim: s a ra rs => [|b s IH] a ra /= => [_|/andP[rb rs]].
  by rewrite inE eqxx; split=> // x; rewrite inE => /eqP ->.
have rc : (if npLt a b then b else a) \is Num.real by case: ifP.
have [h1 h2] := IH _ rc rs; split.
  by move: h1; rewrite !inE; case: ifP => _ /orP[->|->]; rewrite ?orbT.
have hc : (if npLt a b then b else a) <= foldl (fun m v => if npLt m v then v else m) (if npLt a b then b else a) s.
  by apply: h2; rewrite mem_head.
move=> x; rewrite !inE => /or3P[/eqP ->|/eqP ->|hx]; last by apply: h2; rewrite inE hx orbT.
- apply: le_trans hc; case: ifP => //; rewrite npLt_real //; exact: ltW.
- apply: le_trans hc; case: ifP => //; rewrite npLt_real // => /negbT.
  by rewrite -real_leNgt.
Qed.

Lemma normMat m n (M : 'M[C]_(m, n)) (k : 'cV[C]_n) P (s : 'rV[C]_n) :
  unitarymx P -> adj M *m M = adj P *m diag_mx s *m P ->
  norm2 m (Mat (M *m k)) = \sum_i `|(P *m k) i 0| ^+ 2 * s 0 i.
Proof.
move=> u e; have -> : norm2 m (Mat (M *m k)) = (adj (M *m k) *m (M *m k)) 0 0.
  rewrite [RHS]mxE; move: (M *m k) => w; apply: eq_bigr => i _.
  by rewrite !mxE /amp !ent_in normCKC; congr ((w _ _)^* * w _ _); apply: val_inj.
rewrite adj_mul mulmxA -[adj k *m _ *m _]mulmxA e !mulmxA.
have -> : adj k *m adj P *m diag_mx s *m P *m k = adj (P *m k) *m diag_mx s *m (P *m k).
  by rewrite adj_mul !mulmxA.
move: (P *m k) => w; rewrite mul_mx_diag mxE; apply: eq_bigr => i _.
by rewrite !mxE mulrAC normCKC.
Qed.

(** The spectral norm of any matrix with at least one column is the least
    [s >= 0] with [|M v| <= s |v|] for each vector, and it is attained; the
    second value lists the squares of the singular values. *)
Theorem C72_norm : eigSpec eig -> argsortSpec argsort -> forall m n (M : mat C),
  hasShape M m n -> (0 < n)%N ->
  exists s vals G, [/\ spectralNorm eig argsort M = Ok (s, vals) /\ 0 <= s,
    mmul (hc M) M = Ok G /\ isSpectrum n G vals /\ sorted <=%R vals,
    forall v w, isKet n v -> mmul M v = Ok w -> norm2 m w <= s ^+ 2 * norm2 n v
    & exists v w, [/\ normalised n v, mmul M v = Ok w & norm2 m w = s ^+ 2]].
Proof.
move=> hE hA m n M /(@hasShape_Mat _ _ _ _)[M' ->] hn.
rewrite /spectralNorm hc_Mat mmul_Mat /=.
have hM : adj (adj M' *m M') = adj M' *m M' by rewrite adj_mul adjK.
have [vals [vecs [e sp ar so]]] := C71_hermitian hE hA (adj_herm hM).
rewrite e /=; have [_ sz _] := sp.
have nv : vals != [::] by rewrite -size_eq0 sz -lt0n.
have [mx -> [mi mm]] := pymaxP nv ar; rewrite /=.
have [P [d [u r eD /(_ _ sp) p]]] := herm_spectrum hM.
have pos : positive n (Mat (adj M' *m M')).
  apply: positiveI => v; have -> : v *m (adj M' *m M') *m adj v = (v *m adj M') *m adj (v *m adj M').
    by rewrite adj_mul adjK !mulmxA.
  exact: sqn_ge0.
have d0 := positive_eig pos u eD.
have [j mj] : exists j, mx = d 0 j by move: mi; rewrite (perm_mem p) => /mapP[j _ ->]; exists j.
have dm i : d 0 i <= mx by apply: mm; rewrite (perm_mem p); apply/mapP; exists i; rewrite // mem_enum.
have m0 : 0 <= mx by rewrite mj.
have -> : 'Re mx = mx by apply/Creal_ReP; rewrite ger0_real.
exists (sqrtC mx), vals, (Mat (adj M' *m M')); rewrite sqrtCK sqrtC_ge0; split=> //.
- move=> v w /(@hasShape_Mat _ _ _ _)[k ->]; rewrite mmul_Mat => /(@Ok_inj _ _ _) <-.
  rewrite (normMat k u eD).
  have -> : norm2 n (Mat k) = \sum_i `|(P *m k) i 0| ^+ 2.
    have := @normMat n n 1%:M k P (const_mx 1) u; rewrite mul1mx => ->.
      by apply: eq_bigr => i _; rewrite [const_mx _ _ _]mxE mulr1.
    by rewrite mulmx1 adj1 diag_const_mx mulmx1 unitaryC.
  by rewrite mulr_sumr; apply: ler_sum => i _; rewrite mulrC ler_wpmul2r // exprn_ge0.
pose k := adj (row j P).
have Pk : P *m k = delta_mx j 0.
  by rewrite -[P]adjK -adj_mul -row_mul u row1; apply/matrixP => a b; rewrite !mxE conjC_nat andbC.
exists (Mat k), (Mat (M' *m k)); split; last 2 first.
- by rewrite mmul_Mat.
- rewrite (normMat k u eD) Pk (bigD1 j) //= big1 ?addr0 => [|i ni].
    by rewrite mxE !eqxx normr1 expr1n mul1r mj.
  by rewrite mxE (negbTE ni) normr0 expr0n mul0r.
split=> //.
have := @normMat n n 1%:M k P (const_mx 1) u; rewrite mul1mx => ->.
  rewrite Pk (bigD1 j) //= big1 ?addr0 => [|i ni].
    by rewrite !mxE !eqxx normr1 expr1n mul1r.
  by rewrite mxE (negbTE ni) normr0 expr0n mul0r.
by rewrite mulmx1 adj1 diag_const_mx mulmx1 unitaryC.
Qed.
End C71.
Print Assumptions C71_sorted.
Print Assumptions C71_hermitian.
Print Assumptions C71_errors.
Print Assumptions C72_norm.

Notation AC := [numClosedFieldType of algC].

(** The assumptions can be met, and the eigenvalues of sigma_z come out as
    [-1, 1]. *)
Example C71_ex : exists (eig : mat AC -> result (seq AC * mat AC)) argsort, [/\ eigSpec eig, argsortSpec argsort
  & exists sz vecs, [/\ sigmaz = Ok sz, hermitian 2 sz & sortedEigens eig argsort sz false = Ok ([:: -1; 1], vecs)]].
Proof.
exists (@eigI AC), (@argsortI AC); split; [exact: eigI_ok | exact: argsortI_ok|].
pose d : 'rV[AC]_2 := \row_i (if i == 0 then 1 else -1).
have e : GateProofs.m2 (1 : AC) 0 0 (-1) = Mat (diag_mx d).
  by apply: mat_ext => // -[|[|i]] // [|[|j]] // hi hj; rewrite ent_mk // ent_in !mxE.
have r i : (d 0 i)^* = d 0 i by rewrite !mxE; case: ifP; rewrite ?rmorphN conjC1.
have hH : hermitian 2 (Mat (diag_mx d)).
  by apply: adj_herm; rewrite adj_diag; congr diag_mx; apply/rowP => i; rewrite mxE r.
have [vals [vecs [h1 h2 h3 h4]]] := C71_hermitian (@eigI_ok AC) (@argsortI_ok AC) hH.
exists (Mat (diag_mx d)), vecs; rewrite -e; split=> //; rewrite e //.
  by rewrite GateProofs.sigmazE e.
rewrite h1; congr (Ok (_, _)).
have p : perm_eq vals (dseq d).
  have u : unitarymx (1%:M : 'M[AC]_2) by rewrite /unitarymx adj1 mulmx1.
  by have := spectrum_diag d u; rewrite adj1 mul1mx mulmx1; apply: spectrum_perm h2.
have ed : dseq d = [:: 1; -1] by rewrite /dseq enum_ordSl enum_ordSl enum_ord0 /= !mxE.
apply: (@sorted_eq _ (<=%R : rel AC)) => //; [exact: le_trans | by move=> x y /le_anti | | ].
  by rewrite /= andbT -subr_ge0 opprK addr_ge0 ?ler01.
by rewrite (perm_trans p) // ed (perm_catC [:: 1] [:: -1]).
Qed.

(** The spectral norm of [[0, 2], [0, 0]] is 2. *)
Example C72_ex : exists vals, spectralNorm (@eigI AC) (@argsortI AC) (GateProofs.m2 0 2%:R 0 0) = Ok (2%:R, vals).
Proof.
set M := GateProofs.m2 _ _ _ _.
have [//|s [vals [G [[h s0] _ hb [v [w [[kv nv] hw hn]]]]]]] :=
  @C72_norm AC _ _ (@eigI_ok AC) (@argsortI_ok AC) 2 2 M (conj erefl erefl).
exists vals; rewrite h; congr (Ok (_, _)); apply/eqP; rewrite -(@eqr_expn2 _ 2) ?ler0n //.
have nw (u x : mat AC) : isKet 2 u -> mmul M u = Ok x -> norm2 2 x = 2%:R ^+ 2 * `|amp u 1| ^+ 2.
  move=> [ru cu]; rewrite /mmul ru /= => -[<-].
  rewrite /norm2 /amp !big_ord_recl big_ord0 /= !ent_mk ?cu //= !big_ord_recl !big_ord0 /= !ent_mk //=.
  by rewrite !(mul0r, mulr0, addr0, add0r) normr0 expr0n addr0 normrM normr_nat exprMn.
rewrite eq_le; apply/andP; split.
  rewrite -hn (nw _ _ kv hw) ler_pimulr ?exprn_ge0 ?ler0n // -nv /norm2 !big_ord_recl big_ord0 addr0.
  by rewrite ler_addr exprn_ge0.
pose u : mat AC := mk 2 1 (fun i _ => delta AC i 1).
have ku : isKet 2 u by [].
have := hb u _ ku erefl; rewrite (nw _ _ ku erefl) /norm2 !big_ord_recl big_ord0 /amp !ent_mk // /delta /=.
by rewrite normr0 normr1 expr0n expr1n !mulr1 add0r addr0 mulr1.
Qed.
