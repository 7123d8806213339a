(** Proofs about the concurrence. *)
From mathcomp Require Import all_ssreflect all_algebra.
From Verif Require Py GateProofs PropsEigs.
From Verif Require Import MatModel MatLib MatSpec MatProofs OperModel StateModel StateSpec StateProofs EvolModel EvolProofs ExpmInst.
From Verif Require Import Spectral EigSpec EigModel SpecProofs EigInst DistProofs SchmidtProofs Takagi ConcSpec CField.
Set Implicit Arguments.
Unset Strict Implicit.
Unset Printing Implicit Defensive.
Import Order.TTheory GRing.Theory Num.Theory.
Local Open Scope ring_scope.

Section Conc.
Variable C : numClosedFieldType.
Add Field Cf : (@C_field C).
Ltac cring := cnorm1 C; ring.
Local Notation adj := (@adjmx C _ _).
Local Notation cj := (@cj C _ _).

(** sigma_y tensor sigma_y *)
Definition flip : 'M[C]_4 :=
  \matrix_(i, j) (if (i + j == 3)%N then if (i == 1%N :> nat) || (i == 2%N :> nat) then 1 else -1 else 0).
Lemma flip_tr : flip^T = flip.
Proof.
apply/matrixP => i j; rewrite !mxE addnC; case: eqP => // e.
by case: i e => [[|[|[|[|i]]]] hi] //; case: j => [[|[|[|[|j]]]] hj].
Qed.
Lemma flip_cj : cj flip = flip.
Proof.
by apply/matrixP => i j; rewrite !mxE; case: ifP => _; [case: ifP => _; rewrite ?rmorphN conjC1 | rewrite conjC0].
Qed.
Lemma flip_adj : adj flip = flip.
Proof. by rewrite -tr_cj flip_cj flip_tr. Qed.
Lemma flipE : tensorProd [:: TMat (GateProofs.m2 0 (- 'i) 'i (0 : C)); TMat (GateProofs.m2 0 (- 'i) 'i 0)] = Ok (Mat flip).
Proof.
rewrite tensorProdE //= /comp ?kronm1; congr Ok; apply: mat_ext => // i j /= hi hj.
rewrite ent_kron_in // ent_in mxE /=.
have ii : 'i * 'i = -1 :> C by rewrite -expr2 sqrCi.
move: i j hi hj => [|[|[|[|i]]]] [|[|[|[|j]]]] // hi hj; rewrite !ent_mk //= ?mulr0 ?mul0r // ?mulrN ?mulNr ?opprK ii ?opprK //.
Qed.

Lemma flip_form (w : 'cV[C]_4) : (adj w *m flip *m cj w) 0 0 =
  - (2%:R * (w (inord 0) 0 * w (inord 3) 0 - w (inord 1) 0 * w (inord 2) 0))^*.
Proof.
pose f i := (w (inord i) 0)^*.
have fE i : (w i 0)^* = f i by rewrite /f inord_val.
have h i : (adj w *m flip) 0 i = \sum_(k < 4) f k * flip k i.
  by rewrite !mxE; apply: eq_bigr => k _; rewrite [adj w _ _]mxE mxE fE.
rewrite mxE; under eq_bigr => i _ do rewrite h mxE fE.
rewrite !big_ord_recl !big_ord0 !mxE /bump /=.
rewrite rmorphM rmorphB !rmorphM conjC_nat -!/(f _) ?(addr0, mulr0, add0r).
rewrite -[bump 0 (bump 0 (bump 0 0))]/3%N -[bump 0 (bump 0 0)]/2%N -[bump 0 0]/1%N mulr_natl mulr2n.
move: (f 0%N) (f 1%N) (f 2%N) (f 3%N) => a b c d; cring.
Qed.

Section Value.
Variable eig : mat C -> result (seq C * mat C).
Variable argsort : seq C -> seq nat.
Variables sqrt rnd : C -> C.
Hypotheses (eigOk : eigSpec eig) (argsortOk : argsortSpec argsort) (sqrtOk : isSqrt sqrt).

(** Python's [max([0, rnd(x)])] *)
Definition clip (x : C) : C := if 0 < rnd x then rnd x else 0.

(** [m] is the largest of the moduli of [d]. *)
Definition isMax n (d : 'rV[C]_n) (m : C) : Prop :=
  [/\ 0 <= m, forall j, `|d 0 j| <= m & m = 0 \/ exists i, m = `|d 0 i|].
Lemma isMax_uniq n (d d' : 'rV[C]_n) m m' : (forall j, `|d 0 j| = `|d' 0 j|) -> isMax d m -> isMax d' m' -> m = m'.
Proof.
move=> e [m0 hm am] [m0' hm' am']; apply/eqP; rewrite eq_le; apply/andP; split.
  by case: am => [->|[i ->]] //; rewrite e.
by case: am' => [->|[i ->]] //; rewrite -e.
Qed.

Lemma concE m (B : 'M[C]_(4, m)) (P : 'M[C]_m) d : unitarymx P ->
  adj B *m flip *m cj B = P^T *m diag_mx d *m P ->
  exists2 x, isMax d x
  & concurrence eig argsort sqrt rnd (Mat (B *m adj B)) = Ok (clip (2%:R * x - \sum_j `|d 0 j|)).
Proof.
move=> u eT; set T := P^T *m diag_mx d *m P in eT.
rewrite /concurrence (_ : rows _ != cols _ = false) //; cbn [Py.bind].
rewrite GateProofs.sigmayE; cbn [Py.bind]; rewrite flipE; cbn [Py.bind].
rewrite conj_Mat mmul_Mat; cbn [Py.bind]; rewrite mmul_Mat; cbn [Py.bind]; rewrite mmul_Mat; cbn [Py.bind].
set R := B *m adj B *m _.
have sR : square 4 (Mat R) by [].
have [vals [vecs [-> sp _ _ so]]] := PropsEigs.C71_sorted eigOk argsortOk false sR.
have szv : size vals = 4%N by case: sp.
pose Y := adj B *m flip *m cj B *m (B^T *m flip).
have RE : R = B *m Y by rewrite /R /Y -/(cj (B *m adj B)) cjM cj_adj !mulmxA.
have YE : Y *m B = T *m adj T.
  have -> : adj T = B^T *m flip *m B by rewrite -eT !adj_mul adj_cj adjK flip_adj mulmxA.
  by rewrite /Y eT !mulmxA.
rewrite RE in sp.
have pm : perm_eq [seq v <- vals | v != 0] [seq v <- [seq `|z| ^+ 2 | z <- dseq d] | v != 0].
  by apply: nonzero_gram sp _; rewrite YE; apply: takagi_gram.
have din j : d 0 j \in dseq d by apply: map_f; rewrite mem_enum.
have dout z : z \in dseq d -> exists j, z = d 0 j by case/mapP => j _ ->; exists j.
have vin v : v \in vals -> v != 0 -> exists j, v = `|d 0 j| ^+ 2.
  move=> h nz; have : v \in [seq v <- vals | v != 0] by rewrite mem_filter nz.
  by rewrite (perm_mem pm) mem_filter => /andP[_ /mapP[z /dout[j ->] ->]]; exists j.
have vals0 : {in vals, forall v, 0 <= v}.
  by move=> v hv; have [->//|/(vin _ hv)[j ->]] := eqVneq v 0; rewrite exprn_ge0.
have dv j : d 0 j != 0 -> `|d 0 j| ^+ 2 \in vals.
  move=> nz; have : `|d 0 j| ^+ 2 \in [seq v <- [seq `|z| ^+ 2 | z <- dseq d] | v != 0].
    by rewrite mem_filter sqrf_eq0 normr_eq0 nz; apply: map_f.
  by rewrite -(perm_mem pm) mem_filter => /andP[].
have se : \sum_(v <- vals) sqrtC v = \sum_j `|d 0 j|.
  have nz (s : seq C) : \sum_(v <- s) sqrtC v = \sum_(v <- [seq v <- s | v != 0]) sqrtC v.
    by rewrite big_filter [RHS]big_mkcond; apply: eq_bigr => v _; case: eqVneq => // ->; rewrite sqrtC0.
  rewrite nz (perm_big _ pm) /= -nz big_map big_dseq; apply: eq_bigr => j _.
  by rewrite sqrCK.
have {}so : sorted <=%R vals.
  apply: PropsEigs.sub_sorted so => x y hx hy; by rewrite PropsEigs.lexle_real // ger0_real // vals0.
have eS : [seq 'Re (sqrt v) | v <- vals] = [seq sqrtC v | v <- vals].
  apply/eq_in_map => v hv; rewrite sqrtOk ?vals0 //; apply/Creal_ReP; apply: ger0_real.
  by rewrite sqrtC_ge0 vals0.
cbn [Py.bind fst]; rewrite eS; clear sp RE; case: vals szv so pm vin vals0 dv se {eS} => [//|v0 [//|v1 [//|v2 [//|v3 [|//]]]]] _.
rewrite /= andbT => /and3P[h01 h12 h23] _ vin vals0 dv se.
exists (sqrtC v3); last first.
  rewrite /clip -se !big_cons big_nil addr0 mulr_natl mulr2n.
  have -> // : sqrtC v3 - sqrtC v2 - sqrtC v1 - sqrtC v0
    = sqrtC v3 + sqrtC v3 - (sqrtC v0 + (sqrtC v1 + (sqrtC v2 + sqrtC v3))).
  move: (sqrtC v0) (sqrtC v1) (sqrtC v2) (sqrtC v3) => a b c e; cring.
have v30 : 0 <= v3 by apply: vals0; rewrite !inE eqxx !orbT.
have mx v : v \in [:: v0; v1; v2; v3] -> v <= v3.
  rewrite !inE => /or4P[] /eqP -> //.
    by apply: le_trans h01 (le_trans h12 h23).
  by apply: le_trans h12 h23.
split.
- by rewrite sqrtC_ge0.
- move=> j; have [->|nz] := eqVneq (d 0 j) 0; first by rewrite normr0 sqrtC_ge0.
  by rewrite -(@ler_pexpn2r _ 2) ?nnegrE ?sqrtC_ge0 // sqrtCK; apply: mx; apply: dv.
have [->|nz] := eqVneq v3 0; first by left; rewrite sqrtC0.
by right; have [|j ->] := vin v3 _ nz; [rewrite !inE eqxx !orbT | exists j; rewrite sqrCK].
Qed.

Variable eps : C.
Hypothesis rndOk : isRounding eps rnd.

Definition pos (q : C) : C := if 0 <= q then q else 0.
Lemma clipE q : q \is Num.real -> clip q = rnd (pos q).
Proof.
case: rndOk => rr mono r0 _ qr; have r00 : (0 : C) \is Num.real by apply: ger0_real.
rewrite /clip /pos; case: (boolP (0 <= q)) => h.
  have := mono _ _ r00 qr h; rewrite r0.
  by rewrite le_eqVlt => /orP[/eqP <-|-> //]; rewrite ltxx.
have hq : q <= 0 by move: qr; rewrite realE (negbTE h).
have := mono _ _ qr r00 hq; rewrite r0 => h'.
by rewrite ifF //; apply/negP => /lt_le_trans /(_ h'); rewrite ltxx.
Qed.
Lemma pos_ge0 q : 0 <= pos q.
Proof. by rewrite /pos; case: ifP. Qed.
End Value.

(** ** Sums with phases *)
Lemma seq_max (l : seq C) a : all (fun x => x \is Num.real) (a :: l) ->
  exists2 m, m \in a :: l & {in a :: l, forall x, x <= m}.
Proof.
elim: l a => [|b l IH] a /=.
  by move=> _; exists a; rewrite ?inE // => x; rewrite inE => /eqP ->.
case/and3P=> ra rb rl; have [|m hm mm] := IH b; first by rewrite /= rb.
have rm : m \is Num.real by have /allP -> : all (fun x : C => x \is Num.real) (b :: l) by rewrite /= rb.
case/orP: (real_leVge ra rm) => h; [exists m | exists a]; rewrite ?inE ?eqxx //.
- by move: hm; rewrite !inE => ->; rewrite orbT.
- by move=> x; rewrite inE => /orP[/eqP ->//|]; apply: mm.
move=> x; rewrite inE => /orP[/eqP ->//|hx]; by apply: le_trans (mm _ hx) h.
Qed.

Lemma triangle (a b t : C) : 0 <= a -> 0 <= b -> 0 <= t -> a <= b + t -> b <= a + t -> t <= a + b ->
  exists2 w, `|w| = b & `|a + w| = t.
Proof.
move=> a0 b0 t0 h1 h2 h3.
have ra := ger0_real a0; have rb := ger0_real b0; have rt := ger0_real t0.
have [az|an] := eqVneq a 0.
  have -> : t = b by apply/eqP; rewrite eq_le; move: h2 h3; rewrite az !add0r => -> ->.
  by exists b; rewrite ?az ?add0r ger0_norm.
have an2 : 2%:R * a != 0 by rewrite mulf_neq0 ?pnatr_eq0.
have ap : 0 < 2%:R * a by rewrite lt_neqAle eq_sym an2 mulr_ge0 ?ler0n.
pose x := (t ^+ 2 - a ^+ 2 - b ^+ 2) / (2%:R * a).
have ex : 2%:R * a * x = t ^+ 2 - a ^+ 2 - b ^+ 2 by rewrite /x mulrC divfK.
have rx : x \is Num.real.
  by rewrite /x rpred_div // ?rpredB ?rpredX // rpredM // realn.
have xb : `|x| <= b.
  rewrite real_ler_norml // -!(ler_pmul2l ap _ x) -(ler_pmul2l ap x) ex mulrN; apply/andP; split.
    rewrite ler_oppl -subr_ge0.
    have -> : 2%:R * a * b - - (t ^+ 2 - a ^+ 2 - b ^+ 2) = (t - (a - b)) * (t + (a - b)).
      by rewrite mulr_natl mulr2n; cring.
    by rewrite mulr_ge0 // ?subr_ge0 ?ler_subl_addr 1?addrC // addrAC -?[_ + b]addrC ?subr_ge0 //.
  rewrite -subr_ge0.
  have -> : 2%:R * a * b - (t ^+ 2 - a ^+ 2 - b ^+ 2) = (a + b - t) * (a + b + t).
    by rewrite mulr_natl mulr2n; cring.
  by rewrite mulr_ge0 ?subr_ge0 // !addr_ge0.
pose y := sqrtC (b ^+ 2 - x ^+ 2).
have y0 : 0 <= b ^+ 2 - x ^+ 2.
  by rewrite subr_ge0 -(real_normK rx) ler_pexpn2r ?nnegrE.
have ry : y \is Num.real by rewrite ger0_real // sqrtC_ge0.
have yy : y ^+ 2 = b ^+ 2 - x ^+ 2 by rewrite sqrtCK.
exists (x + 'i * y); apply/eqP; rewrite -(@eqr_expn2 _ 2) //.
  by rewrite normC2_rect // yy addrCA subrr addr0.
rewrite addrA normC2_rect ?rpredD // yy.
have -> : (a + x) ^+ 2 + (b ^+ 2 - x ^+ 2) = 2%:R * a * x + (a ^+ 2 + b ^+ 2).
  by rewrite mulr_natl mulr2n; cring.
rewrite ex; apply/eqP; cring.
Qed.

Lemma phases (s : seq C) t : {in s, forall x, 0 <= x} -> 0 <= t -> t <= \sum_(x <- s) x ->
  {in s, forall x, 2%:R * x - \sum_(x <- s) x <= t} ->
  exists e : seq C, [seq `|z| | z <- e] = s /\ `|\sum_(z <- e) z| = t.
Proof.
elim: s t => [|a s IH] t; first by rewrite big_nil => _ t0 t1 _; exists [::]; rewrite big_nil normr0; split=> //; apply/eqP; rewrite eq_le t0 t1.
rewrite big_cons => s0 t0 ts hs; set S := \sum_(x <- s) x in ts hs.
have a0 : 0 <= a by apply: s0; rewrite inE eqxx.
have {}s0 : {in s, forall x, 0 <= x} by move=> x hx; apply: s0; rewrite inE hx orbT.
have S0 : 0 <= S by rewrite /S big_seq sumr_ge0.
have xS x : x \in s -> x <= S.
  by move=> hx; rewrite /S (big_rem x) //= ler_addl big_seq sumr_ge0 // => y /mem_rem; apply: s0.
have rS : S \is Num.real by apply: ger0_real.
have [|m hm mm] := @seq_max [seq 2%:R * x - S | x <- s] `|a - t|.
  rewrite /= normr_real; apply/allP => _ /mapP[x hx ->].
  by rewrite rpredB // rpredM ?realn // ger0_real // s0.
have m1 : `|a - t| <= m by apply: mm; rewrite inE eqxx.
have m0 : 0 <= m by apply: le_trans m1.
have r2 x : x \in s -> 2%:R * x - S <= m by move=> hx; apply: mm; rewrite inE; apply/orP; right; apply/mapP; exists x.
have mS : m <= S.
  move: hm; rewrite inE => /orP[/eqP ->|/mapP[x hx ->]].
    rewrite real_ler_norml ?rpredB ?ger0_real //; apply/andP; split.
      by rewrite ler_subr_addl ler_subl_addr.
    have := hs a; rewrite inE eqxx => /(_ isT); rewrite mulr_natl mulr2n opprD addrACA subrr add0r.
    by rewrite !ler_subl_addr addrC.
  by rewrite ler_subl_addr mulr_natl mulr2n ler_add // xS.
have mt : m <= a + t.
  move: hm; rewrite inE => /orP[/eqP ->|/mapP[x hx ->]].
    by apply: le_trans (ler_norm_sub _ _) _; rewrite !ger0_norm.
  have := hs x; rewrite inE hx orbT => /(_ isT).
  by rewrite !ler_subl_addr (addrCA t) addrA.
have [e [es em]] := IH _ s0 m0 mS r2.
have tm : t <= a + m by rewrite -ler_subl_addl; apply: le_trans m1; rewrite distrC; apply: real_ler_norm; rewrite rpredB ?ger0_real.
have am : a <= m + t.
  by rewrite -ler_subl_addr; apply: le_trans m1; apply: real_ler_norm; rewrite rpredB ?ger0_real.
have [w wm aw] := triangle a0 m0 t0 am mt tm.
have [e' [es' em']] : exists e', [seq `|z| | z <- e'] = s /\ \sum_(z <- e') z = w.
  have [z0|nz] := eqVneq (\sum_(z <- e) z) 0.
    exists e; split=> //; rewrite z0; apply/esym/eqP; rewrite -normr_eq0 wm -em z0 normr0 //.
  exists [seq (w / \sum_(z <- e) z) * y | y <- e]; split.
    rewrite -map_comp -es; apply: eq_map => y; rewrite /= normrM normf_div wm em divff ?mul1r //.
    by rewrite -em normr_eq0.
  by rewrite big_map -mulr_sumr divfK.
exists (a :: e'); rewrite /= es' ger0_norm // big_cons em'; split=> //.
Qed.

Definition hsign (i j : nat) : bool := (odd i && odd j) (+) ((1 < i)%N && (1 < j)%N).
Definition hadamard4 : 'M[C]_4 := \matrix_(i, j) ((-1) ^+ hsign i j / 2%:R).
Lemma hadamard4_sq i j : hadamard4 i j ^+ 2 = 4%:R^-1.
Proof. by rewrite mxE expr_div_n sqrr_sign mul1r -natrX. Qed.
Lemma hadamard4_cj : cj hadamard4 = hadamard4.
Proof. by apply/matrixP => i j; rewrite !mxE fmorph_div conjC_nat rmorphX rmorphN conjC1. Qed.
Lemma hadamard4_tr : hadamard4^T = hadamard4.
Proof. by apply/matrixP => i j; rewrite !mxE /hsign andbC [X in _ (+) X]andbC. Qed.
Lemma hadamard4_adj : adj hadamard4 = hadamard4.
Proof. by rewrite -tr_cj hadamard4_cj hadamard4_tr. Qed.
Lemma hadamard4_unitary : unitarymx hadamard4.
Proof.
rewrite /unitarymx hadamard4_adj.
have [h hE] : exists h : C, h = 2%:R^-1 by eexists.
have hh : h + h = 1 by rewrite hE -mulr2n -[_ *+ 2]mulr_natl mulfV ?pnatr_eq0.
have q4 : h * h + h * h + (h * h + h * h) = 1 by rewrite -!mulrDl hh mulrDl mul1r.
apply/matrixP => i j; rewrite !mxE !big_ord_recl big_ord0 !mxE addr0 -hE.
by case: i => [[|[|[|[|i]]]] hi] //; case: j => [[|[|[|[|j]]]] hj] //;
  rewrite /hsign /= ?expr0 ?expr1 ?mulr1n ?mulr0n; first [cring | rewrite -[RHS]q4; cring].
Qed.

Lemma attain (B P : 'M[C]_4) d x : unitarymx P -> adj B *m flip *m cj B = P^T *m diag_mx d *m P -> isMax d x ->
  exists2 B' : 'M[C]_4, B' *m adj B' = B *m adj B
  & \sum_k `|(adj B' *m flip *m cj B') k k| = pos (2%:R * x - \sum_j `|d 0 j|).
Proof.
move=> u eT [x0 hx ax]; set S := \sum_j `|d 0 j|.
have S0 : 0 <= S by rewrite sumr_ge0.
have rS := ger0_real S0; have rx := ger0_real x0.
have xS : x <= S.
  by case: ax => [->//|[i ->]]; rewrite /S (bigD1 i) //= ler_addl sumr_ge0.
have rq : 2%:R * x - S \is Num.real by rewrite rpredB // rpredM // realn.
pose s := [seq `|z| | z <- dseq d].
have sS : \sum_(z <- s) z = S by rewrite big_map big_dseq.
have [e [es em]] : exists e : seq C, [seq `|z| | z <- e] = s /\ `|\sum_(z <- e) z| = pos (2%:R * x - S).
  apply: phases.
  - by move=> _ /mapP[z _ ->].
  - exact: pos_ge0.
  - rewrite sS /pos; case: ifP => // _.
    by rewrite ler_subl_addr mulr_natl mulr2n ler_add.
  move=> _ /mapP[_ /mapP[j _ ->] ->]; rewrite sS.
  have h : 2%:R * `|d 0 j| - S <= 2%:R * x - S by rewrite ler_add2r ler_wpmul2l ?ler0n.
  apply: le_trans h _; rewrite /pos; case: ifP => // h.
  by move: rq; rewrite realE h.
have sze : size e = 4%N by rewrite -(size_map (fun z => `|z|)) es size_map size_dseq.
have ej (j : 'I_4) : `|e`_j| = `|d 0 j|.
  have := congr1 (fun l => l`_j) es; rewrite (nth_map 0) ?sze // => ->.
  by rewrite /s (nth_map 0) ?size_dseq // /dseq (nth_map ord0) ?size_enum_ord // nth_ord_enum.
have sume : \sum_(z <- e) z = \sum_(j < 4) e`_j by rewrite (big_nth 0) sze big_mkord.
have [phi hphi] : exists phi : 'rV[C]_4, forall j, `|phi 0 j| = 1 /\ (phi 0 j)^* ^+ 2 * d 0 j = e`_j.
  exists (\row_j (if d 0 j == 0 then 1 else (sqrtC (e`_j / d 0 j))^*)) => j; rewrite mxE.
  case: eqVneq => [z|nz].
    rewrite normr1 z mulr0; split=> //; apply/esym/eqP.
    by rewrite -normr_eq0 ej z normr0.
  rewrite norm_conjC conjCK sqrtCK divfK //; split=> //.
  apply/eqP; rewrite -(@eqr_expn2 _ 2) // -normrX sqrtCK normf_div ej divff ?normr_eq0 // expr1n //.
pose F := diag_mx phi.
have uF : unitarymx F.
  rewrite /unitarymx adj_diag diag_mul; apply/matrixP => i j; rewrite !mxE -normCK.
  by have [-> _] := hphi i; rewrite expr1n.
pose W := P^T *m F *m hadamard4.
have uW : unitarymx W.
  have uP : unitarymx P^T by rewrite /unitarymx adj_tr -[P^T]cj_adj -cjM (unitaryC u) cj1.
  by apply: unitary_mul hadamard4_unitary; apply: unitary_mul.
exists (B *m W).
  by rewrite adj_mul mulmxA -[B *m W *m _]mulmxA uW mulmx1.
have PP : cj P *m P^T = 1%:M by have := unitary_cj u; rewrite /unitarymx adj_cj.
have tE : adj (B *m W) *m flip *m cj (B *m W) = hadamard4 *m diag_mx (\row_j e`_j) *m hadamard4.
  rewrite adj_mul cjM -!mulmxA [adj B *m _]mulmxA [adj B *m flip *m _]mulmxA eT.
  rewrite /W !adj_mul !cjM adj_tr hadamard4_adj hadamard4_cj !mulmxA -[_ *m cj P *m P^T]mulmxA PP mulmx1.
  have -> : cj P^T = adj P by rewrite -adj_tr trmxK.
  rewrite -[_ *m P *m adj P]mulmxA u mulmx1; congr (_ *m _).
  rewrite -!mulmxA; congr (_ *m _); rewrite adj_diag.
  have -> : cj F = diag_mx (\row_j (phi 0 j)^*).
    by apply/matrixP => i j; rewrite !mxE; case: eqP => _; rewrite ?mulr1n ?mulr0n ?conjC0.
  rewrite !diag_mul; congr diag_mx; apply/rowP => j; rewrite !mxE.
  by have [_ <-] := hphi j; move: (_^*) (d 0 j) => a b; rewrite mulrCA mulrC -expr2.
have tk k : (hadamard4 *m diag_mx (\row_j e`_j) *m hadamard4) k k = 4%:R^-1 * \sum_(j < 4) e`_j.
  rewrite mxE mulr_sumr; apply: eq_bigr => j _; rewrite mul_mx_diag [_ j k](_ : _ = hadamard4 k j); last first.
    by rewrite -{1}hadamard4_tr mxE.
  by rewrite [X in X * _]mxE [X in _ * X * _]mxE mulrAC -expr2 hadamard4_sq.
rewrite tE; under eq_bigr => k _ do rewrite tk normrM -sume em.
rewrite sumr_const card_ord normfV normr_nat -[_ *+ 4]mulr_natl mulrA mulfV ?mul1r ?pnatr_eq0 //.
Qed.

(** ** Mixtures of kets as products [B B^+] *)
Lemma tangle_Mat (w : 'cV[C]_4) : tangle (Mat w) = `|(adj w *m flip *m cj w) 0 0|.
Proof.
rewrite flip_form normrN norm_conjC normrM normr_nat /tangle /amp.
have e i (hi : (i < 4)%N) : ent (Mat w) i 0 = w (inord i) 0.
  by rewrite ent_in; congr (w _ _); apply: val_inj; rewrite /= ?inordK.
by rewrite !e.
Qed.

Lemma diag_col m (B : 'M[C]_(4, m)) k :
  (adj B *m flip *m cj B) k k = (adj (col k B) *m flip *m cj (col k B)) 0 0.
Proof.
rewrite !mxE; apply: eq_bigr => i _; rewrite [cj _ _ _]mxE [cj (col k B) _ _]mxE [col k B _ _]mxE; congr (_ * _).
by rewrite !mxE; apply: eq_bigr => j _; rewrite !mxE.
Qed.

Lemma mixture_B xs (rho : mat C) : isMixture 4 xs rho -> exists B : 'M[C]_(4, size xs),
  rho = Mat (B *m adj B) /\ \sum_k `|(adj B *m flip *m cj B) k k| = \sum_(x <- xs) tangle x.
Proof.
move=> [sr hx hr]; pose x0 := zerom C 4 1.
pose B : 'M[C]_(4, size xs) := \matrix_(i, k) amp (nth x0 xs k) i; exists B; split.
  apply: mat_ext; [by case: sr | by case: sr |] => i j; case: (sr) => -> -> hi hj.
  rewrite ent_in mxE hr // (big_nth x0) big_mkord; apply: eq_bigr => k _; by rewrite !mxE.
rewrite [RHS](big_nth x0) big_mkord; apply: eq_bigr => k _.
have kk : isKet 4 (nth x0 xs k).
  by move/List.Forall_forall: hx; apply; elim: xs k {hr B} => [[]//|y ys IH] [[|k] hk] /=; [left | right; apply: (IH (Ordinal (hk : (k < size ys)%N)))].
have [w [ew _]] := ket_Mat kk; rewrite diag_col ew tangle_Mat; congr `|(adj _ *m _ *m cj _) _ _|;
  by apply/colP => i; rewrite !mxE ew /amp ent_in; congr (w _ _); apply: val_inj.
Qed.

Lemma B_mixture m (B : 'M[C]_(4, m)) : exists xs, [/\ size xs = m, isMixture 4 xs (Mat (B *m adj B))
  & \sum_(x <- xs) tangle x = \sum_k `|(adj B *m flip *m cj B) k k|].
Proof.
exists [seq Mat (col k B) | k <- enum 'I_m]; split.
- by rewrite size_map size_enum_ord.
- split=> //.
    by apply/List.Forall_forall => x /List.in_map_iff[k [<- _]].
  move=> i j hi hj; rewrite ent_in mxE big_map big_enum /=; apply: eq_bigr => k _.
  by rewrite /amp !ent_in !mxE; congr (B _ _ * (B _ _)^*); apply: val_inj.
by rewrite big_map big_enum /=; apply: eq_bigr => k _; rewrite tangle_Mat [in RHS]diag_col.
Qed.

(** A positive matrix is [B B^+]. *)
Lemma positive_gram n (A : 'M[C]_n) : adj A = A -> positive n (Mat A) -> exists B : 'M[C]_n, A = B *m adj B.
Proof.
move=> /spectral[P [d [u r e]]] p; have d0 := positive_eig p u e.
exists (adj P *m diag_mx (\row_i sqrtC (d 0 i))).
rewrite adj_mul adjK adj_diag mulmxA -[_ *m diag_mx _ *m diag_mx _]mulmxA diag_mul {1}e.
congr (_ *m diag_mx _ *m _); apply/rowP => i; rewrite !mxE conj_Creal ?ger0_real ?sqrtC_ge0 // -expr2 sqrtCK //.
Qed.

(** The singular values of [T] add up to at most the trace. *)
Lemma tangle_le (w : 'cV[C]_4) : tangle (Mat w) <= \sum_i `|w i 0| ^+ 2.
Proof.
rewrite /tangle; pose f i := amp (Mat w) i.
have e : \sum_i `|w i 0| ^+ 2 = \sum_(i < 4) `|f i| ^+ 2.
  by apply: eq_bigr => i _; rewrite /f /amp ent_in; congr (`|w _ _| ^+ 2); apply: val_inj.
rewrite e !big_ord_recl big_ord0 /= addr0 -!/(f _) /bump /= !addn0 ?add1n.
have am (a b : C) : 2%:R * `|a * b| <= `|a| ^+ 2 + `|b| ^+ 2.
  rewrite normrM -subr_ge0.
  have -> : `|a| ^+ 2 + `|b| ^+ 2 - 2%:R * (`|a| * `|b|) = (`|a| - `|b|) ^+ 2.
    by rewrite mulr_natl mulr2n; move: `|a| `|b| => x y; cring.
  by rewrite -realEsqr rpredB ?normr_real.
apply: le_trans (_ : 2%:R * (`|f 0%N * f 3%N| + `|f 1%N * f 2%N|) <= _).
  by rewrite ler_wpmul2l ?ler0n // ler_norm_sub.
rewrite mulrDr; apply: le_trans (ler_add (am _ _) (am _ _)) _.
by rewrite -addrA ler_add2l addrC -addrA.
Qed.
End Conc.
