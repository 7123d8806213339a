(** C78: the Wigner function; C79: the Husimi function. *)
From Coq Require Import Reals.
From mathcomp Require Import all_ssreflect all_algebra.
From mathcomp Require Import complex.
From Verif Require Py.
From Verif Require Import RC ExpSeries ExpMatrix ExpmSpec ExpScalar.
From Verif Require Import MatModel OperModel StateModel PhaseModel MatLib MatSpec MatProofs StateSpec OperProofs EvolProofs StateProofs CField PhaseSpec PhaseProofs.
Set Implicit Arguments.
Unset Strict Implicit.
Unset Printing Implicit Defensive.
Import Order.TTheory GRing.Theory Num.Theory.
Local Open Scope ring_scope.

Definition realExp (z : RC) : RC := ofR (Rtrigo_def.exp (complex.Re z)).
Lemma realExp_ok : isRealExp realExp (ofR PI).
Proof.
split; rewrite /realExp /ofR.
- by rewrite ltcR; apply/RltP/PI_RGT_0.
- by rewrite exp_0.
- by move=> x _; rewrite ltcR; apply/RltP/exp_pos.
Qed.
Lemma proj_herm (K : numClosedFieldType) n (v : mat K) : hermitian n (proj n v).
Proof. by split=> // i j hi hj; rewrite !ent_mk // rmorphM conjCK mulrC. Qed.

Section C78.
Variable C : numClosedFieldType.
Variable exp : C -> C.
Variable pi : C.
Hypothesis hE : isRealExp exp pi.
Add Field Cph : (@C_field C).
Ltac cring := cnorm1 C; ring.
Ltac cfield := cnorm1 C; field.
Local Notation w0 a := (exp (- 2%:R * `|a| ^+ 2) / pi).
Local Notation elem := (wignerElem exp pi).

Lemma absreal (a : C) : - 2%:R * `|a| ^+ 2 \is Num.real.
Proof. by rewrite rpredM ?rpredN ?rpredX ?realn ?normr_real. Qed.
Lemma w0_gt0 (a : C) : 0 < w0 a.
Proof. by case: hE => h1 _ h2; rewrite divr_gt0 ?h2 ?absreal. Qed.
Lemma w0_real (a : C) : w0 a \is Num.real. Proof. exact: gtr0_real (w0_gt0 a). Qed.

Lemma elemE a m n : elem a m n = w (w0 a) a m n.
Proof.
rewrite /wignerElem /w; congr (_ * _); rewrite up_min mulr_sumr; apply: eq_bigr => k _.
have /andP[hm hn] : (k <= m)%N && (k <= n)%N by rewrite -leq_min -ltnS.
rewrite /dp hm hn sqrtCM ?nnegrE ?ler0n // -/(rt _ m) -/(rt _ n).
move: (factC C k) (factC C (m - k)) (factC C (n - k)) => h1 h2 h3.
move: (rt C m) (rt C n) ((-1) ^+ k) (_ ^+ (n - k)) (_ ^+ (m - k)) (_%:R : C) (_%:R : C) (_%:R : C) h1 h2 h3 => x1 x2 x3 x4 x5 x6 x7 x8 /eqP h1 /eqP h2 /eqP h3.
by cfield.
Qed.

Lemma dp_conj (x : C) n k : (dp x n k)^* = dp x^* n k.
Proof. by rewrite /dp; case: ifP => _; rewrite ?conjC0 // rmorphM rmorphX fmorphV rmorph_nat. Qed.
Lemma elem_conj a m n : (elem a m n)^* = elem a n m.
Proof.
rewrite !elemE /w rmorphM (CrealP (w0_real a)); congr (_ * _); rewrite !rmorphM /=.
have rr k : (rt C k)^* = rt C k by apply/CrealP; rewrite ger0_real // sqrtC_ge0 ler0n.
rewrite !rr [rt C n * _]mulrC; congr (_ * _); rewrite [RHS]up_sym /up rmorph_sum; apply: eq_bigr => k _.
by rewrite !rmorphM /= !dp_conj fmorphV !rmorph_nat rmorphX rmorphN1 !rmorphM /= conjCK rmorph_nat.
Qed.

Lemma wignerAt_rows n (rho : mat C) a : (0 < n)%N ->
  wignerAt exp pi rho n a = \sum_(k < n) wrow (w0 a) a rho n k.
Proof.
move=> hn; rewrite /wignerAt /range; set s0 := (_, _ * _).
have [] := @first_inv C (w0 a) a rho (n - 1) 1 s0.1 s0.2 isT.
  by case=> // _; rewrite w00 nth_set_nth.
case: foldl => l W /= hl ->; rewrite subnKC // in hl.
rewrite (@outer_inv _ (w0 a) a _ _ (n - 1) 0 l) ?subnKC //.
case: n hn @s0 hl => // n _ s0 hl; rewrite subSS subn0 big_ord_recl /=; congr (_ + _).
  by rewrite /wrow w00 subSS subn0 (Creal_ReP _ (w0_real a)) ReMr ?w0_real.
by rewrite -[iota 1 n]/(iota (1 + 0) n) iotaDl big_map -{1}[n]subn0 -/(index_iota 0 n) big_mkord.
Qed.

Lemma wignerAtE n (rho : mat C) a : (0 < n)%N -> hermitian n rho ->
  wignerAt exp pi rho n a = \sum_(k < n) \sum_(l < n) ent rho k l * elem a k l.
Proof.
move=> hn [_ hr]; rewrite wignerAt_rows //.
pose f k l := if (k < n)%N && (l < n)%N then ent rho k l * elem a k l else 0.
transitivity (\sum_(k < n) \sum_(l < n) f k l); last first.
  by apply: eq_bigr => k _; apply: eq_bigr => l _; rewrite /f !ltn_ord.
rewrite herm_sum => [|k l]; last first.
  by rewrite /f andbC; case: ifP => [/andP[hk hl]|_]; rewrite ?conjC0 // rmorphM elem_conj -(hr l k).
apply: eq_bigr => k _; rewrite /wrow /f ltn_ord /= elemE; congr (_ + _).
apply: eq_big_seq => j; rewrite mem_iota => /andP[_ hj].
have : (j < n)%N by move: hj; rewrite subnKC.
by move=> ->; rewrite elemE.
Qed.

(** The Wigner function of a Hermitian matrix [rho] is real and is
    [g^2 sum_mn rho_mn W_mn] at each point of the grid. *)
Theorem C78_wigner n (rho : mat C) (vec : seq C) (g : C) : (0 < n)%N -> hermitian n rho ->
  exists W, [/\ Wigner exp pi rho vec g = Ok W, hasShape W (size vec) (size vec)
    & forall i j, (i < size vec)%N -> (j < size vec)%N ->
        ent W i j = g ^+ 2 * (\sum_(k < n) \sum_(l < n) ent rho k l * elem (phasePoint vec g i j) k l)
        /\ (g \is Num.real -> ent W i j \is Num.real)].
Proof.
move=> hn hr; have [[h1 h2] hh] := hr.
rewrite /Wigner h1 h2 eqxx /= h1 (gtn_eqF hn); eexists; split; first by []; first by split.
move=> i j hi hj; rewrite ent_mk // wignerAtE // [gridPoint _ _ _ _](_ : _ = phasePoint vec g i j); last first.
  by rewrite /gridPoint /phasePoint; cring.
split; first by rewrite mulrC.
move=> hg; rewrite rpredM ?rpredX //; apply/CrealP; rewrite rmorph_sum exchange_big; apply: eq_bigr => k _.
by rewrite rmorph_sum; apply: eq_bigr => l _; rewrite rmorphM /= elem_conj -hh.
Qed.
Local Notation val rho n vec g i j := (g ^+ 2 * (\sum_(k < n) \sum_(l < n) ent rho k l * elem (phasePoint vec g i j) k l)).

(** A ket of two or more levels has the Wigner function of its density matrix. *)
Theorem C78_ket n (v rho : mat C) vec g : n <> 1%N -> isKet n v -> densityMatrix v = Ok rho ->
  Wigner exp pi v vec g = Wigner exp pi rho vec g.
Proof.
move=> /eqP n1 hv; rewrite (densityE hv) => -[<-]; have [h1 h2] := hv.
by rewrite {1}/Wigner h1 h2 n1 /= (densityE hv) /Wigner /= eqxx.
Qed.

(** At the origin it is the expectation value of the parity, times [g^2/pi]. *)
Theorem C78_parity n (rho : mat C) vec g i j W : (0 < n)%N -> hermitian n rho ->
  (i < size vec)%N -> (j < size vec)%N -> vec`_i = 0 -> vec`_j = 0 ->
  Wigner exp pi rho vec g = Ok W -> ent W i j = g ^+ 2 / pi * \sum_(k < n) (-1) ^+ k * ent rho k k.
Proof.
move=> hn hr hi hj zi zj; have [W' [-> _ /(_ i j hi hj)[e _]]] := C78_wigner vec g hn hr; move=> [<-]; rewrite e.
rewrite -[RHS]mulrA.
congr (_ * _); rewrite mulr_sumr; apply: eq_bigr => k _.
have ez l : elem (phasePoint vec g i j) k l = if k == l :> nat then pi^-1 * (-1) ^+ k else 0.
  rewrite /phasePoint zi zj mulr0 addr0 mulr0 elemE /w normr0 expr0n mulr0 conjC0 !mulr0.
  case: hE => _ -> _; rewrite div1r /up; case: eqP => [<-|ne].
    rewrite big_ord_recr /= big1 ?add0r => [|m _]; last first.
      by rewrite /dp (ltnW (ltn_ord m)) expr0n subn_eq0 leqNgt ltn_ord /= mul0r mul0r mulr0.
    rewrite /dp leqnn subnn fact0 expr0 divr1 mulr1 mulr1; congr (_ * _).
    rewrite -expr2 sqrtCK mulrCA mulfV ?mulr1 //; exact: factC.
  rewrite big1 ?mulr0 // => m _; rewrite /dp; case: (leqP m l) => hl; last by rewrite mul0r mulr0.
  have hm : (m <= k)%N by rewrite -ltnS.
  rewrite hm !expr0n !subn_eq0; case: (leqP l m) => h1; last by rewrite mul0r mul0r mulr0.
  case: (leqP k m) => h2; last by rewrite mul0r mulr0 mulr0.
  by case: ne; apply/eqP; rewrite eqn_leq (leq_trans h2 hl) (leq_trans h1 hm).
rewrite (bigD1 k) //= ez eqxx big1 ?addr0 => [|l hl]; first by move: (pi^-1) ((-1) ^+ k) => p q; cring.
by rewrite ez (_ : (k == l :> nat) = false) ?mulr0 //; apply/negbTE; rewrite eq_sym.
Qed.

Lemma up_rot (z z' x y : C) k l : z * z' = 1 -> z ^+ k * z' ^+ l * up (z * x) (z' * y) k l = up x y k l.
Proof.
move=> zz; rewrite /up mulr_sumr; apply: eq_bigr => m _; rewrite /dp.
have hm : (m <= k)%N by rewrite -ltnS.
case: (leqP m l) => hl; last by rewrite !(mul0r, mulr0).
rewrite hm !exprMn -[in z ^+ k](subnK hm) -[in z' ^+ l](subnK hl) !exprD.
have p j : z ^+ j * z' ^+ j = 1 by rewrite -exprMn zz expr1n.
move: (p (k - m)%N) (p (l - m)%N) (p m).
move: (z ^+ (k - m)) (z' ^+ (k - m)) (z ^+ (l - m)) (z' ^+ (l - m)) (z ^+ m) (z' ^+ m) (x ^+ _) (y ^+ _) ((-1) ^+ m) => a1 a2 a3 a4 a5 a6 X Y e p1 p2 p3.
move: (_ ^-1) (_ ^-1) (_ ^-1) => i1 i2 i3.
transitivity ((a1 * a2) * (a3 * a4) * (a5 * a6) * (e * i3 * (X * i2 * (Y * i1)))); first by cring.
by rewrite p1 p2 p3 !mul1r.
Qed.

(** Rotating the state in phase space, [rho_kl -> z^k conj(z)^l rho_kl] with
    [|z| = 1], rotates its Wigner function: the value at [z a] is the old value
    at [a]. *)
Theorem C78_rotation n (rho rho' : mat C) vec vec' g i j i' j' W W' (z : C) : (0 < n)%N ->
  hermitian n rho -> hermitian n rho' -> `|z| = 1 ->
  (forall k l, (k < n)%N -> (l < n)%N -> ent rho' k l = z ^+ k * z^* ^+ l * ent rho k l) ->
  (i < size vec)%N -> (j < size vec)%N -> (i' < size vec')%N -> (j' < size vec')%N ->
  phasePoint vec' g i' j' = z * phasePoint vec g i j ->
  Wigner exp pi rho vec g = Ok W -> Wigner exp pi rho' vec' g = Ok W' -> ent W' i' j' = ent W i j.
Proof.
move=> hn hr hr' nz er hi hj hi' hj' ep.
have [W1 [-> _ /(_ i j hi hj)[e1 _]]] := C78_wigner vec g hn hr; move=> [<-]; rewrite e1.
have [W2 [-> _ /(_ i' j' hi' hj')[e2 _]]] := C78_wigner vec' g hn hr'; move=> [<-]; rewrite e2.
congr (_ * _); apply: eq_bigr => k _; apply: eq_bigr => l _; rewrite er // ep.
have zz : z * z^* = 1 by rewrite -normCK nz expr1n.
rewrite !elemE /w normrM nz mul1r -[in RHS](up_rot _ _ k l zz) rmorphM /=.
rewrite [2%:R * (z * _)]mulrCA [2%:R * (z^* * _)]mulrCA.
by move: (z ^+ k) (z^* ^+ l) (_ / pi) (up _ _ _ _) => a1 a2 a3 a4; cring.
Qed.

(** It is linear in the state. *)
Theorem C78_linear n (A B S : mat C) (p q : C) vec g WA WB WS : (0 < n)%N ->
  hermitian n A -> hermitian n B -> hermitian n S ->
  (forall k l, (k < n)%N -> (l < n)%N -> ent S k l = p * ent A k l + q * ent B k l) ->
  Wigner exp pi A vec g = Ok WA -> Wigner exp pi B vec g = Ok WB -> Wigner exp pi S vec g = Ok WS ->
  forall i j, (i < size vec)%N -> (j < size vec)%N -> ent WS i j = p * ent WA i j + q * ent WB i j.
Proof.
move=> hn hA hB hS e.
have [W1 [-> _ h1]] := C78_wigner vec g hn hA; move=> [<-].
have [W2 [-> _ h2]] := C78_wigner vec g hn hB; move=> [<-].
have [W3 [-> _ h3]] := C78_wigner vec g hn hS; move=> [<-] i j hi hj.
have [-> _] := h1 i j hi hj; have [-> _] := h2 i j hi hj; have [-> _] := h3 i j hi hj.
rewrite ![_ * (g ^+ 2 * _)]mulrCA -mulrDr; congr (_ * _); rewrite !mulr_sumr -big_split; apply: eq_bigr => k _.
by rewrite !mulr_sumr -big_split; apply: eq_bigr => l _; rewrite e // mulrDl !mulrA.
Qed.

(** The vacuum has a positive Wigner function, [g^2/pi exp(-2|a|^2)]. *)
Theorem C78_vacuum n (v : mat C) vec g : (1 < n)%N -> basis C n 0 = Ok v ->
  exists W, Wigner exp pi v vec g = Ok W /\ forall i j, (i < size vec)%N -> (j < size vec)%N ->
    ent W i j = g ^+ 2 / pi * exp (- 2%:R * `|phasePoint vec g i j| ^+ 2).
Proof.
move=> hn; have n0 : (0 < n)%N := ltnW hn; rewrite (basisE _ n0) => -[<-].
have kv : isKet n (unit_vec C n 0%N) by split.
have nn : n <> 1%N by move=> e; rewrite e in hn.
rewrite (C78_ket vec g nn kv (densityE kv)).
have hr : hermitian n (proj n (unit_vec C n 0%N)).
  by split=> // i j hi hj; rewrite !ent_mk // rmorphM conjCK mulrC.
have [W [-> _ h]] := C78_wigner vec g n0 hr; exists W; split=> // i j hi hj; have [-> _] := h i j hi hj.
case: n n0 hn kv nn hr h => // n _ hn kv nn hr h.
rewrite big_ord_recl big_ord_recl big1 ?addr0 => [|l _]; last first.
  by rewrite ent_mk // !amp_unit // /kd /= conjC0 mulr0 mul0r.
rewrite big1 ?addr0 => [|k _]; last first.
  by rewrite big1 // => l _; rewrite ent_mk // !amp_unit // /kd /= mul0r mul0r.
by rewrite ent_mk // !amp_unit // /kd /= conjC1 !mul1r elemE w00 mulrA mulrAC.
Qed.

(** Only the upper triangle of the matrix and the real part of its diagonal are
    used. *)
Theorem C78_triangle n (A B : mat C) vec g : square n A -> square n B ->
  (forall k l, (k < l < n)%N -> ent A k l = ent B k l) -> (forall k, (k < n)%N -> 'Re (ent A k k) = 'Re (ent B k k)) ->
  Wigner exp pi A vec g = Wigner exp pi B vec g.
Proof.
move=> [a1 a2] [b1 b2] ht hd; rewrite /Wigner a1 a2 b1 b2 eqxx /= a1 b1; case: eqP => // /eqP n0; rewrite -lt0n in n0.
congr Ok; apply: mk_ext => // i j hi hj; congr (_ * _); move: (gridPoint _ _ _ _) => a.
rewrite !wignerAt_rows //; apply: eq_bigr => k _; rewrite /wrow; congr (_ + _).
  have r : w (w0 a) a k k \is Num.real by apply/CrealP; rewrite -elemE elem_conj.
  by rewrite !ReMr // hd.
apply: eq_big_seq => l; rewrite mem_iota => /andP[h1 h2]; rewrite ht // h1.
by move: h2; rewrite subnKC.
Qed.
End C78.
Print Assumptions C78_wigner.
Print Assumptions C78_ket.
Print Assumptions C78_parity.
Print Assumptions C78_rotation.
Print Assumptions C78_linear.
Print Assumptions C78_vacuum.
Print Assumptions C78_triangle.

Section C79.
Variable C : numClosedFieldType.
Variable exp : C -> C.
Variable pi : C.
Add Field Chu : (@C_field C).
Ltac cring := cnorm1 C; ring.

(** HusimiQ raises AttributeError for every density matrix, and for a ket of
    two or more levels ValueError unless the grid has one point or as many
    points along each side as the ket has levels. *)
Theorem C79_raises n (state : mat C) vec g :
  (square n state -> HusimiQ exp pi state vec g = Err Py.AttributeError) /\
  (isKet n state -> n <> 1%N -> size vec <> n -> size vec <> 1%N -> HusimiQ exp pi state vec g = Err Py.ValueError).
Proof.
split=> [[h1 h2]|[h1 h2] /eqP n1 /eqP s1 /eqP s2]; rewrite /HusimiQ h1 h2 ?eqxx // n1 /=.
by rewrite /qfuncPure h1 h2 /= (negbTE s1) (negbTE s2).
Qed.

(** On a grid of this size the value in column [j] is
    [g^2/4 |psi_j|^2/j! exp(-|a|^2)/pi]: only the amplitude of one level counts. *)
Theorem C79_value n (psi : mat C) vec g : isKet n psi -> n <> 1%N -> size vec = n ->
  exists Q, [/\ HusimiQ exp pi psi vec g = Ok Q, hasShape Q n n
    & forall i j, (i < n)%N -> (j < n)%N ->
        ent Q i j = g ^+ 2 / 4%:R * (exp (- `|phasePoint vec g i j| ^+ 2) / pi * (`|amp psi j| ^+ 2 / (j`!)%:R))].
Proof.
move=> [h1 h2] /eqP n1 sv; rewrite /HusimiQ h1 h2 n1 /= /qfuncPure h1 h2 /= sv eqxx /=; eexists; split; first by [].
  by split.
move=> i j hi hj; rewrite !ent_scalem !ent_mk ?(negbTE n1) //.
rewrite /polyval /= mul0r add0r.
rewrite [gridPoint _ _ _ _](_ : _ = phasePoint vec g i j); last by rewrite /gridPoint /phasePoint; cring.
have -> : `|ent psi j 0 / sqrtC (j`!)%:R| ^+ 2 = `|amp psi j| ^+ 2 / (j`!)%:R.
  by rewrite normrM exprMn normrV ?unitfE ?sqrtC_eq0 ?factC // exprVn [`|sqrtC _|]ger0_norm ?sqrtC_ge0 ?ler0n // sqrtCK.
rewrite -[(1 / 4%:R)]mul1r; move: (pi^-1) (_ / (j`!)%:R) (4%:R^-1) (exp _) => p q r s; cring.
Qed.

(** So it is not the Husimi function: for the vacuum of two levels the value at
    a point other than the origin is zero, and the Husimi function is positive
    there. *)
Theorem C79_documented_refuted g : isRealExp exp pi -> g != 0 ->
  exists psi Q vec, [/\ basis C 2 0 = Ok psi, normalised 2 psi, HusimiQ exp pi psi vec g = Ok Q
    & exists i j, [/\ (i < 2)%N, (j < 2)%N, ent Q i j = 0 & husimi exp pi 2 psi g (phasePoint vec g i j) != 0]].
Proof.
move=> [hp _ hx] g0; pose v := unit_vec C 2 0%N; have kv : isKet 2 v by split.
have [Q [eQ _ hQ]] := C79_value g kv (fun e : 2%N = 1%N => ltac:(by [])) (erefl : size [:: 0; 1] = 2%N).
exists v, Q, [:: 0; 1]; split=> //; first exact: basisE.
  by split=> //; rewrite /norm2 !big_ord_recl big_ord0 !amp_unit // /kd /= normr0 normr1 expr0n expr1n !addr0.
exists 0%N, 1%N; split=> //; first by rewrite hQ // amp_unit // /kd /= normr0 expr0n /= mul0r !mulr0.
rewrite /husimi; set a := phasePoint _ _ _ _.
rewrite !mulf_neq0 ?expf_neq0 ?invr_eq0 ?pnatr_eq0 ?(gt_eqF hp) //.
  by rewrite gt_eqF // hx // rpredN rpredX // normr_real.
all: rewrite normr_eq0 !big_ord_recl big_ord0 !amp_unit // /kd /= !mul0r !addr0 mul1r expr0 fact0 sqrtC1 divr1.
all: exact: oner_neq0.
Qed.
End C79.

(** The real exponential meets the hypothesis, and there are states to which
    the theorems apply. *)
Example C78_ex : isRealExp realExp (ofR PI) /\
  exists v rho : mat RC, [/\ basis RC 3 1 = Ok v, isKet 3 v, densityMatrix v = Ok rho & hermitian 3 rho].
Proof.
split; first exact: realExp_ok.
have kv : isKet 3 (unit_vec RC 3 1%N) by split.
exists (unit_vec RC 3 1%N), (proj 3 (unit_vec RC 3 1%N)); split=> //; [exact: basisE | exact: densityE | exact: proj_herm].
Qed.
Print Assumptions C79_raises.
Print Assumptions C79_value.
Print Assumptions C79_documented_refuted.
