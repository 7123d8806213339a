(** C77: eigenvector statistics. *)
From mathcomp Require Import all_ssreflect all_algebra all_field.
From Verif Require Py.
From Verif Require Import MatModel OperModel StateModel EvolModel EigModel MatLib MatSpec MatProofs StateSpec StateProofs EvolSpec EvolProofs ExpmInst.
From Verif Require Import MeasSpec PropsState PropsMeas EigSpec EigInst Spectral SpecProofs PropsEigs.
Set Implicit Arguments.
Unset Strict Implicit.
Unset Printing Implicit Defensive.
Import Order.TTheory GRing.Theory Num.Theory.
Local Open Scope ring_scope.

Section Stat.
Variable C : numClosedFieldType.

Lemma flat_size (f : nat -> seq C) m n a : (forall i, size (f i) = m) ->
  size (flatten [seq f i | i <- iota a n]) = (n * m)%N.
Proof. by move=> h; elim: n a => [|n IH] a //=; rewrite size_cat h IH mulSn. Qed.
Lemma flat_nth (f : nat -> seq C) m n a i j : (forall i, size (f i) = m) -> (i < n)%N -> (j < m)%N ->
  (flatten [seq f i | i <- iota a n])`_(i * m + j) = (f (a + i)%N)`_j.
Proof.
move=> h; elim: n a i => [//|n IH] a [|i] hi hj /=; rewrite nth_cat h.
  by rewrite mul0n add0n hj addn0.
by rewrite mulSn -addnA ltnNge leq_addr /= addKn IH // addnS.
Qed.

(** Sums over consecutive pairs. *)
Lemma pair_sum (f : nat -> C) h : \sum_(j < h) (f (2 * j)%N + f (2 * j).+1) = \sum_(i < 2 * h) f i.
Proof.
elim: h => [|h IH]; first by rewrite muln0 !big_ord0.
by rewrite big_ord_recr /= IH mulnS /= !big_ord_recr /= addrA.
Qed.
Lemma half_sum (f : nat -> C) n : \sum_(j < n %/ 2) (f (2 * j)%N + f (2 * j).+1) =
  \sum_(i < n) f i - (if odd n then f n.-1 else 0).
Proof.
rewrite pair_sum divn2 mul2n; have := odd_double_half n; case: (odd n) => e; last by rewrite -[in RHS]e subr0.
by rewrite -[in RHS]e big_ord_recr /= addrK.
Qed.

Lemma statE (V : mat C) n : square n V -> eigStatEig V false =
  Ok (flatten [seq [seq `|ent V i j| ^+ 2 | j <- iota 0 n] | i <- iota 0 n]).
Proof.
move=> [h1 h2]; rewrite /eigStatEig /flatten2 h1 h2 /range !subn0 /= map_flatten -map_comp; congr (Ok (flatten _)).
by apply: eq_map => i /=; rewrite -map_comp.
Qed.
Lemma sympE (V : mat C) n : square n V -> eigsStatEigSymp V =
  Ok (flatten [seq [seq `|ent V (2 * k) i| ^+ 2 + `|ent V (2 * k).+1 i| ^+ 2 | k <- iota 0 (n %/ 2)] | i <- iota 0 n]).
Proof.
move=> [h1 h2]; rewrite /eigsStatEigSymp h1 h2 /range !subn0.
rewrite (@mapr_eq _ _ _ (fun i => [seq `|ent V (2 * k) i| ^+ 2 + `|ent V (2 * k).+1 i| ^+ 2 | k <- iota 0 (n %/ 2)])) //.
move=> i; rewrite mem_iota add0n /= => hi; by apply: mapr_eq => k _; rewrite hi.
Qed.

(** [eigStat] of an [n]-by-[n] matrix lists the squared moduli of all
    components of all eigenvectors, the first component of each eigenvector
    first.  They are not negative, those of one eigenvector add up to one. *)
Theorem C77_components eig n (M : mat C) : eigSpec eig -> square n M ->
  exists vals V l,
    [/\ eig M = Ok (vals, V) /\ (forall k, (k < n)%N -> eigenPair M vals`_k (column V k)),
        eigStat eig M false = Ok l /\ eigStatEig V false = Ok l,
        size l = (n * n)%N,
        forall i k, (i < n)%N -> (k < n)%N -> l`_(i * n + k) = `|amp (column V k) i| ^+ 2
      & (forall k, (k < n)%N -> \sum_(i < n) l`_(i * n + k) = 1) /\ \sum_(x <- l) x = n%:R].
Proof.
move=> hg sM; have [vals [V [e1 sp sV hv]]] := hg n M sM; have [rM cM] := sM; have [rV cV] := sV.
have hs i : size [seq `|ent V i j| ^+ 2 | j <- iota 0 n] = n by rewrite size_map size_iota.
pose l := flatten [seq [seq `|ent V i j| ^+ 2 | j <- iota 0 n] | i <- iota 0 n].
have hl i k : (i < n)%N -> (k < n)%N -> l`_(i * n + k) = `|amp (column V k) i| ^+ 2.
  move=> hi hk; rewrite (flat_nth 0 hs) // (nth_map 0%N) ?size_iota // nth_iota // /amp ent_mk ?rV //.
have hk k : (k < n)%N -> \sum_(i < n) l`_(i * n + k) = 1.
  move=> hk; have [[_ <-] _] := hv k hk; apply: eq_bigr => i _; exact: hl.
exists vals, V, l; split=> //.
- by split=> // k /hv[].
- by rewrite (statE sV); split=> //; rewrite /eigStat /linaEig rM cM eqxx /= e1 /= -[RHS](statE sV).
- exact: flat_size.
- split=> //; transitivity (\sum_(i < n) \sum_(k < n) l`_(i * n + k)).
    have io (F : nat -> C) : \sum_(i <- iota 0 n) F i = \sum_(i < n) F i.
      by rewrite -(big_mkord xpredT) /index_iota subn0.
    rewrite big_flatten big_map io; apply: eq_bigr => i _; rewrite big_map io; apply: eq_bigr => k _.
    by rewrite hl // /amp ent_mk ?rV.
  by rewrite exchange_big /= (eq_bigr (fun _ => 1)) => [|k _]; rewrite ?hk // sumr_const card_ord.
Qed.

(** With [symp] the components of each eigenvector are added in pairs, one
    eigenvector after the other: [n/2] numbers for each.  They add up to one for
    even [n]; for odd [n] the last component is left out. *)
Theorem C77_symplectic eig n (M : mat C) : eigSpec eig -> square n M ->
  exists vals V l,
    [/\ eig M = Ok (vals, V) /\ (forall k, (k < n)%N -> eigenPair M vals`_k (column V k)),
        eigStat eig M true = Ok l /\ eigStatEig V true = Ok l,
        size l = (n * (n %/ 2))%N,
        forall k j, (k < n)%N -> (j < n %/ 2)%N ->
          l`_(k * (n %/ 2) + j) = `|amp (column V k) (2 * j)| ^+ 2 + `|amp (column V k) (2 * j).+1| ^+ 2
      & forall k, (k < n)%N -> \sum_(j < n %/ 2) l`_(k * (n %/ 2) + j) =
          if odd n then 1 - `|amp (column V k) n.-1| ^+ 2 else 1].
Proof.
move=> hg sM; have [vals [V [e1 sp sV hv]]] := hg n M sM; have [rM cM] := sM; have [rV cV] := sV.
pose f i := [seq `|ent V (2 * k) i| ^+ 2 + `|ent V (2 * k).+1 i| ^+ 2 | k <- iota 0 (n %/ 2)].
have hs i : size (f i) = (n %/ 2)%N by rewrite size_map size_iota.
have h2 j : (j < n %/ 2)%N -> (2 * j < n)%N /\ ((2 * j).+1 < n)%N.
  move=> hj; have h : ((2 * j).+1 < n)%N.
    by rewrite -[X in (_ < X)%N](odd_double_half n) -divn2 -mul2n; apply: ltn_addl; rewrite -[(2 * j).+2]/(2 + 2 * j)%N -mulnS leq_mul2l.
  by split=> //; apply: ltnW.
have hl k j : (k < n)%N -> (j < n %/ 2)%N -> (flatten [seq f i | i <- iota 0 n])`_(k * (n %/ 2) + j) =
    `|amp (column V k) (2 * j)| ^+ 2 + `|amp (column V k) (2 * j).+1| ^+ 2.
  move=> hk hj; rewrite (flat_nth 0 hs) // (nth_map 0%N) ?size_iota // nth_iota //.
  by have [a b] := h2 j hj; rewrite /amp !ent_mk ?rV.
exists vals, V, (flatten [seq f i | i <- iota 0 n]); split=> //.
- by split=> // k /hv[].
- by rewrite -(sympE sV); split=> //; rewrite /eigStat /eigStatSymp /linaEig rM cM eqxx /= e1.
- exact: flat_size.
move=> k hk; rewrite (eq_bigr (fun j : 'I_(n %/ 2) => `|amp (column V k) (2 * j)| ^+ 2 + `|amp (column V k) (2 * j).+1| ^+ 2)); last first.
  by move=> j _; apply: hl.
rewrite (half_sum (fun i => `|amp (column V k) i| ^+ 2)); have [[_ nv] _] := hv k hk.
by rewrite -/(norm2 n (column V k)) nv; case: ifP => // _; rewrite subr0.
Qed.

(** In an orthonormal basis, [eigVecStatKet] returns the squared moduli of the
    overlaps, which add up to the squared norm of the ket, and, if [symp], their
    sums in pairs, where an odd last one is left out. *)
Theorem C77_ket n bs (v : mat C) symp : n <> 1%N -> orthonormalBasis n bs -> isKet n v ->
  exists reg sym,
    [/\ eigVecStatKet bs v symp = Ok (reg, sym),
        size reg = n /\ (forall i, (i < n)%N -> reg`_i = `|overlap n (nth (zerom C 0 0) bs i) v| ^+ 2),
        \sum_(x <- reg) x = norm2 n v
      & if symp
        then [/\ size sym = (n %/ 2)%N, forall k, (k < n %/ 2)%N -> sym`_k = reg`_(2 * k) + reg`_(2 * k).+1
                & \sum_(x <- sym) x = norm2 n v - (if odd n then reg`_n.-1 else 0)]
        else sym = [::]].
Proof.
move=> n1 hb hv; have [sz kb _] := hb.
pose reg := [seq `|overlap n b v| ^+ 2 | b <- bs].
have eR : mapr (fun state => do v0 <- mat2Vec state; fidelityPure v0 v) bs = Ok reg.
  apply: (@mapr_ok _ _ _ _ (isKet n)) => [b hb'|b].
    rewrite mat2VecE /= (_ : vecm b = b) ?(@fidKets _ n) //.
    case: hb' => r c; apply: mat_ext => //=; first by rewrite r c muln1.
    rewrite r c muln1 => i j hi hj; have -> : j = 0%N by case: j hj.
    by rewrite ent_vecm r c muln1 hi modn_small // divn_small.
  by case/(In_nth_seq (zerom C 0 0)) => k hk <-; apply: kb; rewrite -sz.
have szr : size reg = n by rewrite size_map.
have hr i : (i < n)%N -> reg`_i = `|overlap n (nth (zerom C 0 0) bs i) v| ^+ 2.
  by move=> hi; rewrite (nth_map (zerom C 0 0)) ?sz.
have sr : \sum_(i < n) reg`_i = norm2 n v.
  by rewrite -(parseval v hb); apply: eq_bigr => i _; apply: hr.
rewrite /eigVecStatKet eR /= szr /range subn0.
exists reg; eexists; split; first by [].
- by [].
- by rewrite (big_nth 0) big_mkord szr.
case: symp => //; rewrite size_map size_iota; split=> //.
  by move=> k hk; rewrite (nth_map 0%N) ?size_iota // nth_iota // addrC.
rewrite big_map -sr -(half_sum (fun i => reg`_i)) -(big_mkord xpredT (fun j => reg`_(2 * j) + reg`_(2 * j).+1)).
by rewrite /index_iota subn0; apply: eq_bigr => k _; rewrite addrC.
Qed.

(** In the computational basis they are the populations. *)
Theorem C77_populations n bs (v : mat C) symp : n <> 1%N -> completeBasis C n = Ok bs -> isKet n v ->
  exists sym, eigVecStatKet bs v symp = Ok ([seq `|amp v i| ^+ 2 | i <- iota 0 n], sym).
Proof.
move=> n1 eb hv; have [reg [sym [e [sz hr] _ _]]] := C77_ket symp n1 (computational_basis eb) hv.
exists sym; rewrite e; congr (Ok (_, _)); apply: (@eq_from_nth _ 0); rewrite sz ?size_map ?size_iota // => i hi.
rewrite hr // (nth_map 0%N) ?size_iota // nth_iota // add0n.
move: eb; rewrite completeBasisE => -[<-]; rewrite (nth_map 0%N) ?size_iota // nth_iota // add0n.
rewrite /overlap (bigD1 (Ordinal hi)) //= amp_unit // /kd eqxx conjC1 mul1r big1 ?addr0 // => j ne.
rewrite amp_unit // /kd; case: eqP => [e'|_]; first by case/eqP: ne; apply: val_inj.
by rewrite conjC0 mul0r.
Qed.

(** The docstring's example returns a pair of lists, not the one list
    [[0, 1]] it announces. *)
Theorem C77_documented_refuted : exists bs (v : mat C),
  [/\ basis C 2 1 = Ok v, completeBasis C 2 = Ok bs & eigVecStatKet bs v true = Ok ([:: 0; 1], [:: 1])].
Proof.
exists [seq unit_vec C 2 i | i <- iota 0 2], (unit_vec C 2 1%N); split; [exact: basisE | exact: completeBasisE |].
have n21 : 2%N <> 1%N by [].
have kv : isKet 2 (unit_vec C 2 1%N) by split.
have [reg [sym [e [sz _] _ [s1 s2 _]]]] := C77_ket true (n := 2) n21 (computational_basis (completeBasisE C 2)) kv.
have [sym' e'] := C77_populations true (n := 2) n21 (completeBasisE C 2) kv.
move: e; rewrite e' => /(@Ok_inj _ _ _) [er es].
rewrite es; congr (Ok (_, _)).
  by rewrite /= !amp_unit // /kd /= normr0 normr1 expr0n expr1n.
case: sym s1 s2 {es} => [|x [|y sym]] // _ /(_ 0%N isT) /= ->; rewrite -er /= !amp_unit // /kd /=.
by rewrite normr0 normr1 expr0n expr1n add0r.
Qed.

End Stat.

Local Notation AC := [numClosedFieldType of algC].
(** A matrix that is not Hermitian, and a ket with three nonzero amplitudes. *)
Example C77_ex : exists (eig : mat AC -> result (seq AC * mat AC)) (M : mat AC) (bs : seq (mat AC)) (v : mat AC),
  [/\ eigSpec eig, square 3 M /\ ent M 0 1 = 5%:R, completeBasis AC 3 = Ok bs, orthonormalBasis 3 bs
    & isKet 3 v /\ amp v 2 = 3%:R].
Proof.
exists (@eigI AC), (mk 3 3 (fun i j => if (i == 0%N) && (j == 1%N) then 5%:R else 0)),
  [seq unit_vec AC 3 i | i <- iota 0 3], (mk 3 1 (fun i _ => i.+1%:R)).
split; [exact: eigI_ok | by split; rewrite ?ent_mk | exact: completeBasisE | exact: computational_basis (completeBasisE _ _) |].
by split=> //; rewrite /amp ent_mk.
Qed.
Print Assumptions C77_components.
Print Assumptions C77_symplectic.
Print Assumptions C77_ket.
Print Assumptions C77_populations.
Print Assumptions C77_documented_refuted.
