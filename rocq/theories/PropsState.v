(** C44-C47: basis states, superpositions, density matrices, expectation values. *)
From mathcomp Require Import all_ssreflect all_algebra all_field.
From Verif Require Py.
From Verif Require Import MatModel MatLib OperModel StateModel MatSpec MatProofs CField OperProofs EvolProofs StateSpec StateProofs.
Set Implicit Arguments.
Unset Strict Implicit.
Unset Printing Implicit Defensive.
Import Order.TTheory GRing.Theory Num.Theory.
Local Open Scope ring_scope.

Notation AC := [numClosedFieldType of algC].

Section Props.
Variable C : numClosedFieldType.
Implicit Types (v u M rho A : mat C) (d : seq (nat * C)).
Add Field Ch : (@C_field C).
Ltac cring := cnorm1 C; ring.
Ltac cfield := cnorm1 C; field.

Lemma sum_iota n (f : nat -> C) : \sum_(j <- iota 0 n) f j = \sum_(j < n) f j.
Proof. by rewrite -(big_mkord xpredT f) /index_iota subn0. Qed.

Lemma targ_id (Ms : seq (mat C)) : [seq targMat a | a <- [seq TMat M | M <- Ms]] = Ms.
Proof. by elim: Ms => [//|M Ms IH] /=; rewrite IH. Qed.

(** ** C44 *)

(** [basis(n, i)] is the column with a single 1 at position [i], and its bra the row. *)
Theorem C44_basis n i : (i < n)%N ->
  ketIs n (fun k => delta C k i) (basis C n i)
  /\ exists b, basisBra C n i = Ok b /\ hasShape b 1 n
       /\ forall k, (k < n)%N -> ent b 0 k = delta C k i.
Proof.
move=> hi; rewrite /basisBra basisE //=; split.
  by exists (unit_vec C n i); split => //; split => // k hk; rewrite /amp ent_unit.
exists (trm (unit_vec C n i)); split => //; split => // k hk; by rewrite ent_trm ent_unit.
Qed.

Theorem C44_basis_range n i : (n <= i)%N ->
  basis C n i = Err Py.ValueError /\ basisBra C n i = Err Py.ValueError.
Proof. by move=> h; rewrite /basisBra basis_out. Qed.

(** The basis kets are orthonormal. *)
Theorem C44_orthonormal n i j bi bj : basis C n i = Ok bi -> basis C n j = Ok bj ->
  innerProd bi (Some bj) = Ok (delta C i j) /\ norm bi = Ok 1.
Proof.
case: (ltnP i n) => hi; last by rewrite basis_out.
case: (ltnP j n) => hj; last by rewrite (basis_out _ hj).
rewrite !basisE // => /(@Ok_inj _ _ _) <- /(@Ok_inj _ _ _) <-.
have E a b : (a < n)%N -> (b < n)%N -> overlap n (unit_vec C n b) (unit_vec C n a) = delta C a b.
  move=> ha hb; rewrite /overlap.
  under eq_bigr => k _ do rewrite !amp_unit // kd_real.
  by rewrite (sum_kd (kd C a) hb) /kd /delta eq_sym.
rewrite (@innerE _ n) // E //; split => //.
rewrite (@normKet _ n) // -overlapvv E // /delta eqxx.
by rewrite sqrtC1.
Qed.

(** Completeness: [completeBasis(n)] lists the [n] basis kets in order, every
    ket is the sum of its components along them, and the projectors returned by
    [completeBasisMat(n)] add up to the identity. *)
Theorem C44_complete n : exists bs Ps,
  [/\ completeBasis C n = Ok bs /\ size bs = n,
      forall i, (i < n)%N -> basis C n i = Ok (nth (zerom C 0 0) bs i),
      forall v, isKet n v -> forall k, (k < n)%N ->
        amp v k = \sum_(b <- bs) overlap n b v * amp b k,
      completeBasisMat (Some n) None = Ok Ps /\ size Ps = n
    & (0 < n)%N -> pysum Ps = Ok (PMat (idm C n))].
Proof.
exists [seq unit_vec C n i | i <- iota 0 n], [seq proj n (unit_vec C n i) | i <- iota 0 n].
split.
- by rewrite completeBasisE size_map size_iota.
- by move=> i hi; rewrite basisE // (nth_map 0%N) ?size_iota // nth_iota // add0n.
- move=> v hv k hk; rewrite big_map.
  have -> : \sum_(j <- iota 0 n) overlap n (unit_vec C n j) v * amp (unit_vec C n j) k
      = \sum_(j < n) kd C k j * amp v j.
    rewrite sum_iota; apply: eq_bigr => j _; rewrite amp_unit // /overlap.
    under eq_bigr => l _ do rewrite amp_unit // kd_real.
    by rewrite (sum_kd (amp v) (ltn_ord j)) mulrC /kd eq_sym.
  by rewrite (sum_kd (amp v) hk).
- rewrite /completeBasisMat completeBasisE /= size_map size_iota; split => //.
  rewrite (_ : [seq proj n (unit_vec C n i) | i <- iota 0 n] = map (proj n) [seq unit_vec C n i | i <- iota 0 n]); last by rewrite -map_comp.
  apply: (@mapr_ok _ _ _ _ (isKet n)); first by move=> v; apply: densityE.
  by move=> v /List.in_map_iff[i [<- _]].
- move=> n0.
  have [||S [e [sS eS]]] := @pysumE C n n [seq proj n (unit_vec C n i) | i <- iota 0 n].
  + by case: n n0.
  + by move=> M /List.in_map_iff[i [<- _]].
  rewrite e; congr (Ok (PMat _)); case: sS => rS cS.
  apply: mat_ext => //; rewrite rS cS => i j hi hj.
  rewrite eS big_map sum_iota ent_idm hi andbT.
  under eq_bigr => l _ do rewrite ent_mk // !amp_unit // kd_real.
  rewrite (eq_bigr (fun l : 'I_n => kd C i l * kd C j l)); last by move=> l _; rewrite /kd ![_ == val l]eq_sym.
  by rewrite (sum_kd (kd C j) hi).
Qed.

Lemma superPos_int n i pop : superPos n (@EInt C i) pop = basis C n i.
Proof.
rewrite /superPos /=; case: (ltnP i n) => hi; last by rewrite basis_out.
have [||||v [a [e [[kv nv] [na [ha c]]]]]] := @superPos_aux C n [:: (i, 1)].
- by [].
- by [].
- by rewrite /keysBelow /= hi.
- by rewrite big_cons big_nil normr1 expr1n addr0; apply/eqP; rewrite oner_eq0.
move: e; rewrite /= => ->; rewrite basisE //; congr Ok; case: kv => rv cv.
have a1 : a = 1.
  case: c => [[_ ->]|[n1 ->]].
    by rewrite big_cons big_nil normr1 expr1n addr0 sqrtC1 divr1.
  rewrite /weightOf big_cons big_nil /=.
  have -> : i = 0%N by move: hi; rewrite n1; case: i {ha}.
  by rewrite eqxx addr0 divr1.
apply: mat_ext => //; rewrite rv cv => k l hk; rewrite ltnS leqn0 => /eqP ->.
rewrite -/(amp v k) ha // a1 mul1r ent_unit // /weightOf big_cons big_nil /= eq_sym.
by case: eqP => _; rewrite ?addr0.
Qed.

(** A composite basis state is the basis state of the whole at the position of
    its digits in lexicographic order; a digit out of range raises ValueError. *)
Theorem C44_composite dims idx : dims <> [::] -> size dims = size idx ->
  compositeState dims [seq @EInt C i | i <- idx]
  = if isIdx dims idx then basis C (prodn dims) (enc dims idx) else Err Py.ValueError.
Proof.
move=> ne sz; rewrite /compositeState.
have -> : mapr (fun p => superPos p.1 p.2 true) (zip dims [seq @EInt C i | i <- idx])
    = mapr (fun p : nat * nat => basis C p.1 p.2) (zip dims idx).
  elim: dims idx {ne sz} => [|d ds IH] [|i us] //=.
  by rewrite superPos_int IH.
case: ifP => h; last first.
  move: h; rewrite /isIdx all2E sz eqxx /= => /negbT /allPn[p hp] np.
  rewrite (@mapr_err _ _ _ Py.ValueError) //.
    move=> q hq; case: (ltnP q.2 q.1) => hq2; [left|by right; rewrite basis_out].
    by rewrite basisE //; exists (unit_vec C q.1 q.2).
  by exists p => //; rewrite basis_out // leqNgt.
rewrite (@mapr_eq _ _ _ (fun p => unit_vec C p.1 p.2)) /=; last first.
  move=> p hp; apply: basisE; move: h; rewrite /isIdx all2E => /andP[_ /allP]; exact.
rewrite tensorProdE; last by case: dims idx ne sz {h} => [|d ds] [|i us].
rewrite targ_id tens_unit // basisE //; exact: enc_lt.
Qed.

(** Lists of different lengths are not rejected: [zip] silently drops the rest. *)
Theorem C44_composite_truncates dims (ex : seq (excit C)) :
  compositeState dims ex
  = compositeState (take (minn (size dims) (size ex)) dims) (take (minn (size dims) (size ex)) ex).
Proof.
rewrite /compositeState; congr (Py.bind (mapr _ _) _).
elim: dims ex => [|d ds IH] [|x xs] //=; rewrite ?min0n ?minn0 ?take0 //.
by rewrite minnSS /= -IH.
Qed.

(** ** C45 *)

(** A dictionary of non-negative weights gives a normalised ket with
    non-negative amplitudes whose populations are the weights over their sum. *)
Theorem C45_populations n d : isDict d -> keysBelow n d -> nonNegative d -> total d <> 0 ->
  exists v, superPos n (EDict d) true = Ok v /\ normalised n v /\
    forall i, (i < n)%N -> 0 <= amp v i /\ `|amp v i| ^+ 2 = weightOf d i / total d.
Proof.
move=> u k p nz.
pose d' := [seq (q.1, sqrtC q.2) | q <- d].
have ne : d <> [::] by move=> e; apply: nz; rewrite e /total big_nil.
have [||||v [a [e [nv [na [ha c]]]]]] := @superPos_aux C n d'.
- by rewrite /d'; case: d ne {u k p nz d'}.
- by rewrite /isDict /d' map_keys.
- by rewrite /keysBelow /d' map_keys.
- by rewrite sqrt_map_norm.
exists v; split; first by rewrite /superPos /= -/d' e.
split => // i hi.
have e1 : amp v i = a * sqrtC (weightOf d i) by rewrite ha // (weight_map _ u) ?sqrtC0.
have wi := weight_ge0 i p.
have tot : 0 <= total d by rewrite -(sqrt_map_norm p) sumr_ge0 // => q _; rewrite exprn_ge0.
case: c => [[a0 ea]|[n1 ea]].
  have a2 : a ^+ 2 = (total d)^-1 by rewrite ea sqrt_map_norm // div1r exprVn sqrtCK.
  have pos : 0 <= amp v i by rewrite e1 mulr_ge0 // sqrtC_ge0.
  by split => //; rewrite ger0_norm // e1 exprMn a2 sqrtCK mulrC.
have i0 : i = 0%N by move: hi; rewrite n1; case: (i).
have tw : total d = weightOf d 0.
  have := @sum_weights C n d id u k erefl; by rewrite n1 big_ord1 => ->.
have nzw : sqrtC (weightOf d 0) != 0 by rewrite sqrtC_eq0 -tw; apply/eqP.
have -> : amp v i = 1 by rewrite e1 i0 ea /d' (weight_map _ u) ?sqrtC0 // div1r mulVf.
by rewrite ler01 normr1 expr1n i0 tw divff // -tw; apply/eqP.
Qed.

(** With [populations=False] the amplitudes are the given numbers times a
    common factor, a positive one unless there is only one level. *)
Theorem C45_amplitudes n d : isDict d -> keysBelow n d -> \sum_(p <- d) `|p.2| ^+ 2 <> 0 ->
  exists v c, superPos n (EDict d) false = Ok v /\ normalised n v /\ c <> 0 /\
    (n <> 1%N -> 0 <= c /\ c ^+ 2 = 1 / \sum_(p <- d) `|p.2| ^+ 2) /\
    forall i, (i < n)%N -> amp v i = c * weightOf d i.
Proof.
move=> u k nz.
have ne : d <> [::] by move=> e; apply: nz; rewrite e big_nil.
have [v [a [e [nv [na [ha c]]]]]] := superPos_aux ne u k nz.
exists v, a; split; first by rewrite /superPos /= e.
split => //; split => //; split => // n1.
by case: c => [[a0 ea]|[]] //; split => //; rewrite ea !div1r exprVn sqrtCK.
Qed.

(** An iterable of levels gives equal populations; repetitions do not matter. *)
Theorem C45_list n l pop : l <> [::] -> all (fun i => i < n)%N l ->
  exists v, superPos n (@EList C l) pop = Ok v /\ normalised n v /\
    forall i, (i < n)%N -> 0 <= amp v i /\ `|amp v i| ^+ 2 = (i \in l)%:R / (size (undup l))%:R.
Proof.
move=> ne hl.
have [u [k o]] := dictOnes_spec C l.
have s0 : (size (undup l))%:R != 0 :> C.
  rewrite pnatr_eq0 size_eq0; apply/eqP => e; apply: ne.
  by case: l e {hl u k o} => // i l e; have := mem_undup (i :: l) i; rewrite e mem_head.
have [||||v [e h]] := @C45_populations n (dictOnes C l).
- by [].
- by apply/allP => i; rewrite k; move/allP: hl; apply.
- by apply/allP => x /mapP[q hq ->]; rewrite (o q hq) ler01.
- by rewrite /total (dictOnes_total l id) mulr1; apply/eqP.
exists v; split; last first.
  case: h => nv h; split => // i hi; have [p ->] := h i hi.
  by rewrite dictOnes_weight /total (dictOnes_total l id) mulr1.
rewrite -e /superPos /= (_ : [seq (p.1, sqrtC p.2) | p <- dictOnes C l] = dictOnes C l) //.
by rewrite -[RHS]map_id; apply/eq_in_map => -[i w] /o /= ->; rewrite sqrtC1.
Qed.

(** An int gives the basis ket. *)
Theorem C45_int n i pop : superPos n (@EInt C i) pop = basis C n i.
Proof. exact: superPos_int. Qed.

(** Nothing to superpose, a level out of range, only zero weights (numpy then
    returns nan, here ZeroDivisionError) and other types of argument. *)
Theorem C45_errors n : 
  (forall pop, superPos n (@EDict C [::]) pop = Err Py.AttributeError
            /\ superPos n (@EList C [::]) pop = Err Py.AttributeError
            /\ superPos n (@EOther C) pop = Err Py.TypeError)
  /\ (forall d pop, ~ keysBelow n d -> superPos n (EDict d) pop = Err Py.ValueError)
  /\ (forall d pop, d <> [::] -> keysBelow n d -> all (fun x : C => x == 0) [seq p.2 | p <- d] ->
        superPos n (EDict d) pop = Err Py.ZeroDivisionError).
Proof.
split; first by case.
split=> d pop.
  move=> nk; rewrite /superPos /=.
  have -> : [seq p.1 | p <- (if pop then [seq (p.1, sqrtC p.2) | p <- d] else d)] = [seq p.1 | p <- d].
    by case: pop; rewrite ?map_keys.
  rewrite (@mapr_err _ _ _ Py.ValueError) //.
    by move=> i _; case: (ltnP i n) => h; [left; exists (unit_vec C n i); rewrite basisE | right; rewrite basis_out].
  move/negP: nk => /allPn[i hi ni]; exists i => //; by rewrite basis_out // leqNgt.
move=> ne k z.
pose d' := if pop then [seq (p.1, sqrtC p.2) | p <- d] else d.
have k' : keysBelow n d' by rewrite /d' /keysBelow; case: (pop); rewrite ?map_keys.
have ne' : d' <> [::] by rewrite /d'; case: pop {d' k'}; case: d ne {k z}.
have w0 i : weightOf d' i = 0.
  rewrite /weightOf big_seq_cond big1 // => p /andP[hp _].
  move: hp; rewrite /d'; move/allP: z => z; case: pop {d' k' ne'}.
    by case/mapP => q hq -> /=; rewrite (eqP (z _ (map_f snd hq))) sqrtC0.
  by move=> hp; rewrite (eqP (z _ (map_f snd hp))).
have [S [e [hS aS]]] := super_sum ne' k'.
rewrite /superPos /= -/d'; move: e; case: (mapr _ _) => //= bs ->/=.
case: (hS) => rS cS; rewrite /normalise rS cS.
have n2 : norm2 n S = 0 by rewrite /norm2 big1 // => i _; rewrite aS // w0 normr0 expr0n.
case: eqP => [n1|_]; last by rewrite (normKet hS) /= n2 sqrtC0 eqxx.
rewrite trace_sq ?rS ?cS // n1 big_ord1 -/(amp S 0).
by rewrite /= n1 in hS aS *; rewrite aS // w0 eqxx.
Qed.

(** The composite state of several superpositions is normalised and its
    populations are the products of the single ones. *)
Theorem C45_composite dims (ds : seq (seq (nat * C))) : dims <> [::] -> size ds = size dims ->
  (forall k, (k < size dims)%N -> let d := nth [::] ds k in
     [/\ isDict d, keysBelow (nth 0%N dims k) d, nonNegative d & total d <> 0]) ->
  exists v, compositeState dims [seq EDict d | d <- ds] = Ok v /\ normalised (prodn dims) v /\
    forall idx, isIdx dims idx -> `|amp v (enc dims idx)| ^+ 2
      = \prod_(k < size dims) (weightOf (nth [::] ds k) (nth 0%N idx k) / total (nth [::] ds k)).
Proof.
move=> ne sz h.
have [vs [e [kl [n1 pp]]]] : exists vs, mapr (fun p => superPos p.1 p.2 true) (zip dims [seq EDict d | d <- ds]) = Ok vs
   /\ ketList dims vs /\ \prod_(p <- zip dims vs) norm2 p.1 p.2 = 1
   /\ forall idx, isIdx dims idx -> `|\prod_(p <- zip vs idx) amp p.1 p.2| ^+ 2
      = \prod_(k < size dims) (weightOf (nth [::] ds k) (nth 0%N idx k) / total (nth [::] ds k)).
  elim: dims ds sz h {ne} => [|n dims IH] [|d ds] //= sz h.
    by exists [::]; split => //; split => //; split => [|idx hi]; rewrite ?big_nil // ; case: idx hi => // _;
       rewrite big_nil big_ord0 normr1 expr1n.
  have [u k p nz] := h 0%N erefl.
  have [v [ev [[kv nv] av]]] := C45_populations u k p nz.
  have [||vs [e [kl [n1 pp]]]] := IH ds.
  - by case: sz.
  - by move=> j hj; exact: (h j.+1).
  exists (v :: vs); rewrite ev /= e /=; split => //; split => //; split.
    by rewrite big_cons /= nv n1 mulr1.
  case=> [//|i idx] /andP[hi hidx]; rewrite big_cons normrM exprMn big_ord_recl /=.
  have [_ ->] := av i hi; by rewrite pp.
have [t1 t2 t3] := tens_kets kl.
exists (tens vs); split.
  rewrite /compositeState e /= tensorProdE.
    by rewrite targ_id.
  by case: dims vs ne kl {e n1 pp sz h t1 t2 t3} => [|n dims] [|v vs].
split; first by split => //; rewrite t2.
by move=> idx hi; rewrite t3 // pp.
Qed.

(** ** C46 *)

Lemma posE n M : positive n M <-> square n M /\ psd n (ent M).
Proof. by []. Qed.
Lemma hermE n M : hermitian n M <-> square n M /\ herm n (ent M).
Proof. by []. Qed.

Lemma herm_ext n (f g : nat -> nat -> C) : (forall i j, (i < n)%N -> (j < n)%N -> f i j = g i j) ->
  herm n g -> herm n f.
Proof. by move=> e h i j hi hj; rewrite !e //; apply: h. Qed.
Lemma psd_ext n (f g : nat -> nat -> C) : (forall i j, (i < n)%N -> (j < n)%N -> f i j = g i j) ->
  psd n g -> psd n f.
Proof.
move=> e p v; rewrite (_ : bf n f v v = bf n g v v) //.
by apply: eq_bigr => i _; apply: eq_bigr => j _; rewrite e.
Qed.

Lemma psd_sum n (K : seq (C * mat C)) : (forall q, List.In q K -> 0 <= q.1) ->
  psd n (fun i j => \sum_(q <- K) q.1 * (amp q.2 i * (amp q.2 j)^*)).
Proof.
move=> h v.
have -> : bf n (fun i j => \sum_(q <- K) q.1 * (amp q.2 i * (amp q.2 j)^*)) v v
    = \sum_(q <- K) q.1 * `|\sum_(i < n) (v i)^* * amp q.2 i| ^+ 2.
  rewrite /bf (eq_bigr (fun i : 'I_n => \sum_(q <- K) \sum_(j < n) q.1 * (((v i)^* * amp q.2 i) * (v j * (amp q.2 j)^*)))); last first.
    move=> i _; rewrite exchange_big /=; apply: eq_bigr => j _.
    by rewrite big_distrr big_distrl /=; apply: eq_bigr => q _; cring.
  rewrite exchange_big /=; apply: eq_bigr => q _.
  rewrite normE rmorph_sum big_distrl big_distrr /=; apply: eq_bigr => i _.
  rewrite big_distrr big_distrr /=; apply: eq_bigr => j _.
  by rewrite rmorphM /= conjCK.
elim: K h => [|q K IH] h; first by rewrite big_nil.
rewrite big_cons addr_ge0 //; last by apply: IH => r hr; apply: h; right.
by rewrite mulr_ge0 ?exprn_ge0 //; apply: h; left.
Qed.

Lemma ent_proj n v i j : (i < n)%N -> (j < n)%N -> ent (proj n v) i j = amp v i * (amp v j)^*.
Proof. by move=> hi hj; rewrite ent_mk. Qed.

Lemma proj_psd n v : psd n (ent (proj n v)).
Proof.
apply: (psd_ext (g := fun i j => \sum_(q <- [:: (1, v)]) q.1 * (amp q.2 i * (amp q.2 j)^*))).
  by move=> i j hi hj; rewrite big_cons big_nil /= addr0 mul1r ent_proj.
by apply: psd_sum => q [<-|[]] /=; rewrite ler01.
Qed.
Lemma proj_herm n v : herm n (ent (proj n v)).
Proof. by move=> i j hi hj; rewrite !ent_proj // rmorphM /= conjCK mulrC. Qed.

Lemma purityE n M : square n M -> purity M = Ok (\sum_(i < n) \sum_(j < n) ent M i j * ent M j i).
Proof.
move=> [r c]; rewrite /purity mmulE ?r ?c //= trace_sq ?shapes ?r ?c //; congr Ok.
by apply: eq_bigr => i _; rewrite ent_mulm c.
Qed.

(** The density matrix of a ket is its projector: Hermitian, positive, with the
    squared norm as trace; it is pure. *)
Theorem C46_pure n v : isKet n v ->
  exists P, densityMatrix v = Ok P /\ projector n v P /\ hermitian n P /\ positive n P
    /\ trace P = norm2 n v /\ purity P = Ok (norm2 n v ^+ 2).
Proof.
move=> hv; exists (proj n v); rewrite (densityE hv); split => //; split.
  by split => // i j hi hj; rewrite ent_proj.
split; first by split; [|exact: proj_herm].
split; first by split; [|exact: proj_psd].
split.
  rewrite trace_sq //=; apply: eq_bigr => i _; by rewrite ent_proj // normE.
rewrite (@purityE n) //; congr Ok; rewrite expr2 big_distrl /=; apply: eq_bigr => i _.
rewrite big_distrr /=; apply: eq_bigr => j _; rewrite !ent_proj // !normE; cring.
Qed.

Lemma mixtureE n kets ws : kets <> [::] -> (forall k, List.In k kets -> isKet n k) -> size ws = size kets ->
  exists S, (do ps <- mapr (@densityMatrix C) kets; weightedSum ps (Some ws)) = Ok (PMat S) /\ square n S
    /\ forall i j, (i < n)%N -> (j < n)%N -> ent S i j = \sum_(q <- zip ws kets) q.1 * (amp q.2 i * (amp q.2 j)^*).
Proof.
move=> ne hk sz.
rewrite (@mapr_ok _ _ _ (proj n) (isKet n)) /= //; last by move=> v; apply: densityE.
have -> : zip ws [seq proj n k | k <- kets] = [seq (q.1, proj n q.2) | q <- zip ws kets].
  by elim: ws kets {ne hk sz} => [|w ws IH] [|k kets] //=; rewrite IH.
rewrite -map_comp.
have [||S [e [sS eS]]] := @pysumE C n n [seq scalem q.1 (proj n q.2) | q <- zip ws kets].
- by case: ws kets ne sz {hk} => [|w ws] [|k kets].
- by move=> M /List.in_map_iff[q [<- _]].
exists S; split => //; split => // i j hi hj.
by rewrite eS big_map; apply: eq_bigr => q _; rewrite ent_scalem ent_proj.
Qed.

Lemma zip_In1 (X Y : Type) (xs : seq X) (ys : seq Y) q : List.In q (zip xs ys) -> List.In q.1 xs.
Proof.
elim: xs ys => [|x xs IH] [|y ys] //= [<-|h]; [by left|right; exact: IH h].
Qed.

(** A weighted list of kets: Hermitian, positive, of trace one, and equal to the
    normalised mixture of the projectors. *)
Theorem C46_mixture n (kets : seq (mat C)) (ws : seq C) : (forall k, List.In k kets -> isKet n k) ->
  size ws = size kets -> (forall w, List.In w ws -> 0 <= w) ->
  let t := \sum_(q <- zip ws kets) q.1 * norm2 n q.2 in
  t <> 0 ->
  exists rho, densityMatrixList kets (Some ws) = Ok rho /\ isDensity n rho
    /\ forall i j, (i < n)%N -> (j < n)%N ->
         ent rho i j = (\sum_(q <- zip ws kets) q.1 * (amp q.2 i * (amp q.2 j)^*)) / t.
Proof.
move=> hk sz hw t nz.
have ne : kets <> [::].
  by move=> e; apply: nz; rewrite /t e; case: (ws) => [|? ?]; rewrite big_nil.
have [S [e [[rS cS] eS]]] := mixtureE ne hk sz.
have tS : trace S = t.
  rewrite trace_sq ?rS ?cS // /t (eq_bigr (fun i : 'I_n => \sum_(q <- zip ws kets) q.1 * `|amp q.2 i| ^+ 2)).
    by rewrite exchange_big /=; apply: eq_bigr => q _; rewrite -big_distrr.
  by move=> i _; rewrite eS //; apply: eq_bigr => q _; rewrite normE.
have t0 : 0 <= t.
  rewrite /t; move: hw; elim: (zip ws kets) (@zip_In1 _ _ ws kets) => [|q K IH] hz hw; first by rewrite big_nil.
  rewrite big_cons addr_ge0 //; last by apply: IH => // p hp; apply: hz; right.
  by rewrite mulr_ge0 ?norm2_ge0 //; apply: hw; apply: hz; left.
have psdS : psd n (fun i j => \sum_(q <- zip ws kets) q.1 * (amp q.2 i * (amp q.2 j)^*)).
  by apply: psd_sum => q /zip_In1 /hw.
have eT i j : (i < n)%N -> (j < n)%N -> ent (scalem (1 / t) S) i j
    = (\sum_(q <- zip ws kets) q.1 * (amp q.2 i * (amp q.2 j)^*)) / t.
  by move=> hi hj; rewrite ent_scalem eS // div1r mulrC.
have sq : square n (scalem (1 / t) S) by split; rewrite /= ?rS ?cS.
exists (scalem (1 / t) S); split.
  rewrite /densityMatrixList; case: (mapr _ _) e => //= ps -> /=.
  by rewrite rS cS eqxx /= tS; case: eqP.
have pT : psd n (ent (scalem (1 / t) S)).
  apply: (psd_ext eT) => v; rewrite (_ : bf _ _ _ _ = bf n (fun i j => \sum_(q <- zip ws kets) q.1 * (amp q.2 i * (amp q.2 j)^*)) v v / t).
    by rewrite divr_ge0.
  rewrite /bf big_distrl; apply: eq_bigr => i _; rewrite big_distrl; apply: eq_bigr => j _ /=.
  by move: (\sum_(q <- _) _) => X; cring.
split => //; split; [by split => //; exact: psd_herm | by [] |].
have := trace_scalem (1 / t) S; rewrite trace_sq ?shapes ?rS ?cS // tS => ->.
by rewrite div1r mulVf //; apply/eqP.
Qed.

(** Without probabilities all weights are 1. *)
Theorem C46_default_weights n (kets : seq (mat C)) : (forall k, List.In k kets -> isKet n k) ->
  densityMatrixList kets None = densityMatrixList kets (Some (nseq (size kets) 1)).
Proof.
move=> hk; rewrite /densityMatrixList.
rewrite (@mapr_ok _ _ _ (proj n) (isKet n)) /= //; last by move=> v; apply: densityE.
congr (Py.bind _ _); congr pysum.
by elim: kets {hk} => [//|k kets IH] /=; rewrite scale1m -IH.
Qed.

(** Weights and kets of different numbers are not rejected: the rest is dropped. *)
Theorem C46_truncates n (kets : seq (mat C)) ws : (forall k, List.In k kets -> isKet n k) ->
  let m := minn (size kets) (size ws) in
  densityMatrixList kets (Some ws) = densityMatrixList (take m kets) (Some (take m ws)).
Proof.
move=> hk /=; rewrite /densityMatrixList.
have hk' : forall k, List.In k (take (minn (size kets) (size ws)) kets) -> isKet n k.
  move=> k; elim: kets (minn _ _) hk => [|l kets IH] [|m] //= hk [<-|h]; first by apply: hk; left.
  by apply: IH h => q hq; apply: hk; right.
rewrite !(@mapr_ok _ _ _ (proj n) (isKet n)) /= //; try by move=> v; apply: densityE.
congr (Py.bind (pysum (map _ _)) _).
elim: kets ws {hk hk'} => [|k kets IH] [|w ws] //=; rewrite ?min0n ?minn0 ?take0 //.
by rewrite minnSS /= -IH.
Qed.

Theorem C46_empty ws : @densityMatrixList C [::] ws = Err Py.AttributeError.
Proof. by case: ws => [[|? ?]|]. Qed.

(** Every density matrix is a mixture of kets. *)
Theorem C46_every_density_matrix n rho : isDensity n rho ->
  exists kets, (forall k, List.In k kets -> isKet n k) /\ densityMatrixList kets None = Ok rho.
Proof.
case=> -[[r c] h] [_ p] t.
have [vs e] := psd_decomp h p.
pose ket (f : nat -> C) : mat C := mk n 1 (fun i _ => f i).
have hk : forall k, List.In k (map ket vs) -> isKet n k by move=> k /List.in_map_iff[f [<- _]].
exists (map ket vs); split => //.
have tt : \sum_(q <- zip (nseq (size (map ket vs)) (1 : C)) (map ket vs)) q.1 * norm2 n q.2 = 1.
  rewrite -[RHS]t (eq_bigr (fun i : 'I_n => \sum_(f <- vs) f i * (f i)^*)); last by move=> i _; rewrite e.
  rewrite exchange_big /=; elim: (vs) => [|f fs IH]; first by rewrite !big_nil.
  rewrite /= !big_cons IH /= mul1r; congr (_ + _).
  by apply: eq_bigr => i _; rewrite /amp ent_mk // normE.
have [||||rho' [e1 [[[[r1 c1] _] _ _] e3]]] := @C46_mixture n (map ket vs) (nseq (size (map ket vs)) 1).
- by [].
- by rewrite size_nseq.
- move=> w; elim: (size _) => [//|m IH] /= [<-|/IH] //; exact: ler01.
- by rewrite tt; apply/eqP; rewrite oner_eq0.
rewrite (C46_default_weights hk) e1; congr Ok; apply: mat_ext; rewrite ?r1 ?c1 ?r ?c // => i j hi hj.
rewrite e3 // tt divr1 e //; elim: (vs) => [|f fs IH]; first by rewrite !big_nil.
by rewrite /= !big_cons IH /= mul1r /amp !ent_mk.
Qed.

(** The purity of a density matrix is between [1/n] and 1, and 1 exactly for
    the projectors on normalised kets. *)
Theorem C46_purity n rho : isDensity n rho ->
  exists p, [/\ purity rho = Ok p, p <= 1, 1 / n%:R <= p
    & p = 1 <-> exists v, normalised n v /\ projector n v rho].
Proof.
move=> [[sq h] [_ p] t].
exists (\sum_(i < n) \sum_(j < n) ent rho i j * ent rho j i); rewrite (purityE sq).
have sqE (i j : 'I_n) : ent rho i j * ent rho j i = `|ent rho i j| ^+ 2 by rewrite (h j i) // normE.
have one : \sum_(i < n) \sum_(j < n) ent rho i i * ent rho j j = 1.
  transitivity ((\sum_(i < n) ent rho i i) * (\sum_(j < n) ent rho j j)); last by rewrite t mulr1.
  by rewrite big_distrl; apply: eq_bigr => i _; rewrite big_distrr.
have le (i j : 'I_n) : ent rho i j * ent rho j i <= ent rho i i * ent rho j j.
  by rewrite sqE; apply: (psd_cs h p).
split => //.
- by rewrite -one; apply: ler_sum => i _; apply: ler_sum => j _; apply: le.
- have n0 : (0 < n)%N.
    by case: n t {sq h p sqE one le} => // /esym/eqP; rewrite big_ord0 oner_eq0.
  rewrite ler_pdivr_mulr ?ltr0n //.
  have d (i : 'I_n) : `|ent rho i i| = ent rho i i by rewrite ger0_norm // (psd_diag p).
  have := @cauchy C n (fun _ => 1) (fun i => ent rho i i).
  have -> : \sum_(i < n) 1^* * ent rho i i = 1 by rewrite -[RHS]t; apply: eq_bigr => i _; rewrite rmorph1 mul1r.
  rewrite /= normr1 expr1n sumr_const card_ord => hc; apply: (le_trans hc); rewrite mulrC ler_wpmul2r ?ler0n //.
  apply: ler_sum => i _; rewrite (bigD1 i) //= sqE ler_addl sumr_ge0 // => j _.
  by rewrite sqE exprn_ge0.
- split=> [e|[v [[hv nv] [_ ev]]]]; last first.
    transitivity (norm2 n v * norm2 n v); last by rewrite nv mulr1.
    rewrite big_distrl; apply: eq_bigr => i _ /=; rewrite big_distrr /=; apply: eq_bigr => j _.
    by rewrite !ev // !normE; cring.
  have z : \sum_(i < n) \sum_(j < n) (ent rho i i * ent rho j j - `|ent rho i j| ^+ 2) == 0.
    suff -> : \sum_(i < n) \sum_(j < n) (ent rho i i * ent rho j j - `|ent rho i j| ^+ 2) = 1 - 1 by rewrite subrr.
    transitivity (\sum_(i < n) \sum_(j < n) ent rho i i * ent rho j j - \sum_(i < n) \sum_(j < n) ent rho i j * ent rho j i).
      rewrite -sumrB; apply: eq_bigr => i _; rewrite -sumrB.
      by apply: eq_bigr => j _; rewrite sqE.
    by rewrite one e.
  have E i j : (i < n)%N -> (j < n)%N -> `|ent rho i j| ^+ 2 = ent rho i i * ent rho j j.
    move=> hi hj; apply/esym/eqP; rewrite -subr_eq0.
    have nn (a b : 'I_n) : 0 <= ent rho a a * ent rho b b - `|ent rho a b| ^+ 2 by rewrite subr_ge0 -sqE.
    move: z; rewrite psumr_eq0 => [|a _]; last by apply: sumr_ge0.
    move/allP/(_ (Ordinal hi) (mem_index_enum _)) => /=; rewrite psumr_eq0 => [|b _]; last exact: (nn (Ordinal hi)).
    by move/allP/(_ (Ordinal hj) (mem_index_enum _)).
  have [k kn] : exists k : 'I_n, ent rho k k != 0.
    apply/existsP; apply: contraT; rewrite negb_exists => /forallP a.
    move: t; rewrite big1 => [/esym/eqP|i _]; first by rewrite oner_eq0.
    by apply/eqP; have := a i; rewrite negbK.
  have r1 := psd_rank1 h p (ltn_ord k) kn (fun i hi => E _ _ (ltn_ord k) hi).
  have kp : 0 <= ent rho k k by apply: psd_diag p _.
  pose s := sqrtC (ent rho k k).
  have s2 : s * s = ent rho k k by rewrite -expr2 sqrtCK.
  have sr : s^* = s by rewrite geC0_conj // sqrtC_ge0.
  have s0 : s != 0 by rewrite sqrtC_eq0.
  pose v : mat C := mk n 1 (fun i _ => ent rho i k / s).
  have av i : (i < n)%N -> amp v i = ent rho i k / s by move=> hi; rewrite /amp ent_mk.
  have pr i j : (i < n)%N -> (j < n)%N -> ent rho i j = amp v i * (amp v j)^*.
    move=> hi hj; rewrite !av // rmorphM /= fmorphV /= sr -(h k j) // r1 // -s2.
    by rewrite invfM; cring.
  exists v; split; last by split.
  split => //; rewrite -[RHS]t; apply: eq_bigr => i _; by rewrite pr // normE.
Qed.

(** ** C47 *)
Lemma ReIm (x : C) : (if 'Im x == 0 then 'Re x else x) = x.
Proof. by case: eqP => // e; rewrite {2}[x]Crect e mulr0 addr0. Qed.

Lemma expectE n A rho : square n A -> square n rho -> expectation A rho = Ok (traceProd n A rho).
Proof.
move=> [ra ca] [rr cr]; rewrite /expectation rr cr eqxx /= mmulE ?ca ?rr //= ReIm; congr Ok.
by rewrite trace_sq ?shapes ?ra ?cr //; apply: eq_bigr => i _; rewrite ent_mulm ca.
Qed.

Lemma expectKet n A v : n <> 1%N -> square n A -> isKet n v -> expectation A v = Ok (quadratic n A v).
Proof.
move=> n1 hA hv; case: (hv) => rv cv; have := @expectE n A (proj n v) hA (conj erefl erefl).
rewrite /expectation rv cv eqxx /=; case: eqP => [//|_]; rewrite (densityE hv) /= => ->; congr Ok.
apply: eq_bigr => i _; apply: eq_bigr => j _; rewrite ent_proj //; cring.
Qed.

(** A ket and its density matrix have the same expectation values, [<v|A|v>]. *)
Theorem C47_expectation n A v P : n <> 1%N -> square n A -> isKet n v -> densityMatrix v = Ok P ->
  expectation A v = Ok (quadratic n A v) /\ expectation A P = Ok (quadratic n A v).
Proof.
move=> n1 hA hv; rewrite (densityE hv) => /(@Ok_inj _ _ _) <-.
rewrite (expectKet n1 hA hv); split => //; rewrite (@expectE n) //; congr Ok.
apply: eq_bigr => i _; apply: eq_bigr => j _; rewrite ent_proj //; cring.
Qed.

(** For matrices it is [Tr(A rho)]; Hermitian operators have real expectation
    values, positive ones non-negative, and the identity the trace. *)
Theorem C47_expectation_real n A rho : square n A -> square n rho ->
  exists x, expectation A rho = Ok x /\ x = traceProd n A rho
    /\ (hermitian n A -> hermitian n rho -> x \is Num.real)
    /\ (positive n A -> positive n rho -> 0 <= x)
    /\ (isIdentity n A -> x = trace rho).
Proof.
move=> hA hr; exists (traceProd n A rho); rewrite (expectE hA hr); split => //; split => //.
split=> [[_ a] [_ r]|].
  rewrite CrealE /traceProd rmorph_sum; apply/eqP.
  transitivity (\sum_(i < n) \sum_(j < n) ent A j i * ent rho i j); last by rewrite exchange_big.
  apply: eq_bigr => i _; rewrite rmorph_sum /=; apply: eq_bigr => j _.
  by rewrite rmorphM /= -(a j i) // -(r i j).
split=> [[_ a] [_ r]|[_ e]].
  by have /andP[] := psd_mul (psd_herm a) a (psd_herm r) r.
case: hr => rr cr; rewrite trace_sq ?rr ?cr //; apply: eq_bigr => i _.
rewrite (eq_bigr (fun j : 'I_n => kd C i j * ent rho j i)); last first.
  by move=> j _; rewrite e // /delta /kd eq_sym.
exact: (sum_kd (fun j => ent rho j i) (ltn_ord i)).
Qed.

(** Kets: the expectation value of a Hermitian operator is real. *)
Theorem C47_expectation_ket_real n A v : n <> 1%N -> hermitian n A -> isKet n v ->
  exists x, expectation A v = Ok x /\ x \is Num.real.
Proof.
move=> n1 hA hv; exists (quadratic n A v); rewrite (expectKet n1 (proj1 hA) hv); split => //.
rewrite CrealE; apply/eqP; exact: (@bf_conj C n (ent A) (amp v) (amp v) (proj2 hA)).
Qed.

Lemma traceProj n u v : traceProd n (proj n u) (proj n v) = `|overlap n u v| ^+ 2.
Proof.
rewrite /traceProd normE -overlapC /overlap big_distrl /=.
rewrite exchange_big; apply: eq_bigr => i _ /=; rewrite big_distrr /=; apply: eq_bigr => j _.
rewrite !ent_proj //; cring.
Qed.

Lemma fidMat n M N : square n M -> square n N -> fidelityPure M N = Ok ('Re (traceProd n M N)).
Proof.
move=> [r c] [r' c']; rewrite /fidelityPure r c r' c' eqxx /= mmulE ?c ?r' //=; congr (Ok ('Re _)).
by rewrite trace_sq ?shapes ?r ?c' //; apply: eq_bigr => i _; rewrite ent_mulm c.
Qed.

(** However the states are given, the fidelity of two kets is [|<u|v>|^2]. *)
Theorem C47_fidelity_forms n u v P Q : n <> 1%N -> isKet n u -> isKet n v ->
  densityMatrix u = Ok P -> densityMatrix v = Ok Q ->
  let f := `|overlap n u v| ^+ 2 in
  [/\ fidelityPure u v = Ok f /\ fidelityPure v u = Ok f,
      fidelityPure P v = Ok f, fidelityPure u Q = Ok f,
      fidelityPure P Q = Ok f & fidelityPure Q P = Ok f].
Proof.
move=> n1 hu hv; rewrite (densityE hu) (densityE hv) => /(@Ok_inj _ _ _) <- /(@Ok_inj _ _ _) <- f.
have nn : (n == 1%N) = false by apply/eqP.
have fC : `|overlap n v u| ^+ 2 = f by rewrite overlapC norm_conjC.
have fr : 'Re f = f by apply/Creal_ReP; rewrite ger0_real // exprn_ge0.
case: (hu) (hv) => ru cu [rv cv].
have key a b : isKet n a -> isKet n b -> fidelityPure a b = Ok (`|overlap n a b| ^+ 2).
  move=> ha hb; case: (ha) (hb) => ra ca [rb cb].
  by rewrite /fidelityPure ra ca rb cb nn /= (innerE ha hb) /= overlapC norm_conjC.
have mm : fidelityPure (proj n u) (proj n v) = Ok f by rewrite (@fidMat n) // traceProj fr.
split => //.
- by rewrite !key // fC.
- by rewrite -mm /fidelityPure rv cv /= eqxx nn /= (densityE hv).
- by rewrite -mm /fidelityPure ru cu /= eqxx nn /= (densityE hu).
- by rewrite (@fidMat n) // traceProj fC fr.
Qed.

(** Between normalised kets it is in [0,1]; 1 exactly for kets equal up to a
    phase. *)
Theorem C47_fidelity_range n u v : n <> 1%N -> normalised n u -> normalised n v ->
  exists f, [/\ fidelityPure u v = Ok f, 0 <= f, f <= 1
    & f = 1 <-> exists c, `|c| = 1 /\ forall i, (i < n)%N -> amp u i = c * amp v i].
Proof.
move=> n1 [hu nu] [hv nv]; exists (`|overlap n u v| ^+ 2).
have [[-> _] _ _ _ _] := C47_fidelity_forms n1 hu hv (densityE hu) (densityE hv).
split => //.
- by rewrite exprn_ge0.
- have := @cauchy C n (amp u) (amp v); by rewrite -/(norm2 n u) -/(norm2 n v) nu nv mulr1.
split=> [e|[c [c1 e]]]; last first.
  have -> : overlap n u v = c^*.
    rewrite /overlap (eq_bigr (fun i : 'I_n => c^* * `|amp v i| ^+ 2)); last first.
      by move=> i _; rewrite e // rmorphM /= normCKC mulrA.
    by rewrite -big_distrr /= -/(norm2 n v) nv mulr1.
  by rewrite norm_conjC c1 expr1n.
pose c := overlap n v u.
have cc : c * c^* = 1 by rewrite -normE /c overlapC norm_conjC.
exists c; split.
  by apply/eqP; rewrite -(@eqr_expn2 _ 2) ?ler01 // expr1n normE cc.
have z : \sum_(i < n) `|amp u i - c * amp v i| ^+ 2 == 0.
  apply/eqP; transitivity (norm2 n u - c^* * overlap n v u - c * overlap n u v + c * c^* * norm2 n v).
    rewrite /norm2 /overlap !big_distrr /= -!sumrB -big_split /=; apply: eq_bigr => i _.
    rewrite !normE rmorphB rmorphM /=; cring.
  rewrite nu nv (overlapC n v u) -/c [c^* * c]mulrC cc; cring.
move=> i hi; move: z; rewrite psumr_eq0 => [|j _]; last by rewrite exprn_ge0.
move/allP/(_ (Ordinal hi) (mem_index_enum _)) => /=; rewrite expf_eq0 /= normr_eq0 subr_eq0.
by move/eqP.
Qed.

(** Between density matrices it is [Tr(rho sigma)], symmetric and in [0,1]. *)
Theorem C47_fidelity_mixed n rho sigma : isDensity n rho -> isDensity n sigma ->
  exists f, [/\ fidelityPure rho sigma = Ok f, fidelityPure sigma rho = Ok f,
    f = traceProd n rho sigma, 0 <= f & f <= 1].
Proof.
move=> [[sr hr] [_ pr] tr] [[ss hs] [_ ps] ts].
have /andP[b1 b2] := psd_mul hr pr hs ps.
have re : 'Re (traceProd n rho sigma) = traceProd n rho sigma.
  by apply/Creal_ReP; rewrite ger0_real.
have sym : traceProd n sigma rho = traceProd n rho sigma.
  by rewrite /traceProd exchange_big; apply: eq_bigr => i _; apply: eq_bigr => j _; rewrite mulrC.
exists (traceProd n rho sigma); split => //.
- by rewrite (@fidMat n) // re.
- by rewrite (@fidMat n) // sym re.
- by move: b2; rewrite tr ts mulr1.
Qed.

(** One level: the 1x1 ket is taken for a density matrix, and a normalised
    state can have fidelity -1 with itself. *)
Theorem C47_one_level_refuted :
  exists v, normalised 1 v /\ fidelityPure v v = Ok (-1) /\ expectation (idm C 1) v = Ok 'i.
Proof.
pose v : mat C := mk 1 1 (fun _ _ => 'i).
have av : ent v 0 0 = 'i by rewrite ent_mk.
exists v; split; first by split => //; rewrite /norm2 big_ord1 /amp av normCi expr1n.
rewrite (@fidMat 1) // (@expectE 1) // /traceProd !big_ord1 /= av ent_mk // mul1r; split => //.
by rewrite -expr2 sqrCi; congr Ok; apply/Creal_ReP; rewrite rpredN rpred1.
Qed.

End Props.

(** ** The hypotheses are met *)
Example C44_ex : isIdx [:: 2; 3]%N [:: 1; 2]%N = true /\ enc [:: 2; 3]%N [:: 1; 2]%N = 5%N
  /\ compositeState [:: 2; 3]%N [:: EInt 1; EInt 2] = basis AC 6 5.
Proof. by split => //; split => //; exact: (@C44_composite AC [:: 2; 3]%N [:: 1; 2]%N). Qed.

Definition dictEx : seq (nat * AC) := [:: (0%N, 1); (2%N, 3%:R)].
Example C45_ex : [/\ isDict dictEx, keysBelow 4 dictEx, nonNegative dictEx & total dictEx = 4%:R]
  /\ weightOf dictEx 2 = 3%:R /\ weightOf dictEx 1 = 0.
Proof.
split; first split => //.
- by rewrite /nonNegative /= ler01 ler0n.
- by rewrite /total !big_cons big_nil /= addr0 -[1]/(1%:R) -natrD.
by rewrite /weightOf !big_cons !big_nil /= addr0.
Qed.

(** A mixture of the two levels of a qubit. *)
Example C46_ex : let kets := [:: unit_vec AC 2 0%N; unit_vec AC 2 1%N] in
  (forall k, List.In k kets -> isKet 2 k)
  /\ \sum_(q <- zip [:: 1; 3%:R] kets) q.1 * norm2 2 q.2 = 4%:R.
Proof.
split=> [k /= [<-|[<-|[]]]|] //.
rewrite /= !big_cons big_nil /norm2 !big_ord_recl !big_ord0 /= /amp !ent_mk //=.
by rewrite !normr1 !normr0 !expr1n !expr0n /= !addr0 !add0r !mulr1 -[1]/(1%:R) -natrD.
Qed.

Example C46_ex_density : isDensity 2 (scalem (1 / 2%:R) (idm AC 2)).
Proof.
have E i j : ent (scalem (1 / 2%:R) (idm AC 2)) i j = 1 / 2%:R * ((i == j) && (i < 2)%N)%:R.
  by rewrite ent_scalem ent_idm.
split.
- split => // i j hi hj; rewrite !E !hi !hj !andbT rmorphM /= conjC_nat eq_sym.
  by rewrite geC0_conj // divr_ge0 ?ler01 ?ler0n.
- split => // v; rewrite !big_ord_recl !big_ord0 /= !E /= !mulr1 !mulr0 !mul0r !addr0 !add0r.
  by rewrite addr_ge0 // mulrAC mulr_ge0 ?divr_ge0 ?ler01 ?ler0n // mulrC mul_conjC_ge0.
- rewrite !big_ord_recl big_ord0 /= !E /= !mulr1 addr0 -mulrDl.
  by rewrite -[1 + 1]/(2%:R) divff // pnatr_eq0.
Qed.

Example C47_ex : normalised 2 (unit_vec AC 2 1%N) /\ hermitian 2 (idm AC 2).
Proof.
split; first split => //.
  by rewrite /norm2 !big_ord_recl big_ord0 /amp !ent_mk //= normr0 normr1 expr0n expr1n add0r addr0.
by split => // i j hi hj; rewrite !ent_idm hi hj !andbT conjC_nat eq_sym.
Qed.

Print Assumptions C44_basis.
Print Assumptions C44_basis_range.
Print Assumptions C44_orthonormal.
Print Assumptions C44_complete.
Print Assumptions C44_composite.
Print Assumptions C44_composite_truncates.
Print Assumptions C45_populations.
Print Assumptions C45_amplitudes.
Print Assumptions C45_list.
Print Assumptions C45_int.
Print Assumptions C45_errors.
Print Assumptions C45_composite.
Print Assumptions C46_pure.
Print Assumptions C46_mixture.
Print Assumptions C46_default_weights.
Print Assumptions C46_truncates.
Print Assumptions C46_empty.
Print Assumptions C46_every_density_matrix.
Print Assumptions C46_purity.
Print Assumptions C47_expectation.
Print Assumptions C47_expectation_real.
Print Assumptions C47_expectation_ket_real.
Print Assumptions C47_fidelity_forms.
Print Assumptions C47_fidelity_range.
Print Assumptions C47_fidelity_mixed.
Print Assumptions C47_one_level_refuted.
