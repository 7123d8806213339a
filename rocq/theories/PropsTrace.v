(** C36: the partial trace. *)
From mathcomp Require Import all_ssreflect all_algebra all_field.
From Verif Require Py.
From Verif Require Import MatModel MatLib OperModel StateModel TraceModel MatSpec MatProofs CField EvolProofs StateSpec StateProofs PropsState TraceSpec TraceProofs.
Set Implicit Arguments.
Unset Strict Implicit.
Unset Printing Implicit Defensive.
Import Order.TTheory GRing.Theory Num.Theory.
Local Open Scope ring_scope.

Notation AC := [numClosedFieldType of algC].

Section Props.
Variable C : numClosedFieldType.
Implicit Types (psi rho R A B : mat C) (dims keep : seq nat).

(** Entries of the result: the digits of the kept subsystems, in increasing order of the
    subsystems, summed over equal digits of all the others. *)
Theorem C36_entries keep dims rho : validKeep dims keep -> square (prodn dims) rho ->
  exists R, partialTrace (map Posz keep) dims rho = Ok R /\ isPartialTrace (keepMask (size dims) keep) dims rho R.
Proof. exact: partialTraceE. Qed.

(** That specification has only one solution. *)
Theorem C36_specification m dims rho R R' : isPartialTrace m dims rho R -> isPartialTrace m dims rho R' -> R = R'.
Proof. exact: isPT_unique. Qed.

Lemma ptE keep dims rho R : validKeep dims keep -> square (prodn dims) rho ->
  partialTrace (map Posz keep) dims rho = Ok R -> isPartialTrace (keepMask (size dims) keep) dims rho R.
Proof. by move=> vk sq; have [R' [-> h]] := partialTraceE vk sq => /(@Ok_inj _ _ _) <-. Qed.

Lemma In_mem (T : eqType) (x : T) s : List.In x s -> x \in s.
Proof. by elim: s => [//|y s IH] /= [->|/IH h]; rewrite inE ?eqxx // h orbT. Qed.

Lemma kept_ne keep dims (Ms : seq (mat C)) : validKeep dims keep -> size Ms = size dims ->
  map (@TMat C) (onKept (keepMask (size dims) keep) Ms) <> [::].
Proof.
move=> [nk _ /allP h] sM /(congr1 size); rewrite !size_map size_mask ?size_keepMask ?sM //= => z.
case: keep nk h z => [//|k ks] _ h z.
have hk : (k < size dims)%N by apply: h; rewrite inE eqxx.
have : (0 < count id (keepMask (size dims) (k :: ks)))%N.
  by rewrite -has_count; apply/hasP; exists true => //; apply/mapP; exists k; rewrite ?mem_iota // inE eqxx.
by rewrite z.
Qed.

(** A ket is replaced by its density matrix, whatever the other arguments. *)
Theorem C36_ket (keep : seq int) dims psi n : n <> 1%N -> isKet n psi ->
  exists rho, densityMatrix psi = Ok rho /\ partialTrace keep dims psi = partialTrace keep dims rho.
Proof.
move=> n1 hk; exists (proj n psi); split; first exact: densityE.
have := densityE hk; rewrite /densityMatrix /outerProd => e.
case: (hk) => r c; rewrite /partialTrace r c.
by case: eqP => [//|_] /=; rewrite e /= eqxx.
Qed.

Theorem C36_trace keep dims rho R : validKeep dims keep -> square (prodn dims) rho ->
  partialTrace (map Posz keep) dims rho = Ok R -> trace R = trace rho.
Proof.
move=> vk sq e; have h := ptE vk sq e; case: (h) => -[r c] _; case: (sq) => r' c'.
by rewrite !trace_sq ?r ?c ?r' ?c' // (isPT_trace _ h) ?size_keepMask.
Qed.

(** The reduced state of a density matrix is a density matrix; positivity and hermiticity
    are also kept separately. *)
Theorem C36_density keep dims rho R : validKeep dims keep ->
  partialTrace (map Posz keep) dims rho = Ok R ->
  let n := prodn dims in let k := prodn (onKept (keepMask (size dims) keep) dims) in
  (hermitian n rho -> hermitian k R) /\ (positive n rho -> positive k R) /\ (isDensity n rho -> isDensity k R).
Proof.
move=> vk e n k; have sz := size_keepMask (size dims) keep.
have H : hermitian n rho -> hermitian k R.
  move=> /hermE[sq h]; have p := ptE vk sq e; apply/hermE; split; first by case: p.
  exact: (isPT_herm sz h p).
have P : positive n rho -> positive k R.
  move=> /posE[sq h]; have p := ptE vk sq e; apply/posE; split; first by case: p.
  exact: (isPT_psd sz h p).
do 2 (split => //); move=> [h1 h2 h3]; split; auto.
have [sq _] := h1; by rewrite (isPT_trace sz (ptE vk sq e)).
Qed.

(** A product of square matrices: the kept factors, times the traces of the others. *)
Theorem C36_product keep dims (Ms : seq (mat C)) rho :
  validKeep dims keep -> map (@rows C) Ms = dims -> map (@cols C) Ms = dims ->
  tensorProd (map (@TMat C) Ms) = Ok rho ->
  exists K, tensorProd (map (@TMat C) (onKept (keepMask (size dims) keep) Ms)) = Ok K /\
    partialTrace (map Posz keep) dims rho
    = Ok (scalem (\prod_(M <- onRest (keepMask (size dims) keep) Ms) trace M) K).
Proof.
move=> vk er ec /tensorProd_ok[ne ->]; rewrite targ_id.
have sz := size_keepMask (size dims) keep.
have p := isPT_prod sz er ec.
have sq : square (prodn dims) (tens Ms) by split; rewrite ?rows_tens ?cols_tens ?er ?ec.
exists (tens (onKept (keepMask (size dims) keep) Ms)); split.
  by rewrite tensorProdE ?targ_id //; apply: kept_ne vk _; rewrite -er size_map.
have [R [e h]] := partialTraceE vk sq.
by rewrite e (isPT_unique h p).
Qed.

Theorem C36_linear keep dims rho rho' R R' S (a : C) : validKeep dims keep ->
  square (prodn dims) rho -> square (prodn dims) rho' ->
  partialTrace (map Posz keep) dims rho = Ok R -> partialTrace (map Posz keep) dims rho' = Ok R' ->
  madd rho rho' = Ok S ->
  partialTrace (map Posz keep) dims S = madd R R' /\
  partialTrace (map Posz keep) dims (scalem a rho) = Ok (scalem a R).
Proof.
move=> vk sq sq' e e' /madd_inv[_ _ ->].
have h := ptE vk sq e; have h' := ptE vk sq' e'.
case: (sq) => r c; case: (sq') => r' c'; case: (h) => -[rR cR] _; case: (h') => -[rR' cR'] _.
split.
  have [X [-> hX]] := partialTraceE vk (conj r c : square (prodn dims) (addm rho rho')).
  by rewrite maddE ?rR ?rR' ?cR ?cR' //; congr Ok; apply: isPT_unique hX (isPT_add sq sq' h h').
have [X [-> hX]] := partialTraceE vk (conj r c : square (prodn dims) (scalem a rho)).
by congr Ok; apply: isPT_unique hX (isPT_scale a h).
Qed.

(** The order of the keep list does not matter. *)
Theorem C36_order keep keep' dims rho : validKeep dims keep -> uniq keep' -> keep =i keep' ->
  square (prodn dims) rho ->
  partialTrace (map Posz keep') dims rho = partialTrace (map Posz keep) dims rho.
Proof.
move=> vk u' e sq; case: (vk) => ne u h.
have vk' : validKeep dims keep'.
  split=> //; first by move=> z; case: (keep) ne e => [//|k ks] _ /(_ k); rewrite z inE eqxx.
  by apply/allP => i; rewrite -e => hi; move/allP: h; apply.
have [R [-> p]] := partialTraceE vk sq; have [R' [-> p']] := partialTraceE vk' sq.
congr Ok; apply: isPT_unique p' _; rewrite (_ : keepMask (size dims) keep' = keepMask (size dims) keep) //.
by apply: eq_map => i; rewrite e.
Qed.

(** Keeping everything changes nothing. *)
Theorem C36_keep_all keep dims rho : dims <> [::] -> perm_eq keep (iota 0 (size dims)) -> square (prodn dims) rho ->
  partialTrace (map Posz keep) dims rho = Ok rho.
Proof.
move=> nd p sq.
have vk : validKeep dims keep.
  split; first by move=> z; move: (perm_size p); rewrite z size_iota; case: (dims) nd.
    by rewrite (perm_uniq p) iota_uniq.
  by apply/allP => i; rewrite (perm_mem p) mem_iota.
have [R [-> h]] := partialTraceE vk sq; congr Ok; apply: isPT_unique h _.
have -> : keepMask (size dims) keep = nseq (size dims) true.
  rewrite -[in RHS](size_keepMask (size dims) keep); apply/all_pred1P/allP => b /mapP[i hi ->].
  by rewrite /= (perm_mem p) hi.
have k : onKept (nseq (size dims) true) dims = dims by rewrite /onKept mask_true.
have r : onRest (nseq (size dims) true) dims = [::] by rewrite /onRest map_nseq mask_false.
have w u : size u = size dims -> weave (nseq (size dims) true) u [::] = u.
  by elim: (dims) u => [|d ds IH] [|i u] //= [sz]; rewrite IH.
split; rewrite k // => u v hu hv; rewrite r /= !w //; exact: isIdx_size.
Qed.

(** Operators on the kept subsystems have the same expectation value in the reduced state,
    whether or not they are products. *)
Theorem C36_operators keep dims rho R A B : validKeep dims keep -> square (prodn dims) rho ->
  partialTrace (map Posz keep) dims rho = Ok R -> actsOnKept (keepMask (size dims) keep) dims A B ->
  expectation B rho = expectation A R /\ Py.is_ok (expectation A R).
Proof.
move=> vk sq e h; have p := ptE vk sq e; case: (p) => sR _; case: (h) => sA [sB _].
by rewrite (expectE sB sq) (expectE sA sR) (isPT_dual (size_keepMask _ _) p h).
Qed.

(** In particular a tensor product with ints (identities) at the other subsystems. *)
Theorem C36_local_operators keep dims rho R (As : seq (mat C)) :
  validKeep dims keep -> square (prodn dims) rho -> map (@rows C) As = dims -> map (@cols C) As = dims ->
  partialTrace (map Posz keep) dims rho = Ok R ->
  exists A B,
    tensorProd (map (@TMat C) (onKept (keepMask (size dims) keep) As)) = Ok A /\
    tensorProd [seq (if i \in keep then TMat (nth (zerom C 0 0) As i) else TInt (nth 0%N dims i)) | i <- iota 0 (size dims)] = Ok B /\
    expectation B rho = expectation A R /\ Py.is_ok (expectation A R).
Proof.
move=> vk sq er ec e; have sz := size_keepMask (size dims) keep.
have sA : size As = size dims by rewrite -er size_map.
have hk : (0 < size dims)%N.
  by case: (vk) => nk _; case: (keep) nk => [//|k ks] _ /= /andP[+ _]; apply: leq_ltn_trans.
pose Bs := [seq (if i \in keep then nth (zerom C 0 0) As i else idm C (nth 0%N dims i)) | i <- iota 0 (size dims)].
have eB : [seq targMat a | a <- [seq (if i \in keep then TMat (nth (zerom C 0 0) As i) else TInt (nth 0%N dims i)) | i <- iota 0 (size dims)]] = Bs.
  by rewrite -map_comp; apply/eq_map => i /=; case: ifP.
have kB : onKept (keepMask (size dims) keep) Bs = onKept (keepMask (size dims) keep) As.
  rewrite /onKept /keepMask /Bs -map_mask -filter_mask.
  rewrite -[As in RHS](mkseq_nth (zerom C 0 0)) sA /mkseq -map_mask -filter_mask.
  by apply/eq_in_map => i; rewrite mem_filter => /andP[/= -> _].
have rA i : (i < size dims)%N -> rows (nth (zerom C 0 0) As i) = nth 0%N dims i.
  by move=> hi; rewrite -er (nth_map (zerom C 0 0)) ?sA.
have cA i : (i < size dims)%N -> cols (nth (zerom C 0 0) As i) = nth 0%N dims i.
  by move=> hi; rewrite -ec (nth_map (zerom C 0 0)) ?sA.
have rB : map (@rows C) Bs = dims.
  rewrite -map_comp -[RHS](mkseq_nth 0%N); apply/eq_in_map => i; rewrite mem_iota add0n /= => hi.
  by case: ifP => // _; rewrite rA.
have cB : map (@cols C) Bs = dims.
  rewrite -map_comp -[RHS](mkseq_nth 0%N); apply/eq_in_map => i; rewrite mem_iota add0n /= => hi.
  by case: ifP => // _; rewrite cA.
have act : actsOnKept (keepMask (size dims) keep) dims (tens (onKept (keepMask (size dims) keep) As)) (tens Bs).
  rewrite -kB; apply: actsOn_tens => // X.
  rewrite /onRest /keepMask /Bs -map_comp -map_mask -filter_mask.
  move=> /List.in_map_iff [i [<- /In_mem hi]].
  by move: hi; rewrite mem_filter => /andP[/= /negbTE ->].
exists (tens (onKept (keepMask (size dims) keep) As)), (tens Bs).
split; first by rewrite tensorProdE ?targ_id //; apply: kept_ne vk _.
split; first by rewrite tensorProdE ?eB // => /(congr1 size); rewrite size_map size_iota; case: (size dims) hk.
exact: C36_operators e act.
Qed.

(** Tracing out in two stages is tracing out at once. *)
Theorem C36_stages keep keep2 dims rho R : validKeep dims keep -> square (prodn dims) rho ->
  let kept := sort leq keep in
  validKeep [seq nth 0%N dims k | k <- kept] keep2 ->
  partialTrace (map Posz keep) dims rho = Ok R ->
  partialTrace (map Posz keep2) [seq nth 0%N dims k | k <- kept] R
  = partialTrace (map Posz [seq nth 0%N kept k | k <- keep2]) dims rho.
Proof.
move=> vk sq kept vk2 e; have p := ptE vk sq e; case: (vk) => _ u h.
have ek : kept = keptList (size dims) keep by rewrite (keptList_sort u h).
have ed : [seq nth 0%N dims k | k <- kept] = onKept (keepMask (size dims) keep) dims.
  by rewrite ek -dims_mask.
have sk : size kept = size (onKept (keepMask (size dims) keep) dims) by rewrite -ed size_map.
case: (p) => sR _; rewrite ed in vk2 *.
have [R2 [-> p2]] := partialTraceE vk2 sR.
case: (vk2) => ne2 u2; rewrite -sk => /allP h2.
have uk : uniq kept by rewrite sort_uniq.
have vk3 : validKeep dims [seq nth 0%N kept k | k <- keep2].
  split; first by case: (keep2) ne2.
    by rewrite map_inj_in_uniq // => a b ha hb /eqP; rewrite nth_uniq ?h2 // => /eqP.
  by apply/allP => i /mapP[k /h2 hk ->]; move/allP: h; apply; rewrite -(mem_sort leq) mem_nth.
have [R3 [-> p3]] := partialTraceE vk3 sq; congr Ok.
apply: isPT_unique p3; rewrite ek keepMask_comb -?ek; last by apply/allP.
by apply: isPT_stages p _; rewrite ?size_keepMask // sk.
Qed.

(** The two parts of a pure state have the same purity. *)
Theorem C36_purities keep keep' dims psi R R' : prodn dims <> 1%N -> isKet (prodn dims) psi ->
  validKeep dims keep -> validKeep dims keep' -> (forall i, (i < size dims)%N -> (i \in keep') = (i \notin keep)) ->
  partialTrace (map Posz keep) dims psi = Ok R -> partialTrace (map Posz keep') dims psi = Ok R' ->
  purity R = purity R' /\ Py.is_ok (purity R).
Proof.
move=> n1 hk vk vk' co.
have [rho [hr ->]] := C36_ket (map Posz keep) dims n1 hk.
have [rho' [hr' ->]] := C36_ket (map Posz keep') dims n1 hk.
move: hr hr'; rewrite (densityE hk) => /(@Ok_inj _ _ _) <- /(@Ok_inj _ _ _) <- e e'.
have sq : square (prodn dims) (proj (prodn dims) psi) by [].
have p := ptE vk sq e; have p' := ptE vk' sq e'.
have em : keepMask (size dims) keep' = map negb (keepMask (size dims) keep).
  by rewrite /keepMask -map_comp; apply/eq_in_map => i; rewrite mem_iota /= => hi; rewrite co.
rewrite em in p'.
case: (p) => sR _; case: (p') => sR' _; rewrite (purityE sR) (purityE sR'); split => //; congr Ok.
apply: (isPT_purities (psi := amp psi) _ _ p p'); first by rewrite size_keepMask.
by move=> i j hi hj; rewrite ent_proj.
Qed.

(** ** Wrong arguments *)
Definition inRange dims (k : int) : bool :=
  match k with Posz k => k < size dims | Negz k => k < size dims end%N.

Theorem C36_errors (keep : seq int) dims rho : rows rho = cols rho ->
  partialTrace [::] dims rho = Err Py.IndexError /\
  (~~ all (inRange dims) keep -> partialTrace keep dims rho = Err Py.IndexError) /\
  (keep <> [::] -> all (inRange dims) keep -> (prodn dims * prodn dims)%N <> (rows rho * rows rho)%N ->
   partialTrace keep dims rho = Err Py.ValueError).
Proof.
move=> sq; rewrite /partialTrace sq eqxx /=; split=> //; split.
  move=> h; have -> // : npIndex dims keep = Err Py.IndexError.
  case: keep h => [//|k ks] h; rewrite /npIndex; apply: mapr_err.
    by case=> k' _; case: (ltnP k' (size dims)) => _; [left; eexists|right| left; eexists|right].
  move/allPn: h => [x hx hr]; exists x => //; case: x hx hr => k' _ /=; by case: ifP.
move=> ne h d; have [ks ->] : exists ks, npIndex dims keep = Ok ks.
  rewrite /npIndex; case: keep ne h => [//|k0 ks] _ /allP h.
  exists [seq (match z with Posz k => nth 0%N dims k | Negz k => nth 0%N dims (size dims - k.+1) end) | z <- k0 :: ks].
  by apply: mapr_eq => z /h; case: z => k /= ->.
rewrite /= /toNd npprodE prodn_cat sq; case: eqP => [e|_]; last by []; by case: d.
Qed.

Definition valOf dims (z : int) : nat :=
  match z with Posz k => nth 0%N dims k | Negz k => nth 0%N dims (size dims - k.+1) end.
Definition nonneg (keep : seq int) : seq nat := pmap (fun z => if z is Posz k then Some k else None) keep.

Lemma mem_nonneg (i : nat) (keep : seq int) : (i \in nonneg keep) = (Posz i \in keep).
Proof.
elim: keep => [//|z zs IH]; rewrite inE -IH; case: z => k //=; rewrite /nonneg /= ?inE //.
Qed.

Lemma prod_undup dims (keep : seq int) : all (fun d => 1 < d)%N dims -> all (inRange dims) keep ->
  let f := prodn (map (valOf dims) keep) in let g := prodn (map (nth 0%N dims) (undup (nonneg keep))) in
  (0 < g <= f)%N /\ (has (fun z => z < 0) keep || ~~ uniq keep -> (g < f)%N).
Proof.
move=> /allP h2 hr f g.
have v1 z : inRange dims z -> (1 < valOf dims z)%N.
  case: z => k /= hk; apply: h2; apply: mem_nth => //.
  by rewrite -subn_gt0 subKn.
rewrite {}/f {}/g; elim: keep hr => [//|z zs IH] /= /andP[hz /IH[/andP[g0 gf] st]] {IH}.
have hv := v1 _ hz; rewrite ?foldr_muln.
set f := prodn (map (valOf dims) zs) in gf st *; set g := prodn _ in g0 gf st.
have f0 : (0 < f)%N := leq_trans g0 gf.
have lt : (g < valOf dims z * f)%N by apply: leq_ltn_trans gf _; rewrite -{1}[f]mul1n ltn_pmul2r.
case: z hz hv lt => k hk hv lt /=.
- rewrite /nonneg /=; rewrite -/(nonneg zs) mem_nonneg; case: ifP => hm /=.
    by rewrite -/g g0 (ltnW lt).
  rewrite ?foldr_muln -/g muln_gt0 g0 andbT (ltn_trans _ hv) //= leq_pmul2l ?(ltn_trans _ hv) //.
  by split => // /st; rewrite ltn_pmul2l // (ltn_trans _ hv).
by rewrite /nonneg /= -/(nonneg zs) -/g g0 (ltnW lt).
Qed.

(** With subsystems of two or more levels, a keep list with a repeated or a negative entry
    is rejected, although its entries are indices numpy accepts. *)
Theorem C36_bad_keep (keep : seq int) dims rho : square (prodn dims) rho ->
  all (fun d => 1 < d)%N dims -> keep <> [::] -> all (inRange dims) keep ->
  has (fun z => z < 0) keep || ~~ uniq keep ->
  partialTrace keep dims rho = Err Py.ValueError.
Proof.
move=> sq d2 ne hr bad; case: (sq) => r c.
have [A [eA [sA _]]] := @einsumE C dims (nonneg keep) rho sq.
rewrite /partialTrace r c eqxx /=.
have -> : npIndex dims keep = Ok (map (valOf dims) keep).
  rewrite /npIndex; case: keep ne hr {bad eA sA} => [//|k0 ks] _ /allP h.
  by apply: mapr_eq => z /h; case: z => k /= ->.
rewrite /=; rewrite (_ : [seq (if Posz i \in map Posz (nonneg keep) then size dims + i else i)%N | i <- range 0 (size dims)]
  = [seq (if Posz i \in keep then size dims + i else i)%N | i <- range 0 (size dims)]) in eA; last first.
  by apply/eq_map => i; rewrite mem_Posz mem_nonneg.
move: eA; case: (toNd _ _) => //= rA -> /=; rewrite /fromNd sA npprodE.
have [g0 lt] := prod_undup d2 hr.
have eg : prodn (map (nth 0%N dims) (undup (nonneg keep))) = prodn (onKept (keepMask (size dims) (nonneg keep)) dims).
  rewrite -npprodE mask_prod ?undup_uniq //; last first.
    by apply/allP => i; rewrite mem_undup mem_nonneg => /(allP hr).
  by congr (prodn (onKept _ _)); apply/eq_map => i; rewrite mem_undup.
rewrite npprodE prodn_cat -eg; case: eqP => // e.
have := ltn_mul (lt bad) (lt bad); by rewrite e ltnn.
Qed.

(** Negative indices, which numpy counts from the end, are therefore not the same as the
    subsystems they name. *)
Theorem C36_negative_refuted : exists (dims : seq nat) rho (k : nat),
  (k < size dims)%N /\ Py.is_ok (partialTrace [:: Posz k] dims rho) /\
  npIndex dims [:: Posz k] = npIndex dims [:: (Posz k - Posz (size dims))%R] /\
  partialTrace [:: (Posz k - Posz (size dims))%R] dims rho = Err Py.ValueError.
Proof.
by exists [:: 2; 3]%N, (idm C 6), 1%N.
Qed.

End Props.

(** ** Instances *)

(** Three subsystems with 2, 3 and 2 levels, the last and the first kept. *)
Example C36_ex_keep : validKeep [:: 2; 3; 2]%N [:: 2; 0]%N
  /\ keepMask 3 [:: 2; 0]%N = [:: true; false; true]
  /\ weave [:: true; false; true] [:: 1; 0]%N [:: 2]%N = [:: 1; 2; 0]%N.
Proof. by []. Qed.

(** The state [|00> + |11>] of two qubits: its reduced state has equal weights and no
    coherence, and both parts have purity [Sum = 1^2 + 1^2] (not normalised). *)
Definition exBell : mat AC := mk 4 1 (fun i _ => (i == 0%N)%:R + (i == 3%N)%:R).
Example C36_ex_bell : exists R, partialTrace [:: Posz 1] [:: 2; 2]%N exBell = Ok R /\
  ent R 0 0 = 1 /\ ent R 1 1 = 1 /\ ent R 0 1 = 0 /\ purity R = Ok 2%:R.
Proof.
have hk : isKet 4 exBell by [].
have n4 : (4 <> 1)%N by [].
have [rho [hr ->]] := C36_ket [:: Posz 1] [:: 2; 2]%N n4 hk.
move: hr; rewrite (densityE hk) => /(@Ok_inj _ _ _) <-.
have vk : validKeep [:: 2; 2]%N [:: 1]%N by [].
have sq : square (prodn [:: 2; 2]%N) (proj 4 exBell) by [].
have [R [-> [sR h]]] := C36_entries vk sq; exists R; split => //.
have E i j : (i < 2)%N -> (j < 2)%N -> ent R i j = (i == j)%:R.
  move=> hi hj; have := h [:: i] [:: j]; rewrite /keepMask /= !muln1 !addn0 => ->; last 2 first.
  - by rewrite /isIdx /= hi.
  - by rewrite /isIdx /= hj.
  rewrite !big_ord_recl big_ord0 /= /onRest /=.
  by case: i hi => [|[|]] // _; case: j hj => [|[|]] // _; rewrite !ent_mk //= /amp !ent_mk //= ?eqxx;
     rewrite ?(addr0, add0r, mul0r, mulr0, mul1r, conjC0, conjC1, rmorph1).
rewrite !E //; do 3 (split => //).
rewrite (purityE sR); congr Ok; rewrite /= !big_ord_recl !big_ord0 /= !E //= ?eqxx.
by rewrite ?(addr0, add0r, mul0r, mulr0, mul1r) -mulr2n.
Qed.

(** A product of two matrices, the second kept. *)
Example C36_ex_product : exists Ms : seq (mat AC),
  validKeep [:: 2; 3]%N [:: 1]%N /\ map (@rows AC) Ms = [:: 2; 3]%N /\ map (@cols AC) Ms = [:: 2; 3]%N
  /\ Py.is_ok (tensorProd (map (@TMat AC) Ms)).
Proof. by exists [:: idm AC 2; idm AC 3]. Qed.

(** An operator on the last of two subsystems. *)
Example C36_ex_acts : actsOnKept (keepMask 2 [:: 1]%N) [:: 2; 3]%N
  (tens [:: mk 3 3 (fun i j => (i + j)%:R) : mat AC]) (tens [:: idm AC 2; mk 3 3 (fun i j => (i + j)%:R)]).
Proof.
have := @actsOn_tens AC (keepMask 2 [:: 1]%N) [:: 2; 3]%N erefl [:: idm AC 2; mk 3 3 (fun i j => (i + j)%:R)] erefl erefl.
by apply => A [<-|[]].
Qed.

(** Two stages: of subsystems 0, 2, 3 of four, keep the second, number 2. *)
Example C36_ex_stages : validKeep [:: 2; 3; 4; 5]%N [:: 3; 0; 2]%N
  /\ [seq nth 0%N [:: 2; 3; 4; 5]%N k | k <- sort leq [:: 3; 0; 2]%N] = [:: 2; 4; 5]%N
  /\ validKeep [:: 2; 4; 5]%N [:: 1]%N /\ [seq nth 0%N (sort leq [:: 3; 0; 2]%N) k | k <- [:: 1]%N] = [:: 2]%N.
Proof. by []. Qed.

(** Complementary keep lists. *)
Example C36_ex_parts : validKeep [:: 2; 2; 3]%N [:: 0; 2]%N /\ validKeep [:: 2; 2; 3]%N [:: 1]%N
  /\ (forall i, (i < 3)%N -> (i \in [:: 1]%N) = (i \notin [:: 0; 2]%N)).
Proof. by split=> //; split=> //; case=> [|[|[|]]]. Qed.

Example C36_ex_bad : all (inRange [:: 2; 3]%N) [:: 0; -1; 1; 1] /\ ~~ uniq [:: 0; -1; 1; 1 : int].
Proof. by []. Qed.

Print Assumptions C36_entries.
Print Assumptions C36_specification.
Print Assumptions C36_ket.
Print Assumptions C36_trace.
Print Assumptions C36_density.
Print Assumptions C36_product.
Print Assumptions C36_linear.
Print Assumptions C36_order.
Print Assumptions C36_keep_all.
Print Assumptions C36_operators.
Print Assumptions C36_local_operators.
Print Assumptions C36_stages.
Print Assumptions C36_purities.
Print Assumptions C36_errors.
Print Assumptions C36_bad_keep.
Print Assumptions C36_negative_refuted.
