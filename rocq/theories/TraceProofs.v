(** Proofs about partialTrace. *)
From mathcomp Require Import all_ssreflect all_algebra.
From Verif Require Py.
From Verif Require Import MatModel MatLib OperModel StateModel TraceModel CField MatSpec TraceSpec MatProofs EvolProofs StateSpec StateProofs.
Set Implicit Arguments.
Unset Strict Implicit.
Unset Printing Implicit Defensive.
Import Order.TTheory GRing.Theory Num.Theory.
Local Open Scope ring_scope.

Local Arguments isIdx : simpl never.

(** ** Index tuples *)
Lemma npprodE ds : npprod ds = prodn ds. Proof. by []. Qed.

Lemma ravelE sh idx : ravel sh idx = enc sh idx.
Proof. by elim: sh idx => [|d ds IH] [|i us] //=; rewrite IH. Qed.

Lemma isIdx_size dims idx : isIdx dims idx -> size idx = size dims.
Proof. by rewrite /isIdx all2E => /andP[/eqP ->]. Qed.

Lemma isIdx_cons d ds i us : isIdx (d :: ds) (i :: us) = (i < d)%N && isIdx ds us.
Proof. by []. Qed.

Lemma isIdx_cat ds es us vs : isIdx ds us -> isIdx es vs -> isIdx (ds ++ es) (us ++ vs).
Proof.
by elim: ds us => [|d ds IH] [|i us] //; rewrite isIdx_cons => /andP[hi hus] hv; rewrite !cat_cons isIdx_cons hi IH.
Qed.

Lemma enc_cat ds es us vs : size us = size ds -> enc (ds ++ es) (us ++ vs) = (enc ds us * prodn es + enc es vs)%N.
Proof.
elim: ds us => [|d ds IH] [|i us] //= [sz]; rewrite IH // !foldr_muln.
by rewrite prodn_cat mulnDl mulnA addnA.
Qed.

Lemma size_tuples sh : size (tuples sh) = prodn sh.
Proof.
elim: sh => [//|d ds IH] /=; rewrite size_allpairs IH.
by rewrite /range size_iota subn0.
Qed.

Lemma nth_tuples sh idx : isIdx sh idx -> nth [::] (tuples sh) (enc sh idx) = idx.
Proof.
elim: sh idx => [|d ds IH] [|i us] //; rewrite isIdx_cons => /andP[hi hus] /=.
have lt := enc_lt hus.
have H : forall a n, (a <= i < a + n)%N ->
    nth [::] [seq j :: t | j <- iota a n, t <- tuples ds] ((i - a) * prodn ds + enc ds us) = i :: us.
  move=> a n; elim: n a => [|n IHn] a /=; first by rewrite addn0 ltnNge => /andP[->].
  move=> /andP[h1 h2]; rewrite nth_cat size_map size_tuples.
  case: (ltngtP a i) h1 => // [h1 _|-> _].
    rewrite ltnNge (leq_trans _ (leq_addr _ _)) ?leq_pmull ?subn_gt0 //=.
    rewrite -(IHn a.+1); last by rewrite h1 -addSnnS in h2 *.
    by congr nth; rewrite (_ : i - a = (i - a.+1).+1)%N ?mulSn -?addnA ?addKn // subnS prednK // subn_gt0.
  by rewrite subnn mul0n add0n lt (nth_map [::]) ?size_tuples // IH.
rewrite foldr_muln /range subn0 -{1}[i]subn0; exact: H.
Qed.

Section TP.
Variable C : numClosedFieldType.
Implicit Types (M rho R A : mat C).
Add Field Cf : (@C_field C).
Ltac cring := cnorm1 C; ring.

Lemma sum_tuples sh (f : seq nat -> C) : \sum_(s <- tuples sh) f s = sumDigits sh f.
Proof.
elim: sh f => [|d ds IH] f /=; first by rewrite big_seq1.
rewrite big_allpairs_dep /= /range subn0 -(big_mkord xpredT (fun i => sumDigits ds (fun t => f (i :: t)))) /index_iota subn0.
by apply: eq_bigr => i _; rewrite IH.
Qed.

Lemma sumDigits_ext dims (f g : seq nat -> C) : (forall t, isIdx dims t -> f t = g t) -> sumDigits dims f = sumDigits dims g.
Proof.
elim: dims f g => [|d ds IH] f g h /=; first by apply: h.
by apply: eq_bigr => i _; apply: IH => t ht; apply: h; rewrite isIdx_cons ltn_ord.
Qed.

(** ** Labels *)
Lemma weaveE (P : pred nat) s u t : uniq s ->
  [seq (if P i then nth 0%N u (index i [seq j <- s | P j]) else nth 0%N t (index i [seq j <- s | ~~ P j])) | i <- s]
  = weave (map P s) u t.
Proof.
elim: s u t => [//|x s IH] u t /= /andP[nx us]; case px: (P x) => /=.
  rewrite eqxx nth0; congr cons; rewrite -(IH (behead u) t us); apply/eq_in_map => i hi.
  have /negbTE ne : x != i by apply: contraNneq nx => ->.
  by rewrite ne; case: (P i) => //; rewrite nth_behead.
rewrite eqxx nth0; congr cons; rewrite -(IH u (behead t) us); apply/eq_in_map => i hi.
have /negbTE ne : x != i by apply: contraNneq nx => ->.
by rewrite ne; case: (P i) => //; rewrite nth_behead.
Qed.

Lemma size_weave m u t : size (weave m u t) = size m.
Proof. by elim: m u t => [//|[] m IH] u t /=; rewrite IH. Qed.

Lemma weave_idx m dims u t : size m = size dims -> isIdx (onKept m dims) u -> isIdx (onRest m dims) t ->
  isIdx dims (weave m u t).
Proof.
rewrite /onKept /onRest; elim: m dims u t => [|b m IH] [|d ds] u t // [sz].
case: b => /=.
  by case: u => [|i u] //; rewrite !isIdx_cons /= => /andP[-> hu] ht; apply: IH.
by case: t => [|i t] hu //; rewrite !isIdx_cons /= => /andP[-> ht]; apply: IH.
Qed.

Section Labels.
Variables (dims keep : seq nat).
Let N := size dims.
Let P := [pred i | i \in keep].
Let K := [seq i <- iota 0 N | P i].
Let Rs := [seq i <- iota 0 N | ~~ P i].
Let idx2 := [seq (if i \in keep then N + i else i)%N | i <- iota 0 N].
Let labels := iota 0 N ++ idx2.

Lemma inj2 : {in iota 0 N &, injective (fun i => if i \in keep then N + i else i)%N}.
Proof.
move=> i j; rewrite !mem_iota !add0n /= => hi hj.
case: ifP => _; case: ifP => _ // e.
- by move/eqP: e; rewrite eqn_add2l => /eqP.
- by move: hj; rewrite -e ltnNge leq_addr.
- by move: hi; rewrite e ltnNge leq_addr.
Qed.

Lemma uniq_idx2 : uniq idx2.
Proof. by rewrite map_inj_in_uniq ?iota_uniq //; exact: inj2. Qed.

Lemma count_labels l : count_mem l labels = ((l < N) + (l \in idx2))%N.
Proof.
rewrite count_cat !count_uniq_mem ?iota_uniq ?uniq_idx2 // mem_iota add0n.
by [].
Qed.

Lemma mem_idx2_lt l : (l < N)%N -> (l \in idx2) = (l \notin keep).
Proof.
move=> hl; apply/mapP/idP => [[i]|nk].
  by case: ifP => [_ _ e|/negbT nk _ ->] //; move: hl; rewrite e ltnNge leq_addr.
by exists l; rewrite ?mem_iota // (negbTE nk).
Qed.

Lemma outE : outLabels labels = K ++ map (addn N) K.
Proof.
rewrite /outLabels.
have -> : [seq l <- labels | count_mem l labels == 1%N] = K ++ map (addn N) K.
  rewrite /labels filter_cat; congr (_ ++ _).
    apply: eq_in_filter => i; rewrite mem_iota add0n /= => hi.
    by rewrite count_labels hi mem_idx2_lt //; case: (i \in keep).
  rewrite /idx2 filter_map /K.
  rewrite (eq_in_filter (a2 := P)); last first.
    move=> i; rewrite mem_iota add0n /= => hi; rewrite count_labels.
    case: ifP => ik /=; last by rewrite hi mem_idx2_lt // ik.
    rewrite ltnNge leq_addr add0n (_ : (N + i)%N \in idx2) //.
    by apply/mapP; exists i; rewrite ?mem_iota // ik.
  by apply/eq_in_map => i; rewrite mem_filter /= => /andP[-> _].
apply: sorted_sort; first exact: leq_trans.
rewrite (_ : K ++ map (addn N) K = [seq l <- iota 0 (N + N) | if (l < N)%N then P l else P (l - N)%N]).
  by apply: sorted_filter (iota_sorted _ _); exact: leq_trans.
rewrite iotaD filter_cat add0n; congr (_ ++ _).
  by apply: eq_in_filter => i; rewrite mem_iota add0n /= => ->.
have -> : iota N N = map (addn N) (iota 0 N) by rewrite -iotaDl addn0.
rewrite filter_map; congr map; apply: eq_filter => i /=.
by rewrite ltnNge leq_addr /= addKn.
Qed.

Lemma sumE : sumLabels labels = Rs.
Proof.
rewrite /sumLabels /labels filter_cat.
have -> : [seq l <- iota 0 N | count_mem l labels != 1%N] = Rs.
  apply: eq_in_filter => i; rewrite mem_iota add0n /= => hi.
  by rewrite count_labels hi mem_idx2_lt //; case: (i \in keep).
have -> : [seq l <- idx2 | count_mem l labels != 1%N] = Rs.
  rewrite /idx2 filter_map (eq_in_filter (a2 := predC P)); last first.
    move=> i; rewrite mem_iota add0n /= => hi; rewrite count_labels.
    case: ifP => ik /=; last by rewrite hi mem_idx2_lt // ik.
    rewrite ltnNge leq_addr add0n (_ : (N + i)%N \in idx2) //.
    by apply/mapP; exists i; rewrite ?mem_iota // ik.
  rewrite -[RHS]map_id; apply/eq_in_map => i; rewrite mem_filter /= => /andP[/negbTE -> _] //.
have uR : uniq Rs by rewrite filter_uniq ?iota_uniq.
rewrite undup_cat undup_id // (_ : [seq x <- Rs | x \notin Rs] = [::]) //.
by apply/eqP; rewrite -(negbK (_ == _)) -has_filter; apply/hasPn => i hi; rewrite hi.
Qed.

Lemma index_iota0 n i : (i < n)%N -> index i (iota 0 n) = i.
Proof.
move=> hi; have e : nth 0%N (iota 0 n) i = i by rewrite nth_iota.
by rewrite -{1}e index_uniq ?size_iota ?iota_uniq.
Qed.

Lemma dim_lt i : (i < N)%N -> labelDim (dims ++ dims) labels i = nth 0%N dims i.
Proof.
by move=> hi; rewrite /labelDim index_cat mem_iota add0n hi /= index_iota0 // nth_cat hi.
Qed.

Lemma dim_ge i : (i < N)%N -> i \in keep -> labelDim (dims ++ dims) labels (N + i) = nth 0%N dims i.
Proof.
move=> hi ik; rewrite /labelDim index_cat mem_iota add0n /= ltnNge leq_addr /= size_iota.
have e : nth 0%N idx2 i = (N + i)%N by rewrite (nth_map 0%N) ?size_iota // nth_iota // ik.
rewrite -{1}e index_uniq ?size_map ?size_iota ?uniq_idx2 //.
by rewrite nth_cat -/N ltnNge leq_addr /= addKn.
Qed.

Lemma mem_K i : (i \in K) = (i \in keep) && (i < N)%N.
Proof. by rewrite mem_filter mem_iota add0n. Qed.
Lemma mem_Rs i : (i \in Rs) = (i \notin keep) && (i < N)%N.
Proof. by rewrite mem_filter mem_iota add0n. Qed.

Lemma dims_mask : map (fun i => nth 0%N dims i) K = onKept (keepMask N keep) dims.
Proof.
rewrite /K filter_mask map_mask /onKept; congr (mask _ _).
by apply: (@eq_from_nth _ 0%N); rewrite ?size_map ?size_iota // => i hi; rewrite (nth_map 0%N) ?size_iota // nth_iota.
Qed.
Lemma dims_maskR : map (fun i => nth 0%N dims i) Rs = onRest (keepMask N keep) dims.
Proof.
rewrite /Rs filter_mask map_mask /onRest; congr (mask _ _); first by rewrite /keepMask -map_comp.
by apply: (@eq_from_nth _ 0%N); rewrite ?size_map ?size_iota // => i hi; rewrite (nth_map 0%N) ?size_iota // nth_iota.
Qed.

Lemma out_dims : map (labelDim (dims ++ dims) labels) (outLabels labels)
  = onKept (keepMask N keep) dims ++ onKept (keepMask N keep) dims.
Proof.
rewrite outE map_cat -dims_mask; congr (_ ++ _).
  by apply/eq_in_map => i; rewrite mem_K => /andP[_]; exact: dim_lt.
by rewrite -map_comp; apply/eq_in_map => i; rewrite mem_K => /andP[ik hi] /=; rewrite dim_ge.
Qed.

Lemma sum_dims : map (labelDim (dims ++ dims) labels) (sumLabels labels) = onRest (keepMask N keep) dims.
Proof.
rewrite sumE -dims_maskR; by apply/eq_in_map => i; rewrite mem_Rs => /andP[_]; exact: dim_lt.
Qed.

Lemma lab_ok : all (fun p => p.2 == labelDim (dims ++ dims) labels p.1) (zip labels (dims ++ dims)).
Proof.
rewrite /labels zip_cat ?size_iota // all_cat.
have Z (s : seq nat) (e : size s = N) (Q : pred (nat * nat)) :
    (forall i, (i < N)%N -> Q (nth 0%N s i, nth 0%N dims i)) -> all Q (zip s dims).
  move=> h; apply/(all_nthP (0%N, 0%N)) => i; rewrite size_zip e minnn => hi.
  by rewrite nth_zip // h.
apply/andP; split; apply: Z; rewrite ?size_map ?size_iota // => i hi /=.
  by rewrite nth_iota // dim_lt.
rewrite (nth_map 0%N) ?size_iota // nth_iota // add0n.
by case: ifP => ik; [rewrite dim_ge | rewrite dim_lt].
Qed.

Lemma items u v t : size u = size K -> size v = size K ->
  [seq nth 0%N ((u ++ v) ++ t) (index l (outLabels labels ++ sumLabels labels)) | l <- labels]
  = weave (keepMask N keep) u t ++ weave (keepMask N keep) v t.
Proof.
move=> su sv; rewrite outE sumE /labels map_cat.
have NK i : (i < N)%N -> i \notin map (addn N) K.
  by move=> hi; apply/mapP => -[j _ e]; move: hi; rewrite e ltnNge leq_addr.
have NK2 i : (N + i)%N \notin K by rewrite mem_K ltnNge leq_addr andbF.
have rest i : (i < N)%N -> i \notin keep ->
    nth 0%N ((u ++ v) ++ t) (index i ((K ++ map (addn N) K) ++ Rs)) = nth 0%N t (index i Rs).
  move=> hi ik; rewrite index_cat mem_cat mem_K (negbTE ik) (negbTE (NK i hi)) /=.
  by rewrite nth_cat !size_cat size_map su sv ltnNge leq_addr /= addKn.
congr (_ ++ _); rewrite -(weaveE P _ _ (iota_uniq 0 N)) -?map_comp; apply/eq_in_map => i;
  rewrite mem_iota add0n /= => hi; (case: ifP => ik; last by rewrite rest ?ik).
- have iK : i \in K by rewrite mem_K ik.
  by rewrite index_cat mem_cat iK /= index_cat iK !nth_cat size_cat su index_mem iK
     (leq_trans (_ : index i K < size K)%N (leq_addr _ _)) ?index_mem.
- have iK : i \in K by rewrite mem_K ik.
  have iN : (N + i)%N \in map (addn N) K by apply: map_f.
  rewrite index_cat mem_cat iN orbT /= index_cat (negbTE (NK2 i)) index_map; last exact: addnI.
  by rewrite nth_cat size_cat su sv ltn_add2l index_mem iK nth_cat su ltnNge leq_addr /= addKn.
Qed.

End Labels.

Lemma size_keepMask n keep : size (keepMask n keep) = n.
Proof. by rewrite size_map size_iota. Qed.

Lemma mask_prod dims keep : uniq keep -> all (fun k => k < size dims)%N keep ->
  npprod [seq nth 0%N dims k | k <- keep] = prodn (onKept (keepMask (size dims) keep) dims).
Proof.
move=> u /allP h; rewrite -dims_mask npprodE.
have pr (s t : seq nat) : perm_eq s t -> prodn s = prodn t.
  move=> p; rewrite -[prodn s]/(foldr muln 1%N s) -[prodn t]/(foldr muln 1%N t).
  rewrite !foldrE; exact: perm_big p.
apply: pr; apply: perm_map; apply: uniq_perm => //; first by rewrite filter_uniq ?iota_uniq.
by move=> i; rewrite mem_filter mem_iota add0n /=; case hi: (i \in keep) => //=; rewrite h.
Qed.

Lemma npIndexE dims keep : keep <> [::] -> all (fun k => k < size dims)%N keep ->
  npIndex dims (map Posz keep) = Ok [seq nth 0%N dims k | k <- keep].
Proof.
move=> ne /allP h; rewrite /npIndex; case: keep ne h => [//|k0 ks] _ h.
rewrite (@mapr_eq _ _ _ (fun z : int => if z is Posz k then nth 0%N dims k else 0%N)); last first.
  by move=> z /mapP[k hk ->]; rewrite h.
by rewrite -map_comp.
Qed.

Lemma mem_Posz i (keep : seq nat) : (Posz i \in map Posz keep) = (i \in keep).
Proof. by rewrite mem_map // => a b []. Qed.

(** The array after reshaping and [einsum]. *)
Lemma einsumE dims keep rho : square (prodn dims) rho ->
  exists A : nd C, (do rhoA <- toNd rho (dims ++ dims);
    einsum rhoA (range 0 (size dims) ++ [seq (if Posz i \in map Posz keep then size dims + i else i)%N | i <- range 0 (size dims)])) = Ok A
  /\ shape A = onKept (keepMask (size dims) keep) dims ++ onKept (keepMask (size dims) keep) dims
  /\ forall u v, isIdx (onKept (keepMask (size dims) keep) dims) u -> isIdx (onKept (keepMask (size dims) keep) dims) v ->
     item A (u ++ v) = sumDigits (onRest (keepMask (size dims) keep) dims)
        (fun t => ent rho (enc dims (weave (keepMask (size dims) keep) u t)) (enc dims (weave (keepMask (size dims) keep) v t))).
Proof.
move=> [r c].
rewrite /toNd npprodE prodn_cat r c eqxx /= /range subn0.
rewrite (_ : [seq (if Posz i \in map Posz keep then size dims + i else i)%N | i <- iota 0 (size dims)]
   = [seq (if i \in keep then size dims + i else i)%N | i <- iota 0 (size dims)]); last first.
  by apply/eq_map => i; rewrite mem_Posz.
rewrite /einsum /= !size_cat size_map size_iota eqxx lab_ok.
eexists; split; first by reflexivity.
rewrite /= out_dims sum_dims; split => // u v hu hv.
rewrite sum_tuples; apply: sumDigits_ext => t ht.
have sK : size (onKept (keepMask (size dims) keep) dims) = size [seq i <- iota 0 (size dims) | i \in keep].
  by rewrite -dims_mask size_map.
rewrite items; [|by rewrite (isIdx_size hu) sK|by rewrite (isIdx_size hv) sK].
have wu := weave_idx (size_keepMask _ _) hu ht; have wv := weave_idx (size_keepMask _ _) hv ht.
rewrite ravelE enc_cat; last by apply: isIdx_size.
rewrite /flat c; have lt := enc_lt wv.
have p0 : (0 < prodn dims)%N by apply: leq_ltn_trans lt.
by rewrite divnMDl // divn_small // addn0 modnMDl modn_small.
Qed.

Lemma partialTraceE dims keep rho : validKeep dims keep -> square (prodn dims) rho ->
  exists R, partialTrace (map Posz keep) dims rho = Ok R
    /\ isPartialTrace (keepMask (size dims) keep) dims rho R.
Proof.
move=> [ne u h] sq.
have [A [eA [sA iA]]] := @einsumE dims keep rho sq.
case: (sq) => r c.
rewrite /partialTrace r c eqxx /= npIndexE //=.
move: eA; case: (toNd _ _) => //= rA ->/=.
rewrite /fromNd mask_prod // sA npprodE prodn_cat eqxx; eexists; split; first by reflexivity.
split => // a b ha hb.
rewrite ent_mk; try exact: enc_lt.
rewrite -enc_cat; last exact: isIdx_size.
by rewrite nth_tuples ?iA //; apply: isIdx_cat.
Qed.

(** ** The specification determines the matrix, and its consequences *)
Lemma isPT_unique m dims rho R R' : isPartialTrace m dims rho R -> isPartialTrace m dims rho R' -> R = R'.
Proof.
move=> [[r c] e] [[r' c'] e']; apply: mat_ext; rewrite ?r ?c ?r' ?c' // => i j hi hj.
have [u [hu <-]] := enc_surj hi; have [v [hv <-]] := enc_surj hj.
by rewrite e // e'.
Qed.

Lemma sumDigits_sum dims (I : Type) (s : seq I) (F : I -> seq nat -> C) :
  sumDigits dims (fun u => \sum_(i <- s) F i u) = \sum_(i <- s) sumDigits dims (F i).
Proof.
elim: dims F => [//|d ds IH] F /=.
rewrite exchange_big /=; apply: eq_bigr => j _; exact: (IH (fun i t => F i ((j : nat) :: t))).
Qed.

Lemma sumDigits_ord dims n (F : 'I_n -> seq nat -> C) :
  sumDigits dims (fun u => \sum_(i < n) F i u) = \sum_(i < n) sumDigits dims (F i).
Proof. exact: sumDigits_sum. Qed.

Lemma sumDigits_swap ds es (F : seq nat -> seq nat -> C) :
  sumDigits ds (fun u => sumDigits es (fun t => F u t)) = sumDigits es (fun t => sumDigits ds (fun u => F u t)).
Proof.
elim: ds F => [//|d ds IH] F /=.
rewrite sumDigits_ord; apply: eq_bigr => i _; exact: (IH (fun u t => F ((i : nat) :: u) t)).
Qed.

Lemma sumDigits_mull dims a (f : seq nat -> C) : sumDigits dims (fun t => a * f t) = a * sumDigits dims f.
Proof.
elim: dims f => [//|d ds IH] f /=; rewrite big_distrr; apply: eq_bigr => i _.
exact: (IH (fun t => f ((i : nat) :: t))).
Qed.

Lemma sumDigits_add dims (f g : seq nat -> C) : sumDigits dims (fun t => f t + g t) = sumDigits dims f + sumDigits dims g.
Proof.
elim: dims f g => [//|d ds IH] f g /=; rewrite -big_split; apply: eq_bigr => i _.
exact: (IH (fun t => f ((i : nat) :: t)) (fun t => g ((i : nat) :: t))).
Qed.

Lemma sumDigits_conj dims (f : seq nat -> C) : (sumDigits dims f)^* = sumDigits dims (fun t => (f t)^*).
Proof.
elim: dims f => [//|d ds IH] f /=; rewrite rmorph_sum; apply: eq_bigr => i _; exact: IH.
Qed.

Lemma sumDigits_ge0 dims (f : seq nat -> C) : (forall t, 0 <= f t) -> 0 <= sumDigits dims f.
Proof. by elim: dims f => [|d ds IH] f h //=; apply: sumr_ge0 => i _; apply: IH. Qed.

(** Summing over all digits, kept and others separately. *)
Lemma sum_weave m dims (f : seq nat -> C) : size m = size dims ->
  sumDigits dims f = sumDigits (onKept m dims) (fun u => sumDigits (onRest m dims) (fun t => f (weave m u t))).
Proof.
rewrite /onKept /onRest; elim: m dims f => [|b m IH] [|d ds] f // [sz] /=.
case: b => /=; first by apply: eq_bigr => i _; rewrite (IH ds (fun t => f ((i : nat) :: t))).
rewrite sumDigits_ord; apply: eq_bigr => i _.
by rewrite (IH ds (fun t => f ((i : nat) :: t))).
Qed.

(** Summing over positions is summing over digits. *)
Lemma sum_enc dims (g : nat -> C) : \sum_(k < prodn dims) g k = sumDigits dims (fun t => g (enc dims t)).
Proof.
elim: dims g => [|d ds IH] g /=; first by rewrite big_ord1.
rewrite foldr_muln.
transitivity (\sum_(i < d) \sum_(j < prodn ds) g (i * prodn ds + j)%N).
  rewrite -(sum_divmod d (prodn ds) (fun i j => g (i * prodn ds + j)%N)).
  by apply: eq_bigr => k _; rewrite -divn_eq.
by apply: eq_bigr => i _; rewrite (IH (fun j => g (i * prodn ds + j)%N)).
Qed.

(** ** Weaving and selecting *)
Lemma onKept_weave m dims u t : size m = size dims -> isIdx (onKept m dims) u -> isIdx (onRest m dims) t ->
  onKept m (weave m u t) = u.
Proof.
rewrite /onKept /onRest; elim: m dims u t => [|b m IH] [|d ds] u t //; first by case: u.
case=> sz; case: b => /=.
  by case: u => [|i u] //; rewrite !isIdx_cons /= => /andP[_ hu] ht; rewrite (IH ds).
by case: t => [|i t] hu //; rewrite !isIdx_cons /= => /andP[_ ht]; rewrite (IH ds).
Qed.

Lemma onRest_weave m dims u t : size m = size dims -> isIdx (onKept m dims) u -> isIdx (onRest m dims) t ->
  onRest m (weave m u t) = t.
Proof.
rewrite /onKept /onRest; elim: m dims u t => [|b m IH] [|d ds] u t //; first by case: t.
case=> sz; case: b => /=.
  by case: u => [|i u] //; rewrite !isIdx_cons /= => /andP[_ hu] ht; rewrite (IH ds).
by case: t => [|i t] hu //; rewrite !isIdx_cons /= => /andP[_ ht]; rewrite (IH ds).
Qed.

Lemma sumDigits_zero ds : sumDigits ds (fun _ => 0) = 0 :> C.
Proof. by elim: ds => [//|d ds IH] /=; rewrite big1. Qed.

Lemma sumDigits_delta ds t (f : seq nat -> C) : isIdx ds t -> sumDigits ds (fun s => (s == t)%:R * f s) = f t.
Proof.
elim: ds t f => [|d ds IH] [|k t] f //=; first by rewrite mul1r.
rewrite isIdx_cons => /andP[hk ht].
rewrite (bigD1 (Ordinal hk)) //= big1 ?addr0 => [|i]; last first.
  rewrite -val_eqE /= => /negbTE ne; rewrite -[RHS](sumDigits_zero ds); apply: sumDigits_ext => s _.
  by rewrite eqseq_cons ne /= mul0r.
rewrite -(IH t (fun s => f (k :: s))) //; apply: sumDigits_ext => s _.
by rewrite eqseq_cons eqxx.
Qed.

Lemma prodEnt_weave m (Ms : seq (mat C)) us vs ts ss : size m = size Ms ->
  size us = size (onKept m Ms) -> size vs = size (onKept m Ms) ->
  size ts = size (onRest m Ms) -> size ss = size (onRest m Ms) ->
  prodEnt Ms (weave m us ts) (weave m vs ss) = prodEnt (onKept m Ms) us vs * prodEnt (onRest m Ms) ts ss.
Proof.
rewrite /onKept /onRest; elim: m Ms us vs ts ss => [|b m IH] [|M Ms] us vs ts ss //; first by rewrite mul1r.
case=> sz; case: b => /=.
  by case: us => [|i us] //; case: vs => [|j vs] // [a] [b] c d /=; rewrite IH // mulrA.
by case: ts => [|i ts] // a b; case: ss => [|j ss] // [c] [d] /=; rewrite IH // mulrCA.
Qed.

Lemma sum_prodEnt (Ms : seq (mat C)) : sumDigits (map (@rows C) Ms) (fun t => prodEnt Ms t t) = \prod_(M <- Ms) \sum_(i < rows M) ent M i i.
Proof.
elim: Ms => [|M Ms IH] /=; first by rewrite big_nil.
rewrite big_cons -IH big_distrl /=; apply: eq_bigr => i _; exact: sumDigits_mull.
Qed.

(** ** Consequences of the specification *)
Section Cons.
Variables (m : seq bool) (dims : seq nat).
Hypothesis sz : size m = size dims.
Let kd := onKept m dims.
Let rd := onRest m dims.
Let n := prodn dims.
Let nk := prodn kd.

Lemma isPT_trace rho R : isPartialTrace m dims rho R -> \sum_(i < nk) ent R i i = \sum_(i < n) ent rho i i.
Proof.
move=> [_ e]; rewrite (sum_enc kd (fun i => ent R i i)) (sum_enc dims (fun i => ent rho i i)) (sum_weave _ sz).
by apply: sumDigits_ext => u hu; rewrite e.
Qed.

Lemma isPT_herm rho R : herm n (ent rho) -> isPartialTrace m dims rho R -> herm nk (ent R).
Proof.
move=> h [_ e] i j hi hj.
have [u [hu <-]] := enc_surj hi; have [v [hv <-]] := enc_surj hj.
rewrite !e // sumDigits_conj; apply: sumDigits_ext => t ht.
by rewrite -h //; apply: enc_lt; apply: weave_idx.
Qed.

(** A double sum over positions, over kept and other digits. *)
Lemma sum2 (F : nat -> nat -> C) : \sum_(i < n) \sum_(j < n) F i j =
  sumDigits kd (fun u => sumDigits rd (fun t => sumDigits kd (fun v => sumDigits rd (fun s =>
     F (enc dims (weave m u t)) (enc dims (weave m v s)))))).
Proof.
rewrite (sum_enc dims (fun i => \sum_(j < n) F i j)) (sum_weave _ sz).
apply: sumDigits_ext => u _; apply: sumDigits_ext => t _.
by rewrite (sum_enc dims (fun j => F _ j)) (sum_weave _ sz).
Qed.

Lemma sum2k (F : nat -> nat -> C) : \sum_(i < nk) \sum_(j < nk) F i j =
  sumDigits kd (fun u => sumDigits kd (fun v => F (enc kd u) (enc kd v))).
Proof.
rewrite (sum_enc kd (fun i => \sum_(j < nk) F i j)).
by apply: sumDigits_ext => u _; rewrite (sum_enc kd (fun j => F _ j)).
Qed.

Definition lift (v : nat -> C) (t : seq nat) (k : nat) : C :=
  let idx := nth [::] (tuples dims) k in (onRest m idx == t)%:R * v (enc kd (onKept m idx)).

Lemma liftE v t u s : isIdx kd u -> isIdx rd s -> lift v t (enc dims (weave m u s)) = (s == t)%:R * v (enc kd u).
Proof.
move=> hu hs; rewrite /lift nth_tuples; last exact: weave_idx.
by rewrite (onRest_weave sz) // (onKept_weave sz).
Qed.

Lemma isPT_bf rho R v w : isPartialTrace m dims rho R ->
  bf nk (ent R) v w = sumDigits rd (fun t => bf n (ent rho) (lift v t) (lift w t)).
Proof.
move=> [_ e]; rewrite /bf (sum2k (fun i j => (v i)^* * ent R i j * w j)).
transitivity (sumDigits rd (fun t => sumDigits kd (fun u => sumDigits kd (fun u' =>
   (v (enc kd u))^* * ent rho (enc dims (weave m u t)) (enc dims (weave m u' t)) * w (enc kd u'))))).
  rewrite [RHS]sumDigits_swap; apply: sumDigits_ext => u hu.
  rewrite [RHS]sumDigits_swap; apply: sumDigits_ext => u' hu'.
  rewrite e // -sumDigits_mull mulrC -sumDigits_mull; apply: sumDigits_ext => t _; cring.
apply: sumDigits_ext => t ht.
rewrite (sum2 (fun i j => (lift v t i)^* * ent rho i j * lift w t j)).
apply: sumDigits_ext => u hu.
rewrite -[LHS](sumDigits_delta (fun s => sumDigits kd (fun u' => (v (enc kd u))^* *
   ent rho (enc dims (weave m u s)) (enc dims (weave m u' t)) * w (enc kd u'))) ht) /=.
apply: sumDigits_ext => s hs.
rewrite -sumDigits_mull; apply: sumDigits_ext => u' hu'.
rewrite -(sumDigits_delta (fun s' => (s == t)%:R * ((v (enc kd u))^* *
   ent rho (enc dims (weave m u s)) (enc dims (weave m u' s')) * w (enc kd u'))) ht).
apply: sumDigits_ext => s' hs'; rewrite !liftE // rmorphM /= conjC_nat; cring.
Qed.

Lemma isPT_psd rho R : psd n (ent rho) -> isPartialTrace m dims rho R -> psd nk (ent R).
Proof.
by move=> p h v; rewrite (isPT_bf _ _ h); apply: sumDigits_ge0 => t; apply: p.
Qed.

Lemma isPT_add rho rho' R R' : square n rho -> square n rho' ->
  isPartialTrace m dims rho R -> isPartialTrace m dims rho' R' -> isPartialTrace m dims (addm rho rho') (addm R R').
Proof.
move=> [r c] [r' c'] [[s1 s2] e] [[s1' s2'] e']; split; first by split; rewrite ?shapes.
move=> u v hu hv; rewrite ent_addm ?s1 ?s1' ?s2 ?s2' // e // e' // -sumDigits_add.
by apply: sumDigits_ext => t _; rewrite ent_addm ?r ?r' ?c ?c'.
Qed.

Lemma isPT_scale a rho R : isPartialTrace m dims rho R -> isPartialTrace m dims (scalem a rho) (scalem a R).
Proof.
move=> [[s1 s2] e]; split; first by split; rewrite ?shapes.
move=> u v hu hv; rewrite ent_scalem e // -sumDigits_mull.
by apply: sumDigits_ext => t _; rewrite ent_scalem.
Qed.

(** Expectation values of operators on the kept subsystems. *)
Lemma isPT_dual rho R A B : isPartialTrace m dims rho R -> actsOnKept m dims A B ->
  traceProd n B rho = traceProd nk A R.
Proof.
move=> [_ e] [_ [_ a]].
rewrite /traceProd (sum2 (fun i j => ent B i j * ent rho j i)) (sum2k (fun i j => ent A i j * ent R j i)).
apply: sumDigits_ext => u hu.
rewrite sumDigits_swap; apply: sumDigits_ext => v hv.
rewrite e // -sumDigits_mull; apply: sumDigits_ext => t ht.
rewrite -(sumDigits_delta (fun s => ent A (enc kd u) (enc kd v) * ent rho (enc dims (weave m v s)) (enc dims (weave m u t))) ht).
apply: sumDigits_ext => s hs; by rewrite a // (eq_sym t s) mulrAC mulrC.
Qed.

Lemma isPT_prod (Ms : seq (mat C)) : map (@rows C) Ms = dims -> map (@cols C) Ms = dims ->
  isPartialTrace m dims (tens Ms) (scalem (\prod_(M <- onRest m Ms) trace M) (tens (onKept m Ms))).
Proof.
move=> er ec.
have kr : map (@rows C) (onKept m Ms) = kd by rewrite /kd /onKept -er map_mask.
have kc : map (@cols C) (onKept m Ms) = kd by rewrite /kd /onKept -ec map_mask.
have rr : map (@rows C) (onRest m Ms) = rd by rewrite /rd /onRest -er map_mask.
have rc : map (@cols C) (onRest m Ms) = rd by rewrite /rd /onRest -ec map_mask.
have sM : size m = size Ms by rewrite sz -er size_map.
split; first by split; rewrite ?shapes ?rows_tens ?cols_tens ?kr ?kc.
move=> u v hu hv; rewrite ent_scalem.
have := @ent_tens C (onKept m Ms) u v; rewrite kr kc => -> //.
have -> : \prod_(M <- onRest m Ms) trace M = \prod_(M <- onRest m Ms) \sum_(i < rows M) ent M i i.
  have : map (@rows C) (onRest m Ms) = map (@cols C) (onRest m Ms) by rewrite rr rc.
  elim: (onRest m Ms) => [|M Ns IH] /=; first by rewrite !big_nil.
  by case=> e1 /IH e2; rewrite !big_cons e2 trace_sq.
rewrite -sum_prodEnt rr mulrC -sumDigits_mull; apply: sumDigits_ext => t ht.
have := @ent_tens C Ms (weave m u t) (weave m v t); rewrite er ec => ->; try by apply: weave_idx.
have sk w : isIdx kd w -> size w = size (onKept m Ms) by move=> h; rewrite (isIdx_size h) -kr size_map.
have sr w : isIdx rd w -> size w = size (onRest m Ms) by move=> h; rewrite (isIdx_size h) -rr size_map.
by rewrite prodEnt_weave //; auto.
Qed.

Lemma actsOn_tens (As : seq (mat C)) : map (@rows C) As = dims -> map (@cols C) As = dims ->
  (forall A, List.In A (onRest m As) -> A = idm C (rows A)) ->
  actsOnKept m dims (tens (onKept m As)) (tens As).
Proof.
move=> er ec hI.
have kr : map (@rows C) (onKept m As) = kd by rewrite /kd /onKept -er map_mask.
have kc : map (@cols C) (onKept m As) = kd by rewrite /kd /onKept -ec map_mask.
have rr : map (@rows C) (onRest m As) = rd by rewrite /rd /onRest -er map_mask.
have sM : size m = size As by rewrite sz -er size_map.
split; first by split; rewrite ?rows_tens ?cols_tens ?kr ?kc.
split; first by split; rewrite ?rows_tens ?cols_tens ?er ?ec.
move=> u v t s hu hv ht hs.
have := @ent_tens C (onKept m As) u v; rewrite kr kc => -> //.
have := @ent_tens C As (weave m u t) (weave m v s); rewrite er ec => ->; try by apply: weave_idx.
have sk w : isIdx kd w -> size w = size (onKept m As) by move=> h; rewrite (isIdx_size h) -kr size_map.
have sr w : isIdx rd w -> size w = size (onRest m As) by move=> h; rewrite (isIdx_size h) -rr size_map.
rewrite prodEnt_weave //; auto.
congr (_ * _); move: hI rr ht hs; rewrite -/rd; clear.
elim: (onRest m As) rd t s => [|A Bs IH] [|d ds] [|i t] [|j s] //= hI [ed eds].
rewrite !isIdx_cons => /andP[hi ht] /andP[hj hs].
rewrite (IH ds) //; last by move=> X hX; apply: hI; right.
rewrite (hI A (or_introl erefl)) ent_idm ed hi andbT eqseq_cons.
by case: (i == j); rewrite ?mul1r ?mul0r.
Qed.

End Cons.


(** ** Tracing in stages *)
Fixpoint comb (m1 m2 : seq bool) : seq bool :=
  match m1 with
  | [::] => [::]
  | true :: m1' => head false m2 :: comb m1' (behead m2)
  | false :: m1' => false :: comb m1' m2
  end.

Lemma size_comb m1 m2 : size (comb m1 m2) = size m1.
Proof. by elim: m1 m2 => [//|[] m1 IH] m2 /=; rewrite IH. Qed.

Lemma onKept_comb (T : Type) m1 m2 (xs : seq T) : size m1 = size xs -> size m2 = size (onKept m1 xs) ->
  onKept (comb m1 m2) xs = onKept m2 (onKept m1 xs).
Proof.
rewrite /onKept; elim: m1 m2 xs => [|b m1 IH] m2 [|x xs] //; first by case: m2.
case=> s1; case: b => /=; last exact: IH.
by case: m2 => [|b m2] // [s2]; case: b => /=; rewrite IH.
Qed.

Lemma sum_comb m1 m2 dims u v (f : seq nat -> seq nat -> C) : size m1 = size dims -> size m2 = size (onKept m1 dims) ->
  size u = size (onKept m2 (onKept m1 dims)) -> size v = size (onKept m2 (onKept m1 dims)) ->
  sumDigits (onRest (comb m1 m2) dims) (fun t => f (weave (comb m1 m2) u t) (weave (comb m1 m2) v t))
  = sumDigits (onRest m2 (onKept m1 dims)) (fun t2 => sumDigits (onRest m1 dims) (fun t1 =>
      f (weave m1 (weave m2 u t2) t1) (weave m1 (weave m2 v t2) t1))).
Proof.
rewrite /onKept /onRest; elim: m1 m2 dims u v f => [|b m1 IH] m2 [|d ds] u v f //; first by case: m2.
case=> s1; case: b => /=.
  case: m2 => [|b m2] // [s2]; case: b => /=.
    case: u => [|i u] // [su]; case: v => [|j v] // [sv] /=.
    exact: (IH m2 ds u v (fun x y => f (i :: x) (j :: y))).
  move=> su sv; apply: eq_bigr => i _.
  exact: (IH m2 ds u v (fun x y => f ((i : nat) :: x) ((i : nat) :: y))).
move=> s2 su sv; rewrite sumDigits_ord; apply: eq_bigr => i _.
exact: (IH m2 ds u v (fun x y => f ((i : nat) :: x) ((i : nat) :: y))).
Qed.

Lemma isPT_stages m1 m2 dims rho R1 R2 : size m1 = size dims -> size m2 = size (onKept m1 dims) ->
  isPartialTrace m1 dims rho R1 -> isPartialTrace m2 (onKept m1 dims) R1 R2 ->
  isPartialTrace (comb m1 m2) dims rho R2.
Proof.
move=> s1 s2 [_ e1] [sq2 e2]; split; rewrite onKept_comb // => u v hu hv.
rewrite e2 //.
rewrite (@sum_comb m1 m2 dims u v (fun x y => ent rho (enc dims x) (enc dims y))) //; try exact: isIdx_size.
by apply: sumDigits_ext => t ht; rewrite e1 //; apply: weave_idx.
Qed.

Lemma combE (P Q : pred nat) a s : uniq s ->
  comb (map P s) [seq Q i | i <- iota a (count P s)] = [seq P i && Q (a + index i [seq j <- s | P j])%N | i <- s].
Proof.
elim: s a => [//|x s IH] a /= /andP[nx us]; case px: (P x) => /=.
  rewrite eqxx addn0; congr cons; rewrite (IH a.+1 us); apply/eq_in_map => i hi.
  have /negbTE ne : x != i by apply: contraNneq nx => ->.
  by rewrite ne addSnnS.
by congr cons; rewrite add0n (IH a us).
Qed.

Definition keptList (n : nat) (keep : seq nat) : seq nat := [seq i <- iota 0 n | i \in keep].

Lemma keepMask_comb n keep keep2 : all (fun k => k < size (keptList n keep))%N keep2 ->
  keepMask n [seq nth 0%N (keptList n keep) k | k <- keep2] = comb (keepMask n keep) (keepMask (size (keptList n keep)) keep2).
Proof.
move=> /allP h; rewrite /keepMask.
rewrite -[size (keptList _ _)]/(size (filter _ _)) size_filter.
rewrite (@combE (mem keep) (mem keep2) 0%N) ?iota_uniq //.
have u : uniq (keptList n keep) by rewrite filter_uniq ?iota_uniq.
apply/eq_in_map => i hi; rewrite add0n -/(keptList n keep) /=.
apply/mapP/andP => [[k hk ->]|[hk h2]].
  have lt := h _ hk; split; last by rewrite index_uniq.
  by have := mem_nth 0%N lt; rewrite mem_filter => /andP[].
by exists (index i (keptList n keep)) => //; rewrite nth_index // mem_filter hk.
Qed.

Lemma keptList_sort n keep : uniq keep -> all (fun k => k < n)%N keep -> keptList n keep = sort leq keep.
Proof.
move=> u /allP h; apply: (@sorted_eq _ leq leq_trans anti_leq).
- by apply: sorted_filter leq_trans _ _ (iota_sorted _ _).
- exact: sort_sorted leq_total _.
rewrite perm_sym perm_sort perm_sym; apply: uniq_perm => //; first by rewrite filter_uniq ?iota_uniq.
by move=> i; rewrite mem_filter mem_iota add0n /=; case hi: (i \in keep) => //=; rewrite h.
Qed.

(** ** The two parts of a pure state *)
Lemma weave_negb m u t : weave (map negb m) t u = weave m u t.
Proof. by elim: m u t => [//|[] m IH] u t /=; rewrite IH. Qed.

Lemma onRest_negb (T : Type) m (xs : seq T) : onRest (map negb m) xs = onKept m xs.
Proof. by rewrite /onRest /onKept mapK //; exact: negbK. Qed.

Lemma isPT_purities m dims (psi : nat -> C) rho R R' : size m = size dims ->
  (forall i j, (i < prodn dims)%N -> (j < prodn dims)%N -> ent rho i j = psi i * (psi j)^*) ->
  isPartialTrace m dims rho R -> isPartialTrace (map negb m) dims rho R' ->
  \sum_(i < prodn (onKept m dims)) \sum_(j < prodn (onKept m dims)) ent R i j * ent R j i
  = \sum_(i < prodn (onRest m dims)) \sum_(j < prodn (onRest m dims)) ent R' i j * ent R' j i.
Proof.
move=> sz p [_ e] [_ e'].
rewrite (sum2k m dims (fun i j => ent R i j * ent R j i)) (sum2k (map negb m) dims (fun i j => ent R' i j * ent R' j i)).
pose a u t := psi (enc dims (weave m u t)).
pose K := onKept m dims; pose T := onRest m dims.
transitivity (sumDigits K (fun u => sumDigits K (fun v => sumDigits T (fun t => sumDigits T (fun s =>
   a u t * (a v t)^* * (a v s * (a u s)^*)))))).
  apply: sumDigits_ext => u hu; apply: sumDigits_ext => v hv; rewrite !e //.
  rewrite mulrC -sumDigits_mull; apply: sumDigits_ext => t ht.
  rewrite mulrC -sumDigits_mull; apply: sumDigits_ext => s hs.
  by rewrite !p //; apply: enc_lt; apply: weave_idx.
transitivity (sumDigits T (fun t => sumDigits T (fun s => sumDigits K (fun u => sumDigits K (fun v =>
   a u t * (a v t)^* * (a v s * (a u s)^*)))))).
  transitivity (sumDigits K (fun u => sumDigits T (fun t => sumDigits T (fun s => sumDigits K (fun v =>
     a u t * (a v t)^* * (a v s * (a u s)^*)))))).
    apply: sumDigits_ext => u _; rewrite [LHS]sumDigits_swap; apply: sumDigits_ext => t _.
    by rewrite [LHS]sumDigits_swap.
  rewrite [LHS]sumDigits_swap; apply: sumDigits_ext => t _.
  by rewrite [LHS]sumDigits_swap.
have m2 : size (map negb m) = size dims by rewrite size_map.
apply: sumDigits_ext => t ht; apply: sumDigits_ext => s hs.
rewrite !e' // !onRest_negb.
rewrite mulrC -sumDigits_mull; apply: sumDigits_ext => u hu.
rewrite mulrC -sumDigits_mull; apply: sumDigits_ext => v hv.
rewrite !weave_negb !p //; try by apply: enc_lt; apply: weave_idx.
rewrite /a; cring.
Qed.

End TP.
