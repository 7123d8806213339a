(** Proofs for C96. *)
From Verif Require Import Py.
From mathcomp Require Import all_ssreflect.
From Verif Require Import OldDimModel OldDimSpec OldDimProofs OldNestProofs OldPlusModel OldPlusSpec.
Set Implicit Arguments.
Unset Strict Implicit.
Unset Printing Implicit Defensive.

Definition lids (e : expr) : seq nat := flatten (map ids (leaves e)).
Lemma szsE i ts : size_of (Group i ts) = szs ts. Proof. by []. Qed.
Lemma sum_size ta tb n : size_of (sum ta tb n).1 = size_of ta * size_of tb.
Proof.
case: ta => [i d|i ts]; case: tb => [j d'|j us].
- by rewrite /= muln1.
- by rewrite [LHS](_ : _ = szs (us ++ [:: One i d])) // szs_cat /= muln1 mulnC.
- by rewrite [LHS](_ : _ = szs (ts ++ [:: One j d'])) // szs_cat /= muln1.
- by case: ts => [|t ts] /=; rewrite ?mul1n ?muln1.
Qed.
Lemma sum_height ta tb n : (height ta <= height (sum ta tb n).1) && (height tb <= height (sum ta tb n).1).
Proof.
case: ta => [i d|i ts]; case: tb => [j d'|j us] //=.
- by rewrite map_cat maxn_cat ltnS leq_maxl.
- by rewrite map_cat maxn_cat ltnS leq_maxl.
- case: ts => [|t ts] /=; first by rewrite leqnn.
  by rewrite maxn0 !ltnS; apply/andP; split; apply: ltnW; rewrite leq_max leqnn ?orbT.
Qed.
Lemma sum_ids ta tb n j : (j \in ids (sum ta tb n).1 -> [|| j \in ids ta, j \in ids tb | (j == n) && ((sum ta tb n).2 == n.+1)]).
Proof.
case: ta => [i d|i ts]; case: tb => [k d'|k us] /=.
- by rewrite !inE eqxx andbT => /or3P [] ->; rewrite ?orbT.
- by rewrite map_cat flatten_cat !inE mem_cat /= inE => /or3P [] ->; rewrite ?orbT.
- by rewrite map_cat flatten_cat !inE mem_cat /= inE => /or3P [] ->; rewrite ?orbT.
- case: ts => [|t ts]; first by rewrite /= inE => ->; rewrite orbT.
  rewrite /= cats0 eqxx andbT !inE !mem_cat !inE => /orP [->|]; first by rewrite !orbT.
  by rewrite -!orbA => /or4P [->|->|->|/orP [] ->]; rewrite ?orbT.
Qed.
Lemma sum_next ta tb n : n <= (sum ta tb n).2 <= n.+1.
Proof. by case: ta => [i d|i [|t ts]]; case: tb => [k d'|k us] /=; rewrite ?leqnn ?leqnSn. Qed.
Lemma sum_uniq ta tb n : uniq (ids ta ++ ids tb) -> n \notin ids ta ++ ids tb -> uniq (ids (sum ta tb n).1).
Proof.
case: ta => [i d|i ts]; case: tb => [k d'|k us].
- by move=> u nn; rewrite /= in u nn *; rewrite nn.
- rewrite /= map_cat flatten_cat mem_cat /= !inE => /andP [u1 /andP [u2 u3]] _.
  move: u1; rewrite negb_or => /andP [u4 u5]; rewrite negb_or u2 eq_sym u4 /=.
  by rewrite cat_uniq u3 /= orbF u5.
- move=> u _; rewrite (_ : ids _ = ids (Group i ts) ++ ids (One k d')) //=.
  by rewrite map_cat flatten_cat.
- case: ts => [|t ts] u nn; first by move: u; rewrite /= => /and3P [_ -> ->].
  by rewrite (_ : ids _ = n :: ids (Group i (t :: ts)) ++ ids (Group k us)) /= ?cats0 //; apply/andP; split.
Qed.
Fixpoint cloneAll (ts : seq tree) (n : nat) : seq tree * nat :=
  match ts with
  | [::] => ([::], n)
  | t :: ts' => let: (u, m) := clone t n in let: (us, m') := cloneAll ts' m in (u :: us, m')
  end.
Lemma clone_group i ts n : clone (Group i ts) n = let: (us, m) := cloneAll ts n in (Group m us, m.+1).
Proof. by []. Qed.
(** The numbers of new systems are those from n up to m. *)
Definition between (n m : nat) (l : seq nat) : Prop := n <= m /\ uniq l /\ forall j, j \in l -> n <= j < m.
Lemma between_cat n m p l1 l2 : between n m l1 -> between m p l2 -> between n p (l1 ++ l2).
Proof.
move=> [h1 [u1 s1]] [h2 [u2 s2]]; split; first exact: leq_trans h1 h2.
split.
  rewrite cat_uniq u1 u2 andbT; apply/hasPn => j /s2 /andP [x _]; apply/negP => /s1 /andP [_ y].
  by have := leq_trans y x; rewrite ltnn.
move=> j; rewrite mem_cat => /orP [/s1|/s2] /andP [x y]; apply/andP; split=> //; first exact: leq_trans y h2.
exact: leq_trans h1 x.
Qed.
Definition sameAs (t u : tree) : Prop := size_of u = size_of t /\ height u = height t.
Lemma clone_ids t : forall n, n < (clone t n).2 /\ between n (clone t n).2 (ids (clone t n).1) /\ sameAs t (clone t n).1.
Proof.
elim/tree_all: t => [i d|i ts IH] n.
  rewrite /=; split=> //; split=> //; split=> //; split=> // j; rewrite inE => /eqP ->; by rewrite !leqnn.
rewrite clone_group.
have L : between n (cloneAll ts n).2 (flatten (map ids (cloneAll ts n).1)) /\ szs (cloneAll ts n).1 = szs ts /\
    map height (cloneAll ts n).1 = map height ts.
  elim: ts n IH => [|t ts IHt] n IH /=; first by split=> //; split.
  have [_ [b1 [z1 h1]]] := IH t (or_introl erefl) n; case: (clone t n) b1 z1 h1 => u m /= b1 z1 h1.
  have [|b2 [z2 h2]] := IHt m; first by move=> t' ht'; apply: IH; right.
  case: (cloneAll ts m) b2 z2 h2 => us m' /= b2 z2 h2.
  by split; [exact: between_cat b1 b2|rewrite z1 z2 h1 h2].
case: (cloneAll ts n) L => us m /= [[h1 [u1 s1]] [z hh]]; split; first by rewrite ltnS.
split; last by rewrite /sameAs /= hh; split.
split; first exact: leqW.
split; first by rewrite /= u1 andbT; apply/negP => /s1; rewrite ltnn andbF.
by move=> j; rewrite inE => /orP [/eqP ->|/s1 /andP [x y]]; rewrite ?h1 ?leqnn // x /= leqW.
Qed.
Lemma clones_ids t k : forall n, between n (clones k t n).2 (flatten (map ids (clones k t n).1)).
Proof.
elim: k => [|k IH] n //=; have [_ [b1 _]] := clone_ids t n; case: (clone t n) b1 => u m /= b1.
by have := IH m; case: (clones k t m) => us m' /= b2; exact: between_cat b1 b2.
Qed.
Lemma clones_size t k : forall n, szs (clones k t n).1 = size_of t ^ k.
Proof.
elim: k => [|k IH] n //=; have [_ [_ [z _]]] := clone_ids t n; case: (clone t n) z => u m /= z.
by have := IH m; case: (clones k t m) => us m' /= e; rewrite e z expnS.
Qed.
(** A new composite system of [ts] with numbers below n and of new systems. *)
Lemma new_ids n m l1 l2 : uniq l1 -> (forall j, j \in l1 -> j < n) -> between n.+1 m l2 ->
  [/\ n <= m, uniq (n :: l1 ++ l2) & forall j, j \in n :: l1 ++ l2 -> (j \in l1) || (n <= j < m)].
Proof.
move=> u1 lt [h [u2 s2]]; split; first exact: ltnW.
  rewrite /= mem_cat cat_uniq u1 u2 !andbT; apply/andP; split.
    by apply/negP => /orP [/lt|/s2]; rewrite ltnn.
  by apply/hasPn => j /s2 /andP [x _]; apply/negP => /lt y; have := ltn_trans y x; rewrite ltnn.
move=> j; rewrite inE mem_cat => /or3P [/eqP ->|->//|/s2 /andP [x y]]; apply/orP; right; first by rewrite leqnn.
by rewrite (ltnW x).
Qed.

Lemma shape_ids e : forall n, uniq (lids e) -> (forall j, j \in lids e -> j < n) ->
  [/\ n <= (shape e n).2, uniq (ids (shape e n).1) & forall j, j \in ids (shape e n).1 -> (j \in lids e) || (n <= j < (shape e n).2)].
Proof.
elim: e => [t|a IHa b IHb|k t|t] n.
- by rewrite /lids /= cats0 => u _; split=> // j ->.
- rewrite /lids /= map_cat flatten_cat -/(lids a) -/(lids b) cat_uniq => /and3P [ua dis ub] lt.
  have [|n1 u1 s1] := IHa n ua; first by move=> j hj; apply: lt; rewrite mem_cat hj.
  case ea: (shape a n) n1 u1 s1 => [ta m] /= n1 u1 s1.
  have [|n2 u2 s2] := IHb m ub.
    by move=> j hj; apply: leq_trans n1; apply: lt; rewrite mem_cat hj orbT.
  case eb: (shape b m) n2 u2 s2 => [tb m2] /= n2 u2 s2.
  have [] := andP (sum_next ta tb m2) => n3 n4.
  have la j : j \in ids ta -> j < m.
    move=> /s1 /orP [hj|/andP [] //]; apply: leq_trans n1; apply: lt; by rewrite mem_cat hj.
  have lb j : j \in ids tb -> j < m2.
    move=> /s2 /orP [hj|/andP [] //]; apply: leq_trans (leq_trans n1 n2); apply: lt; by rewrite mem_cat hj orbT.
  split; first exact: leq_trans (leq_trans n1 n2) n3.
  + apply: sum_uniq; last first.
      rewrite mem_cat; apply/negP => /orP [/la|/lb]; rewrite ?ltnn // => h.
      by have := leq_trans h n2; rewrite ltnn.
    rewrite cat_uniq u1 u2 andbT; apply/hasPn => j hj; apply/negP => hj'.
    have [/orP [x|/andP [x _]] /orP [y|/andP [y y2]]] := (s2 j hj, s1 j hj').
    * by move/hasPn: dis => /(_ j x); rewrite /= y.
    * by have := lt j; rewrite mem_cat x orbT => /(_ isT); rewrite ltnNge y.
    * by have := leq_trans (la j hj') x; rewrite ltnn.
    * by have := leq_trans (la j hj') x; rewrite ltnn.
  + move=> j /sum_ids /or3P [/s1|/s2|].
    * rewrite mem_cat => /orP [->|/andP [-> x]] //=; apply/orP; right; exact: leq_trans x (leq_trans n2 n3).
    * rewrite mem_cat => /orP [->|/andP [x y]]; rewrite ?orbT //; apply/orP; right.
      by rewrite (leq_trans n1 x) (leq_trans y n3).
    * move=> /andP [/eqP -> /eqP ->]; apply/orP; right; by rewrite (leq_trans n1 n2) leqnn.
- rewrite /lids /= cats0 => u lt; have := clones_ids t k.-1 n.+1; case: (clones _ _ _) => us m /= b.
  exact: new_ids.
- rewrite /lids /= cats0 => u lt.
  have [_ [b _]] := clone_ids t n.+1; case: (clone t n.+1) b => v m /= b.
  have := new_ids (l1 := ids t) u lt b; case: t u lt {b} => [i d|i [|t' ts]] u lt; rewrite /= ?cats0 //.
  by move=> _; split=> // j ->.
Qed.
Lemma shape_pos e : forall n, (forall t, List.In t (leaves e) -> 0 < size_of t) -> 0 < size_of (shape e n).1.
Proof.
elim: e => [t|a IHa b IHb|k t|t] n hp; first by apply: hp; left.
- rewrite /=; case ea: (shape a n) => [ta m]; case eb: (shape b m) => [tb m2]; rewrite sum_size muln_gt0.
  have := IHa n; have := IHb m; rewrite ea eb => -> ; first move=> -> //.
    by move=> t ht; apply: hp; apply/List.in_or_app; left.
  by move=> t ht; apply: hp; apply/List.in_or_app; right.
- have tp : 0 < size_of t by apply: hp; left.
  have := clones_size t k.-1 n.+1; rewrite /=; case: (clones _ _ _) => us m /= e.
  by rewrite -/(szs us) e muln_gt0 tp expn_gt0 tp.
- have tp : 0 < size_of t by apply: hp; left.
  have [_ [_ [z _]]] := clone_ids t n.+1; rewrite /=; case: (clone t n.+1) z => u m /= z.
  by case: t tp z {hp} => [i d|i [|t' ts]] //= tp ->; rewrite muln1 muln_gt0 tp.
Qed.

Lemma bindNOk A B (m : N A) (f : A -> N B) w w' x : m w = (w', Ok x) -> bindN m f w = f x w'.
Proof. by rewrite /bindN => ->. Qed.

Section P.
Variable fdiv : nat -> nat -> nat.
Variable big : nat.
Hypothesis hdiv : exactUpTo big fdiv.
Variable lim : nat.
Notation addTo := (addTo fdiv lim). Notation addAll := (addAll fdiv lim). Notation both := (both fdiv lim).
Notation plus := (plus fdiv lim).

Lemma addTo_at h n i ts t : at_ h (Group i ts) None 1 1 -> at_ h t None 1 1 ->
  uniq (ids (Group i ts) ++ ids t) -> height (Group i ts) <= lim -> height t <= lim -> szs ts * size_of t <= big ->
  exists h', [/\ addTo i (nameOf t) (h, n) = ((h', n), Ok tt), at_ h' (Group i (ts ++ [:: t])) None 1 1 &
    outside h h' (ids (Group i ts) ++ ids t)].
Proof.
move=> g a u l1 l2 B; have [h' [e g' o]] := add_at hdiv g a u l1 l2 B.
by exists h'; split=> //; rewrite /OldPlusModel.addTo /lift /= e.
Qed.
Lemma fresh_at h n : at_ (upd h n newComp) (Group n [::]) None 1 1.
Proof. by apply/at_group; split=> //; exists None; rewrite updE; split=> //; left. Qed.
Lemma at_upd h n x t p b a : n \notin ids t -> at_ h t p b a -> at_ (upd h n x) t p b a.
Proof. by move=> nt; apply: at_ext => j hj; rewrite updN //; apply: contraNneq nt => <-. Qed.

Lemma both_at h n ta tb : at_ h ta None 1 1 -> at_ h tb None 1 1 -> uniq (ids ta ++ ids tb) -> n \notin ids ta ++ ids tb ->
  height (Group n [:: ta; tb]) <= lim -> size_of ta * size_of tb <= big ->
  exists h', [/\ both (nameOf ta) (nameOf tb) (h, n) = ((h', n.+1), Ok n), at_ h' (Group n [:: ta; tb]) None 1 1 &
    outside h h' (n :: ids ta ++ ids tb)].
Proof.
move=> ga gb u nn; rewrite /= maxn0 gtn_max => /andP [la lb] B.
move: (nn); rewrite mem_cat negb_or => /andP [na nb].
have ne : (nameOf tb == nameOf ta) = false.
  move: u; rewrite cat_uniq => /and3P [_ /hasPn dis _]; apply/eqP => e.
  by have := dis (nameOf tb) (name_in tb); rewrite /= e name_in.
have pb := size_pos gb; have pa := size_pos ga.
have u1 : uniq (ids (Group n [::]) ++ ids ta) by rewrite /= na; move: u; rewrite cat_uniq => /and3P [].
have Ba : szs [::] * size_of ta <= big by rewrite mul1n; apply: leq_trans B; rewrite leq_pmulr.
have [|h1 [e1 g1 o1]] := addTo_at n.+1 (fresh_at h n) (at_upd newComp na ga) u1 _ (ltnW la) Ba.
  exact: leq_ltn_trans (leq0n _) la.
have gb1 : at_ h1 tb None 1 1.
  apply: at_ext (at_upd newComp nb gb) => j hj; apply: o1; rewrite /= inE negb_or; apply/andP; split.
    by apply: contraNneq nb => <-.
  by apply/negP => hj'; move: u; rewrite cat_uniq => /and3P [_ /hasPn /(_ j hj)]; rewrite /= hj'.
have u2 : uniq (ids (Group n [:: ta]) ++ ids tb) by rewrite /= cats0 nn.
have [||h2 [e2 g2 o2]] := addTo_at n.+1 g1 gb1 u2 _ (ltnW lb) _.
- by rewrite /= maxn0.
- by rewrite /= muln1.
exists h2; split=> //.
  rewrite /OldPlusModel.both (@bindNOk _ _ _ _ _ (upd h n newComp, n.+1) (n)) // ne (@bindNOk _ _ _ _ _ (upd h n newComp, n.+1) (nameOf tb)) //.
  by rewrite (@bindNOk _ _ _ _ _ (h2, n.+1) (tt)) // /= (bindNOk _ e1) (bindNOk _ e2).
move=> j hj; rewrite o2 ?o1 ?updN //; last by rewrite /= cats0.
- by move: hj; rewrite inE negb_or => /andP [].
- by move: hj; rewrite /= !inE mem_cat !negb_or => /and3P [-> ->].
Qed.

Lemma comp_at h t p b a : at_ h t p b a -> (isComp (h (nameOf t)) = if t is Group _ _ then true else false) /\
  subs (h (nameOf t)) = if t is Group _ ts then map nameOf ts else [::].
Proof. by case: t => [i d /= [-> _]|i ts /at_group [[d [/= -> _]] _]]. Qed.

Lemma plus_at h n ta tb : at_ h ta None 1 1 -> at_ h tb None 1 1 -> uniq (ids ta ++ ids tb) -> n \notin ids ta ++ ids tb ->
  height (sum ta tb n).1 <= lim -> size_of ta * size_of tb <= big ->
  exists h', [/\ plus (nameOf ta) (nameOf tb) (h, n) = ((h', (sum ta tb n).2), Ok (nameOf (sum ta tb n).1)),
    at_ h' (sum ta tb n).1 None 1 1 & outside h h' (n :: ids ta ++ ids tb)].
Proof.
move=> ga gb u nn hl B; have [ca sa] := comp_at ga; have [cb sb] := comp_at gb.
have [hla hlb] := andP (sum_height ta tb n).
have [{}hla {}hlb] := (leq_trans hla hl, leq_trans hlb hl).
rewrite /OldPlusModel.plus /bindN /lift /get /= ca cb sa.
case: ta tb ga gb u nn hl B hla hlb {ca cb sa sb} => [i d|i ts] [k d'|k us] ga gb u nn hl B hla hlb.
- exact: (both_at ga gb u nn hl B).
- have u' : uniq (ids (Group k us) ++ ids (One i d)) by rewrite uniq_catC.
  have [|h' [e g o]] := addTo_at n gb ga u' hlb hla; first by rewrite mulnC.
  exists h'; split=> //; first by rewrite /= e.
  by move=> j hj; apply: o; move: hj; rewrite inE !mem_cat !negb_or => /and3P [_ -> ->].
- have [h' [e g o]] := addTo_at n ga gb u hla hlb B.
  exists h'; split=> //; first by rewrite /= e.
  by move=> j hj; apply: o; move: hj; rewrite inE negb_or => /andP [].
- case: ts ga u nn hl B hla => [|t ts] ga u nn hl B hla; first by exists h; split.
  exact: (both_at ga gb u nn hl B).
Qed.

Lemma szs_pos1 us : (forall u, List.In u us -> 0 < size_of u) -> 0 < szs us.
Proof. by elim: us => //= u us IH hp; rewrite muln_gt0 hp ?IH //; [move=> v hv; apply: hp; right|left]. Qed.
Lemma in_flat t ts j : List.In t ts -> j \in ids t -> j \in flatten (map ids ts).
Proof. by elim: ts => //= x l IH [->|/IH h /h]; rewrite mem_cat ?orbT => -> //; rewrite orbT. Qed.

Lemma addAll_at us : forall vs h c n, at_ h (Group c vs) None 1 1 -> (forall u, List.In u us -> at_ h u None 1 1) ->
  uniq (ids (Group c vs) ++ flatten (map ids us)) -> height (Group c (vs ++ us)) <= lim -> szs (vs ++ us) <= big ->
  exists h', [/\ addAll c (map nameOf us) (h, n) = ((h', n), Ok tt), at_ h' (Group c (vs ++ us)) None 1 1 &
    outside h h' (ids (Group c vs) ++ flatten (map ids us))].
Proof.
elim: us => [|u us IH] vs h c n g gs uq hl B; first by exists h; rewrite cats0; split.
have gu : at_ h u None 1 1 by apply: gs; left.
move: (uq); rewrite [map ids _]/= [flatten _]/= catA cat_uniq => /and3P [u1 dis u2].
move: (hl); rewrite /= map_cat maxn_cat /= !gtn_max => /and3P [l1 l2 l3].
have ps : 0 < szs us by apply: szs_pos1 => v hv; apply: size_pos; apply: gs; right; exact: hv.
have B1 : szs vs * size_of u <= big.
  by apply: leq_trans B; rewrite szs_cat /= leq_mul2l leq_pmulr ?orbT.
have [h1 [e1 g1 o1]] := addTo_at n g gu u1 l1 (ltnW l2) B1.
have [||||h2 [e2 g2 o2]] := IH (vs ++ [:: u]) h1 c n g1.
- move=> v hv; apply: (@at_ext h); last by apply: gs; right.
  move=> j hj; apply: o1; apply/negP => hj'; move/hasPn: dis => /(_ j (in_flat hv hj)).
  by rewrite /= -[_ \in _]/(j \in ids (Group c vs) ++ ids u) hj'.
- by rewrite /= map_cat flatten_cat /= cats0 -catA; exact: uq.
- by rewrite -catA.
- by rewrite -catA.
rewrite -catA in g2; exists h2; split=> //; first by rewrite /= (bindNOk _ e1).
move=> j hj; rewrite o2 ?o1 //; move: hj; rewrite /= ?map_cat ?flatten_cat /= ?cats0 !inE !mem_cat !negb_or.
  by move=> /and3P [-> /andP [-> ->] _].
by [].
Qed.

Lemma copy_at t : forall fuel h n p b a, at_ h t p b a -> (forall j, j \in ids t -> j < n) ->
  height t <= fuel -> height t <= lim -> size_of t <= big ->
  exists h', [/\ copy fdiv lim fuel (nameOf t) (h, n) = ((h', (clone t n).2), Ok (nameOf (clone t n).1)),
    at_ h' (clone t n).1 None 1 1 & forall j, j < n -> h' j = h j].
Proof.
elim/tree_all: t => [i d|i ts IH] [//|fuel] h n p b a g lt hf hl B.
  have [e dp] := g; exists (upd h n (newOne (Some d))); split=> [||j jn].
  - by rewrite /= /bindN /lift /get /= e.
  - by rewrite /= updE.
  - by rewrite updN // ltn_eqF.
have ci := clone_ids (Group i ts) n; rewrite clone_group in ci *.
move/at_group: (g) => [[dd [hi _]] ks].
have L : forall ts1 n1 h1 b1, (forall t, List.In t ts1 -> List.In t ts) -> kids h1 i ts1 b1 a -> n <= n1 ->
    exists h', [/\ mapN (copy fdiv lim fuel) (map nameOf ts1) (h1, n1) = ((h', (cloneAll ts1 n1).2), Ok (map nameOf (cloneAll ts1 n1).1)),
      forall u, List.In u (cloneAll ts1 n1).1 -> at_ h' u None 1 1, n1 <= (cloneAll ts1 n1).2 & forall j, j < n1 -> h' j = h1 j].
  elim=> [|t ts1 IHt] n1 h1 b1 sub k1 nn1; first by exists h1; split.
  have [k2 k3] := k1; have ht : List.In t ts by apply: sub; left.
  have ltt j : j \in ids t -> j < n by move=> hj; apply: lt; rewrite /= inE (in_flat ht hj) orbT.
  have Bt : size_of t <= big.
    have hp t' : List.In t' ts -> 0 < size_of t'.
      elim: (ts) (b) ks => //= x l IHl b2 [kx kl] [<-|]; [exact: size_pos kx|exact: IHl kl].
    apply: leq_trans B; rewrite szsE; elim: (ts) ht hp => //= x l IHl [->|hx] hp.
      by rewrite leq_pmulr // szs_pos1 // => v hv; apply: hp; right.
    by apply: (leq_trans (IHl hx _)) => [v hv|]; [apply: hp; right|rewrite leq_pmull // hp //; left].
  have hh : height t < height (Group i ts).
    by rewrite /= ltnS; elim: (ts) ht => //= x l IHl [->|/IHl h2]; rewrite leq_max ?leqnn ?h2 ?orbT.
  have [||||h2 [e2 g2 o2]] := IH t ht fuel h1 n1 _ _ _ k2.
  - by move=> j /ltt hj; exact: leq_trans hj nn1.
  - by rewrite -ltnS; exact: leq_trans hh hf.
  - by exact: leq_trans (ltnW hh) hl.
  - exact: Bt.
  rewrite /=; have [c1 [[c2 [_ c3]] _]] := clone_ids t n1; case ec: (clone t n1) c1 c2 c3 e2 g2 => [u m] /= c1 c2 c3 e2 g2.
  have [|||h3 [e3 g3 n3 o3]] := IHt m h2 (b1 * size_of t).
  - by move=> t' ht'; apply: sub; right.
  - apply: kids_ext k3 => j hj; apply: o2; apply: (leq_trans _ nn1); apply: lt; rewrite /= inE.
    suff -> : j \in flatten (map ids ts) by rewrite orbT.
    elim: (ts1) hj sub {IHt k1} => //= x l IHl; rewrite mem_cat => /orP [hj|hj] sub.
      by apply: (in_flat _ hj); apply: sub; right; left.
    by apply: IHl hj _ => t' [e0|ht']; apply: sub; [left|right; right].
  - exact: leq_trans nn1 c2.
  case: (cloneAll ts1 m) e3 g3 n3 => us m' /= e3 g3 n3; exists h3; split.
  - by rewrite (bindNOk _ e2) (bindNOk _ e3).
  - move=> v [<-|/g3 //]; apply: at_ext g2 => j /c3 /andP [_ y]; exact: o3.
  - exact: leq_trans c2 n3.
  - by move=> j hj; rewrite o3 ?o2 //; exact: leq_trans hj c2.
have [h1 [e1 g1 n1 o1]] := L ts n h b (fun _ x => x) ks (leqnn n).
case: (cloneAll ts n) ci e1 g1 n1 => us m /= [_ [[_ [u3 s3]] [z hh]]] e1 g1 n1.
have um : m \notin flatten (map ids us) by case/andP: u3.
have [||||h2 [e2 g2 o2]] := addAll_at (us := us) (vs := [::]) m.+1 (fresh_at h1 m).
- move=> u hu; apply: at_upd (g1 u hu); apply/negP => hm; move/negP: um; apply; exact: in_flat hu hm.
- exact: u3.
- by rewrite cat0s hh.
- by rewrite cat0s -(szsE m) z.
exists h2; split=> //.
  rewrite /= (@bindNOk _ _ _ _ _ (h, n) (h i)) // hi (bindNOk _ e1) /=.
  by rewrite (@bindNOk _ _ _ _ _ (upd h1 m newComp, m.+1) m) // (bindNOk _ e2).
move=> j jn; rewrite o2 ?updN ?o1 //; first by rewrite ltn_eqF //; exact: leq_trans jn n1.
rewrite /= inE negb_or (ltn_eqF (leq_trans jn n1)) /=; apply/negP => hj.
by have := s3 j; rewrite inE hj orbT => /(_ isT) /andP [x _]; have := leq_trans jn x; rewrite ltnn.
Qed.

Lemma copies_at k : forall h n t us m, (forall j, j \in ids t -> j < n) -> uniq (ids t) -> between n.+1 m (flatten (map ids us)) ->
  at_ h (Group n (t :: us)) None 1 1 -> height (Group n (t :: us ++ (clones k t m).1)) <= lim ->
  szs (t :: us ++ (clones k t m).1) <= big ->
  exists h', [/\ addCopies fdiv lim k n (nameOf t) (h, m) = ((h', (clones k t m).2), Ok tt),
    at_ h' (Group n (t :: us ++ (clones k t m).1)) None 1 1 & forall j, j \notin ids t -> j < n -> h' j = h j].
Proof.
elim: k => [|k IH] h n t us m lt ut bt g hl B; first by exists h; rewrite /= cats0.
move/at_group: (g) => [_ [gt _]].
have hlt : height t <= lim by move: hl; rewrite /= gtn_max => /andP [/ltnW].
have ltm j : j \in ids t -> j < m by move=> /lt hj; case: bt => h1 _; exact: leq_trans (ltn_trans hj (ltnSn n)) h1.
have pt := size_pos gt.
have ps : 0 < szs us by move/at_group: g => [_ [_ kk]]; exact: szs_pos kk.
have Bt : size_of t <= big.
  by apply: leq_trans B; rewrite -[szs (t :: _)]/(size_of t * szs _) leq_pmulr // szs_cat muln_gt0 ps clones_size expn_gt0 pt.
have [h1 [e1 g1 o1]] := copy_at gt ltm hlt hlt Bt.
have [c1 [c2 [z _]]] := clone_ids t m; move: hl B; rewrite /=.
have cs := clones_size t k (clone t m).2.
case: (clone t m) e1 g1 c1 c2 z cs => u m1 /= e1 g1 c1 c2 z cs.
case ecs: (clones k t m1) cs => [ws m2] /= cs hl B.
have [_ [ubt sbt]] := bt; have [_ [uc2 sc2]] := c2.
have lG j : j \in ids (Group n (t :: us)) -> j < m.
  rewrite /= inE mem_cat => /or3P [/eqP ->|/ltm //|/sbt /andP [] //]; by case: bt.
have uG : uniq (ids (Group n (t :: us))) by have [] := new_ids ut lt bt.
have g' : at_ h1 (Group n (t :: us)) None 1 1 by apply: at_ext g => j /lG; exact: o1.
have uu : uniq (ids (Group n (t :: us)) ++ ids u).
  rewrite cat_uniq uG uc2 andbT; apply/hasPn => j /sc2 /andP [x _]; apply/negP => /lG y.
  by have := leq_trans y x; rewrite ltnn.
move: (hl); rewrite gtn_max map_cat maxn_cat /= !gtn_max => /and4P [k1 k2 k3 k4].
have B1 : szs (t :: us) * size_of u <= big.
  by apply: leq_trans B; rewrite -/(szs _) szs_cat /= mulnA leq_mul2l leq_pmulr ?orbT // cs expn_gt0 pt.
have [||h2 [e2 g2 o2]] := addTo_at m1 g' g1 uu _ _ B1; [by rewrite /= gtn_max k1 k2|exact: ltnW|].
have bt' : between n.+1 m1 (flatten (map ids (us ++ [:: u]))).
  by rewrite map_cat flatten_cat /= cats0; exact: between_cat bt c2.
have := IH h2 n t (us ++ [:: u]) m1 lt ut bt' g2; rewrite ecs -catA => /(_ hl B) [h3 [e3 g3 o3]].
exists h3; split=> //; first by rewrite (bindNOk _ e1) (bindNOk _ e2).
move=> j jt jn; rewrite o3 // o2 ?o1 //; first by case: bt => h0 _; exact: leq_trans (ltn_trans jn (ltnSn n)) h0.
have jm : j < m by case: bt => h0 _; exact: leq_trans (ltn_trans jn (ltnSn n)) h0.
rewrite mem_cat negb_or; apply/andP; split; apply/negP.
  rewrite /= inE mem_cat (negbTE jt) (ltn_eqF jn) /= => /sbt /andP [x _].
  by have := ltn_trans jn x; rewrite ltnn.
by move=> /sc2 /andP [x _]; have := leq_trans jm x; rewrite ltnn.
Qed.

Lemma times_at h n t k : (forall j, j \in ids t -> j < n) -> uniq (ids t) -> at_ h t None 1 1 ->
  height (shape (Times k t) n).1 <= lim -> size_of (shape (Times k t) n).1 <= big ->
  exists h', [/\ times fdiv lim k (nameOf t) (h, n) = ((h', (shape (Times k t) n).2), Ok n), at_ h' (shape (Times k t) n).1 None 1 1 &
    forall j, j \notin ids t -> j < n -> h' j = h j].
Proof.
move=> lt ut g; rewrite /=; have cs := clones_size t k.-1 n.+1.
case ec: (clones k.-1 t n.+1) cs => [us m] cs /= hl B; move: (hl); rewrite gtn_max => /andP [hlt _].
have ni : n \notin ids t by apply/negP => /lt; rewrite ltnn.
have u : uniq (ids (Group n [::]) ++ ids t) by rewrite /= ni.
have pt := size_pos g.
have [|||h1 [e1 g1 o1]] := addTo_at n.+1 (fresh_at h n) (at_upd newComp ni g) u.
- exact: leq_ltn_trans (leq0n _) hlt.
- exact: ltnW.
- by rewrite mul1n; apply: leq_trans B; rewrite leq_pmulr // -/(szs us) cs expn_gt0 pt.
have b0 : between n.+1 n.+1 (flatten (map ids [::])) by [].
have := @copies_at k.-1 h1 n t [::] n.+1 lt ut b0 g1; rewrite ec => /(_ hl B) [h2 [e2 g2 o2]].
exists h2; split=> //.
  rewrite /times (@bindNOk _ _ _ _ _ (upd h n newComp, n.+1) n) //.
  by rewrite (bindNOk _ e1) (bindNOk _ e2).
by move=> j jt jn; rewrite o2 // o1 ?updN ?ltn_eqF //= inE negb_or jt ltn_eqF.
Qed.

Lemma twice_at h n t : (forall j, j \in ids t -> j < n) -> uniq (ids t) -> at_ h t None 1 1 ->
  height (shape (Twice t) n).1 <= lim -> size_of (shape (Twice t) n).1 <= big ->
  exists h', [/\ plus (nameOf t) (nameOf t) (h, n) = ((h', (shape (Twice t) n).2), Ok (nameOf (shape (Twice t) n).1)),
    at_ h' (shape (Twice t) n).1 None 1 1 & forall j, j \notin ids t -> j < n -> h' j = h j].
Proof.
move=> lt ut g; have [ct st] := comp_at g.
have main : let: (u, m) := clone t n.+1 in height (Group n [:: t; u]) <= lim -> size_of (Group n [:: t; u]) <= big ->
    exists h', [/\ both (nameOf t) (nameOf t) (h, n) = ((h', m), Ok n), at_ h' (Group n [:: t; u]) None 1 1 &
      forall j, j \notin ids t -> j < n -> h' j = h j].
  have ni : n \notin ids t by apply/negP => /lt; rewrite ltnn.
  have pt := size_pos g.
  have [_ [c2 [z hh]]] := clone_ids t n.+1.
  have lt' j : j \in ids t -> j < n.+1 by move=> /lt hj; exact: ltnW.
  case ec: (clone t n.+1) c2 z hh => [u m] c2 z hh hl B; rewrite /= in c2 z hh; rewrite /= hh z maxn0 maxnn muln1 in hl B.
  have Bt : size_of t <= big by apply: leq_trans B; rewrite leq_pmulr.
  have := copy_at (at_upd newComp ni g) lt' (ltnW hl) (ltnW hl) Bt; rewrite ec => -[h1 [e1 g1 o1]].
  have g0 : at_ h1 (Group n [::]) None 1 1 by apply: at_ext (fresh_at h n) => j; rewrite /= inE => /eqP ->; apply: o1.
  have gt : at_ h1 t None 1 1 by apply: at_ext (at_upd newComp ni g) => j /lt' ; exact: o1.
  have [_ uu _] := new_ids ut lt c2.
  have [||||h2 [e2 g2 o2]] := addAll_at (us := [:: t; u]) m g0.
  - by move=> v [<-|[<-|//]].
  - by rewrite /= cats0.
  - by rewrite /= hh maxn0 maxnn.
  - by rewrite /= z muln1.
  exists h2; split=> //.
    rewrite /OldPlusModel.both (@bindNOk _ _ _ _ _ (upd h n newComp, n.+1) n) // eqxx (bindNOk _ e1).
    by rewrite (bindNOk _ e2).
  move=> j jt jn; rewrite o2 ?o1 ?updN ?ltn_eqF //; first by exact: ltnW.
  rewrite /= cats0 inE mem_cat (negbTE jt) (ltn_eqF jn) /=; case: c2 => _ [_ sc]; apply/negP => /sc /andP [x _].
  by have := ltn_trans jn x; rewrite ltnn.
rewrite /OldPlusModel.plus /bindN /lift /get /= ct st; move: main; case: (clone t n.+1) => u m main.
case: t main {ct st lt ut} g => [i d|i [|t ts]] main g hl B; [exact: main|by exists h|exact: main].
Qed.

Lemma eval_at e : forall h n, (forall t, List.In t (leaves e) -> at_ h t None 1 1) -> uniq (lids e) ->
  (forall j, j \in lids e -> j < n) -> height (shape e n).1 <= lim -> size_of (shape e n).1 <= big ->
  exists h', [/\ eval fdiv lim e (h, n) = ((h', (shape e n).2), Ok (nameOf (shape e n).1)),
    at_ h' (shape e n).1 None 1 1 & forall j, j \notin lids e -> j < n -> h' j = h j].
Proof.
elim: e => [t|a IHa b IHb|k t|t] h n hat u lt hl B.
- by exists h; split=> //; apply: hat; left.
- have ps t : List.In t (leaves (Plus a b)) -> 0 < size_of t by move=> /hat /size_pos.
  move: hl B u lt; rewrite /lids /= map_cat flatten_cat -/(lids a) -/(lids b).
  case ea: (shape a n) => [ta m]; case eb: (shape b m) => [tb m2] hl B u lt.
  have u0 := u; rewrite cat_uniq in u; case/and3P: u => ua dis ub.
  have lta j : j \in lids a -> j < n by move=> hj; apply: lt; rewrite mem_cat hj.
  have ltb j : j \in lids b -> j < n by move=> hj; apply: lt; rewrite mem_cat hj orbT.
  have [n1 _ s1] := shape_ids ua lta; rewrite ea /= in n1 s1.
  have ltb' j : j \in lids b -> j < m by move=> /ltb hj; exact: leq_trans hj n1.
  have [n2 _ s2] := shape_ids ub ltb'; rewrite eb /= in n2 s2.
  have [hla hlb] := andP (sum_height ta tb m2); rewrite sum_size in B.
  have pa : 0 < size_of ta by have := @shape_pos a n; rewrite ea; apply=> t ht; apply: ps; apply/List.in_or_app; left.
  have pb : 0 < size_of tb by have := @shape_pos b m; rewrite eb; apply=> t ht; apply: ps; apply/List.in_or_app; right.
  have [|||h1 []] := IHa h n _ ua lta; rewrite ?ea /=.
  + by move=> t ht; apply: hat; apply/List.in_or_app; left.
  + exact: leq_trans hla hl.
  + by apply: leq_trans B; rewrite leq_pmulr.
  move=> e1 g1 o1.
  have inb t j : List.In t (leaves b) -> j \in ids t -> j \in lids b.
    move=> ht hj; rewrite /lids; elim: (leaves b) ht => //= x l IH [->|/IH]; by rewrite mem_cat ?hj // => ->; rewrite orbT.
  have [|||h2 []] := IHb h1 m _ ub ltb'; rewrite ?eb /=.
  + move=> t ht; apply: (@at_ext h); last by apply: hat; apply/List.in_or_app; right.
    move=> j /(inb _ _ ht) hj; apply: o1 (ltb j hj); apply/negP => hj'.
    by move/hasPn: dis => /(_ j hj); rewrite /= hj'.
  + exact: leq_trans hlb hl.
  + by apply: leq_trans B; rewrite leq_pmull.
  move=> e2 g2 o2.
  have la j : j \in ids ta -> j < m by move=> /s1 /orP [/lta hj|/andP [] //]; exact: leq_trans hj n1.
  have lb j : j \in ids tb -> j < m2 by move=> /s2 /orP [/ltb' hj|/andP [] //]; exact: leq_trans hj n2.
  have dab j : j \in ids ta -> j \notin lids b.
    move=> hj; apply/negP => hb; have /orP [ha|/andP [x _]] := s1 j hj.
      by move/hasPn: dis => /(_ j hb); rewrite /= ha.
    by have := ltb j hb; rewrite ltnNge x.
  have g1' : at_ h2 ta None 1 1 by apply: at_ext g1 => j hj; apply: o2; [exact: dab|exact: la].
  have sh := @shape_ids (Plus a b) n; rewrite /lids /= map_cat flatten_cat -/(lids a) -/(lids b) ea eb in sh.
  have uu : uniq (ids ta ++ ids tb).
    have [_ u1 _] := shape_ids ua lta; have [_ u2 _] := shape_ids ub ltb'; rewrite ea eb /= in u1 u2.
    rewrite cat_uniq u1 u2 andbT; apply/hasPn => j hj; apply/negP => hj'.
    have /orP [x|/andP [x _]] := s2 j hj; first by have := dab j hj'; rewrite x.
    by have := la j hj'; rewrite ltnNge x.
  have nn : m2 \notin ids ta ++ ids tb.
    rewrite mem_cat; apply/negP => /orP [/la|/lb]; rewrite ?ltnn // => h0.
    by have := leq_trans h0 n2; rewrite ltnn.
  have [h3 [e3 g3 o3]] := plus_at g1' g2 uu nn hl B.
  exists h3; split=> //; first by rewrite /bindN e1 e2 e3.
  move=> j; rewrite mem_cat negb_or => /andP [ja jb] jn.
  rewrite o3 ?o2 ?o1 //; first exact: leq_trans jn n1.
  rewrite inE mem_cat !negb_or neq_ltn (leq_trans jn (leq_trans n1 n2)) /=; apply/andP; split; apply/negP.
    by move=> /s1; rewrite (negbTE ja) /= leqNgt jn.
  by move=> /s2; rewrite (negbTE jb) /= leqNgt (leq_trans jn n1).
- move: u lt; rewrite /lids [leaves _]/= [map _ _]/= [flatten _]/= cats0 => u lt.
  have gt : at_ h t None 1 1 by apply: hat; left.
  have [h' [e1 g1 o1]] := times_at lt u gt hl B; exists h'; split=> //.
  by rewrite [LHS]e1 /=; case: (clones _ _ _).
- move: u lt; rewrite /lids [leaves _]/= [map _ _]/= [flatten _]/= cats0 => u lt.
  have gt : at_ h t None 1 1 by apply: hat; left.
  by have [h' [e1 g1 o1]] := twice_at lt u gt hl B; exists h'; split.
Qed.

(** The systems an expression begins with, built one after the other. *)
Lemma leaves_at comp ds ts : forall h, newAt h comp ds (flatten (map ids ts)) -> all (made comp ds) ts -> uniq (flatten (map ids ts)) ->
  all (fun t => (height t <= lim) && (size_of t <= big)) ts ->
  exists h', [/\ run fdiv lim (flatten (map build ts)) h = (h', Ok tt), forall t, List.In t ts -> at_ h' t None 1 1 &
    outside h h' (flatten (map ids ts))].
Proof.
elim: ts => [|t ts IH] h hn /=; first by exists h; split.
move=> /andP [mt ms]; rewrite cat_uniq => /and3P [ut dis us] /andP [/andP [l1 b1] lb].
have [|h1 [e1 g1 o1]] := build_at hdiv (h := h) (t := t) _ mt ut l1 b1; first by move=> j hj; apply: hn; rewrite /= mem_cat hj.
have d j : j \in flatten (map ids ts) -> j \notin ids t by move=> hj; move/hasPn: dis => /(_ j hj).
have [||//|//|h2 [e2 g2 o2]] := IH h1 _ _ _ _; rewrite //.
  by move=> j hj; rewrite o1 ?d // hn //= mem_cat hj orbT.
exists h2; split.
- by rewrite (run_cat _ e1).
- move=> t' [<-|/g2 //]; apply: at_ext g1 => j hj; apply: o2; apply/negP => /d; by rewrite hj.
- by move=> j; rewrite mem_cat negb_or => /andP [j1 j2]; rewrite o2 // o1.
Qed.
End P.
