(** Proofs for C94: nested composite systems. *)
From Verif Require Import Py.
From mathcomp Require Import all_ssreflect.
From Verif Require Import OldDimModel OldDimSpec OldDimProofs.
Set Implicit Arguments.
Unset Strict Implicit.
Unset Printing Implicit Defensive.

Definition szs (ts : seq tree) : nat := foldr (fun t n => size_of t * n) 1 ts.
Lemma tree_all (P : tree -> Prop) : (forall i d, P (One i d)) -> (forall i ts, (forall t, List.In t ts -> P t) -> P (Group i ts)) ->
  forall t, P t.
Proof.
move=> h1 h2; fix IH 1; case=> [i d|i ts]; first exact: h1.
apply: h2; elim: ts => [|t ts IHs] u; first by case.
by case=> [<-|]; [exact (IH t)|exact (IHs u)].
Qed.

(** The tree is stored with these dimensions before and after it. *)
Fixpoint at_ (h : heap) (t : tree) (p : option nat) (b a : nat) : Prop :=
  match t with
  | One i d => h i = Obj false (Some d) b a [::] p /\ 0 < d
  | Group i ts => (exists d, h i = Obj true d b a (map nameOf ts) p /\ (d = None \/ d = Some (szs ts))) /\
      (fix kids (ts : seq tree) (b : nat) : Prop :=
         match ts with
         | [::] => True
         | t :: ts' => at_ h t (Some i) b (szs ts' * a) /\ kids ts' (b * size_of t)
         end) ts b
  end.
Fixpoint kids (h : heap) (i : nat) (ts : seq tree) (b a : nat) : Prop :=
  match ts with [::] => True | t :: ts' => at_ h t (Some i) b (szs ts' * a) /\ kids h i ts' (b * size_of t) a end.
Lemma at_group h i ts p b a : at_ h (Group i ts) p b a <->
  (exists d, h i = Obj true d b a (map nameOf ts) p /\ (d = None \/ d = Some (szs ts))) /\ kids h i ts b a.
Proof.
rewrite /=; suff -> : forall b, (fix kids (ts : seq tree) (b : nat) : Prop :=
         match ts with
         | [::] => True
         | t :: ts' => at_ h t (Some i) b (szs ts' * a) /\ kids ts' (b * size_of t)
         end) ts b = kids h i ts b a by [].
by elim: ts {b} => //= t ts IH b; rewrite IH.
Qed.

Lemma name_in t : nameOf t \in ids t.
Proof. by case: t => *; rewrite /= inE eqxx. Qed.
Lemma names_sub ts j : j \in map nameOf ts -> j \in flatten (map ids ts).
Proof.
elim: ts => //= t ts IH; rewrite inE mem_cat => /orP [/eqP ->|/IH ->]; by rewrite ?name_in ?orbT.
Qed.
Lemma at_ext h h' t : forall p b a, (forall i, i \in ids t -> h' i = h i) -> at_ h t p b a -> at_ h' t p b a.
Proof.
elim/tree_all: t => [i d|i ts IH] p b a e; first by rewrite /= e // inE.
rewrite !at_group e ?inE ?eqxx // => -[h1 h2]; split=> //; move: b h2 e {h1}.
elim: ts IH => //= t ts IHs IH b [k1 k2] e; split.
  by apply: IH k1; [left|move=> j hj; apply: e; rewrite inE mem_cat hj orbT].
apply: IHs k2 _ => [u hu|j hj]; first by apply: IH; right.
by apply: e; move: hj; rewrite !inE mem_cat => /orP [->|->]; rewrite ?orbT.
Qed.
Lemma kids_ext h h' i ts b a : (forall j, j \in flatten (map ids ts) -> h' j = h j) -> kids h i ts b a -> kids h' i ts b a.
Proof.
elim: ts b => //= t ts IH b e [k1 k2]; split.
  by apply: at_ext k1 => j hj; apply: e; rewrite mem_cat hj.
by apply: IH k2 => j hj; apply: e; rewrite mem_cat hj orbT.
Qed.
Lemma at_name h t p b a : at_ h t p b a -> [/\ bef (h (nameOf t)) = b, aft (h (nameOf t)) = a & sup (h (nameOf t)) = p].
Proof. by case: t => [i d [-> _]|i ts] //=; case=> -[d [-> _]] _. Qed.
Lemma at_sup h t p q b a : at_ h t p b a -> uniq (ids t) -> at_ (upd h (nameOf t) (withSup q (h (nameOf t)))) t q b a.
Proof.
case: t => [i d [e hd] _|i ts]; first by rewrite /= updE e.
rewrite !at_group => -[[d [e hd]] k] /= /andP [u _]; split; first by exists d; rewrite updE e.
by apply: kids_ext k => j hj; rewrite updN //; apply: contraNneq u => <-.
Qed.
Lemma size_pos h t p b a : at_ h t p b a -> 0 < size_of t.
Proof.
elim/tree_all: t p b a => [i d|i ts IH] p b a; first by case.
rewrite at_group => -[_]; rewrite /=; elim: ts b IH => //= t ts IHs b IH [k1 k2].
by rewrite muln_gt0 (IH t _ _ _ _ k1) ?(IHs _ _ k2) //; [move=> u hu; apply: IH; right|left].
Qed.
Lemma szs_pos h i ts b a : kids h i ts b a -> 0 < szs ts.
Proof. by elim: ts b => //= t ts IH b [k1 k2]; rewrite muln_gt0 (size_pos k1) (IH _ k2). Qed.

Section Nest.
Variable fdiv : nat -> nat -> nat.
Variable big : nat.
Hypothesis hdiv : exactUpTo big fdiv.
#[local] Arguments setBef : simpl never.
#[local] Arguments setAft : simpl never.
#[local] Arguments dimension : simpl never.

Definition outside (h h' : heap) (l : seq nat) : Prop := forall j, j \notin l -> h' j = h j.

Lemma setBef_at t : forall lim h p b a e, at_ h t p b a -> uniq (ids t) -> height t <= lim -> 0 < b -> 0 < e -> b * e * size_of t <= big ->
  exists h', [/\ setBef fdiv lim (nameOf t) (b * e) h = (h', Ok tt), at_ h' t p (b * e) a & outside h h' (ids t)].
Proof.
elim/tree_all: t => [i d|i ts IH] [|lim] h p b a e //.
  move=> [hi hd] _ _ _ _ _; exists (upd h i (withBef (b * e) (h i))); split.
  - by rewrite setBef1 ?hi.
  - by rewrite /= updE hi.
  by move=> j; rewrite inE => hj; rewrite updN.
rewrite at_group => -[[d [hi hd]] hk] /= /andP [ui u]; rewrite ltnS => hl hb he hB.
pose h0 := upd h i (withBef (b * e) (h i)).
have ki : kids h0 i ts b a by apply: kids_ext hk => j hj; rewrite /h0 updN //; apply: contraNneq ui => <-.
have L : forall ts' b' h1, (forall t, List.In t ts' -> List.In t ts) -> kids h1 i ts' b' a -> uniq (flatten (map ids ts')) ->
    foldr maxn 0 (map height ts') <= lim -> 0 < b' -> b' * e * szs ts' <= big ->
    exists h', [/\ each (map nameOf ts') (fun s => bindM (getBef s) (fun x => bindM (quot fdiv (x * (b * e)) b) (fun w => setBef fdiv lim s w))) h1 = (h', Ok tt),
      kids h' i ts' (b' * e) a & outside h1 h' (flatten (map ids ts'))].
  elim=> [|t ts' IHt] b' h1 hin k1 u1 l1 p1 B1 /=; first by exists h1.
  move: k1 u1 l1 B1 => /= [kt kts]; rewrite cat_uniq geq_max => /and3P [ut dis uts] /andP [lt lts] B1.
  have sp := size_pos kt; have zp := szs_pos kts; have [bt _ _] := at_name kt.
  have B2 : b' * e * size_of t <= big by apply: leq_trans B1; rewrite mulnA leq_pmulr.
  have Be : b' * e <= big by apply: leq_trans B2; rewrite leq_pmulr.
  have [h2 [e2 k2 o2]] := IH t (hin t (or_introl erefl)) lim h1 (Some i) b' (szs ts' * a) e kt ut lt p1 he B2.
  rewrite (@bindOk _ _ _ _ h1 h2 tt); last first.
    rewrite (bindOk _ (getBefP _)) bt // (@bindOk _ _ _ _ h1 h1 (b' * e)) //.
    rewrite /quot; case: eqP => [e0|_]; first by rewrite e0 in hb.
    by rewrite mulnCA [b * _]mulnC hdiv.
  have kts2 : kids h2 i ts' (b' * size_of t) a.
    apply: kids_ext kts => j hj; apply: o2; apply: contra dis => hj2; apply/hasP; by exists j.
  have B3 : b' * size_of t * e * szs ts' <= big by rewrite (mulnAC b') -mulnA.
  have [||h3 [e3 k3 o3]] := IHt (b' * size_of t) h2 _ kts2 uts lts _ B3.
  - by move=> x hx; apply: hin; right.
  - by rewrite muln_gt0 p1.
  exists h3; rewrite e3; split=> //.
    split; last by rewrite mulnAC.
    apply: at_ext k2 => j hj; apply: o3; apply/negP => hj2; move/negP: dis; apply; apply/hasP; by exists j.
  by move=> j; rewrite mem_cat negb_or => /andP [j1 j2]; rewrite o3 // o2.
have [|h' [e1 k1 o1]] := L ts b h0 (fun t ht => ht) ki u hl hb _; first by rewrite /szs.
exists h'; split.
- rewrite -[setBef _ _ _ _]/(bindM _ _) (bindOk _ (getBefP _)) hi //=.
  rewrite (@bindOk _ _ _ _ h h0 tt) // (@bindOk _ _ _ _ h0 h0 (h0 i)) // /h0 updE hi /=.
  by rewrite -hi -/h0.
- by apply/at_group; split=> //; exists d; split=> //; rewrite o1 // /h0 updE hi.
by move=> j; rewrite inE negb_or => /andP [j1 j2]; rewrite o1 // /h0 updN.
Qed.
Lemma setAft_at t : forall lim h p b a e, at_ h t p b a -> uniq (ids t) -> height t <= lim -> 0 < a -> 0 < e -> a * e * size_of t <= big ->
  exists h', [/\ setAft fdiv lim (nameOf t) (a * e) h = (h', Ok tt), at_ h' t p b (a * e) & outside h h' (ids t)].
Proof.
elim/tree_all: t => [i d|i ts IH] [|lim] h p b a e //.
  move=> [hi hd] _ _ _ _ _; exists (upd h i (withAft (a * e) (h i))); split.
  - by rewrite setAft1 ?hi.
  - by rewrite /= updE hi.
  by move=> j; rewrite inE => hj; rewrite updN.
rewrite at_group => -[[d [hi hd]] hk] /= /andP [ui u]; rewrite ltnS => hl hb he hB.
pose h0 := upd h i (withAft (a * e) (h i)).
have ki : kids h0 i ts b a by apply: kids_ext hk => j hj; rewrite /h0 updN //; apply: contraNneq ui => <-.
have L : forall ts' b' h1, (forall t, List.In t ts' -> List.In t ts) -> kids h1 i ts' b' a -> uniq (flatten (map ids ts')) ->
    foldr maxn 0 (map height ts') <= lim -> 0 < a -> a * e * szs ts' <= big ->
    exists h', [/\ each (map nameOf ts') (fun s => bindM (getAft s) (fun x => bindM (quot fdiv (x * (a * e)) a) (fun w => setAft fdiv lim s w))) h1 = (h', Ok tt),
      kids h' i ts' b' (a * e) & outside h1 h' (flatten (map ids ts'))].
  elim=> [|t ts' IHt] b' h1 hin k1 u1 l1 p1 B1 /=; first by exists h1.
  move: k1 u1 l1 B1 => /= [kt kts]; rewrite cat_uniq geq_max => /and3P [ut dis uts] /andP [lt lts] B1.
  have sp := size_pos kt; have zp := szs_pos kts; have [_ bt _] := at_name kt; have xp : 0 < szs ts' * a by rewrite muln_gt0 zp.
  have B2 : szs ts' * a * e * size_of t <= big by apply: leq_trans B1; rewrite -!mulnA mulnC -!mulnA.
  have Be : szs ts' * a * e <= big by apply: leq_trans B2; rewrite leq_pmulr.
  have [h2 [e2 k2 o2]] := IH t (hin t (or_introl erefl)) lim h1 (Some i) b' (szs ts' * a) e kt ut lt xp he B2.
  rewrite (@bindOk _ _ _ _ h1 h2 tt); last first.
    rewrite (bindOk _ (getAftP _)) bt // (@bindOk _ _ _ _ h1 h1 (szs ts' * a * e)) //.
    rewrite /quot; case: eqP => [e0|_]; first by rewrite e0 in p1.
    by rewrite mulnCA [a * _]mulnC hdiv.
  have kts2 : kids h2 i ts' (b' * size_of t) a.
    apply: kids_ext kts => j hj; apply: o2; apply: contra dis => hj2; apply/hasP; by exists j.
  have B3 : a * e * szs ts' <= big by apply: leq_trans B1; rewrite leq_mul2l leq_pmull ?orbT.
  have [|h3 [e3 k3 o3]] := IHt (b' * size_of t) h2 _ kts2 uts lts p1 B3.
    by move=> x hx; apply: hin; right.
  exists h3; rewrite e3; split=> //.
    split=> //; rewrite mulnA.
    apply: at_ext k2 => j hj; apply: o3; apply/negP => hj2; move/negP: dis; apply; apply/hasP; by exists j.
  by move=> j; rewrite mem_cat negb_or => /andP [j1 j2]; rewrite o3 // o2.
have [|h' [e1 k1 o1]] := L ts b h0 (fun t ht => ht) ki u hl hb _; first by rewrite /szs.
exists h'; split.
- rewrite -[setAft _ _ _ _]/(bindM _ _) (bindOk _ (getAftP _)) hi //=.
  rewrite (@bindOk _ _ _ _ h h0 tt) // (@bindOk _ _ _ _ h0 h0 (h0 i)) // /h0 updE hi /=.
  by rewrite -hi -/h0.
- by apply/at_group; split=> //; exists d; split=> //; rewrite o1 // /h0 updE hi.
by move=> j; rewrite inE negb_or => /andP [j1 j2]; rewrite o1 // /h0 updN.
Qed.

Lemma dimension_at t : forall lim h p b a, at_ h t p b a -> uniq (ids t) -> height t <= lim ->
  exists h', [/\ dimension lim (nameOf t) h = (h', Ok (size_of t)), at_ h' t p b a & outside h h' (ids t)].
Proof.
elim/tree_all: t => [i d|i ts IH] [|lim] h p b a //.
  by move=> [hi hd] _ _; exists h; split=> //; rewrite (@dimension1 _ _ d) //= hi.
rewrite at_group => -[[d [hi hd]] hk] /= /andP [ui u]; rewrite ltnS => hl.
case: hd => ed; last first.
  exists h; split=> //; first by rewrite (@dimension1 _ _ (szs ts)) ?hi.
  by apply/at_group; split=> //; exists d; split=> //; right.
have L : forall ts' b' acc h1, (forall t, List.In t ts' -> List.In t ts) -> kids h1 i ts' b' a -> uniq (flatten (map ids ts')) ->
    foldr maxn 0 (map height ts') <= lim ->
    exists h', [/\ prodDims (dimension lim) (map nameOf ts') acc h1 = (h', Ok (acc * szs ts')),
      kids h' i ts' b' a & outside h1 h' (flatten (map ids ts'))].
  elim=> [|t ts' IHt] b' acc h1 hin k1 u1 l1 /=; first by exists h1; rewrite muln1.
  move: k1 u1 l1 => /= [kt kts]; rewrite cat_uniq geq_max => /and3P [ut dis uts] /andP [lt lts].
  have [h2 [e2 k2 o2]] := IH t (hin t (or_introl erefl)) lim h1 _ _ _ kt ut lt.
  rewrite (bindOk _ e2).
  have kts2 : kids h2 i ts' (b' * size_of t) a.
    apply: kids_ext kts => j hj; apply: o2; apply: contra dis => hj2; apply/hasP; by exists j.
  have [|h3 [e3 k3 o3]] := IHt (b' * size_of t) (acc * size_of t) h2 _ kts2 uts lts.
    by move=> x hx; apply: hin; right.
  exists h3; rewrite e3 mulnA; split=> //.
    split=> //; apply: at_ext k2 => j hj; apply: o3; apply/negP => hj2; move/negP: dis; apply; apply/hasP; by exists j.
  by move=> j; rewrite mem_cat negb_or => /andP [j1 j2]; rewrite o3 // o2.
have [h1 [e1 k1 o1]] := L ts b 1 h (fun t ht => ht) hk u hl.
exists (upd h1 i (withDim (Some (szs ts)) (h1 i))); split.
- rewrite -[dimension _ _]/(bindM _ _) (@bindOk _ _ _ _ h h (h i)) // hi ed /=.
  by rewrite (bindOk _ e1) mul1n.
- apply/at_group; split.
    by exists (Some (szs ts)); rewrite updE o1 // hi; split=> //; right.
  by apply: kids_ext k1 => j hj; rewrite updN //; apply: contraNneq ui => <-.
by move=> j; rewrite inE negb_or => /andP [j1 j2]; rewrite updN // o1.
Qed.

Lemma kids_cat h i ts t b a : kids h i ts b (size_of t * a) -> at_ h t (Some i) (b * szs ts) a -> kids h i (ts ++ [:: t]) b a.
Proof.
elim: ts b => /= [|u ts IH] b; first by rewrite muln1 mul1n.
move=> [k1 k2] k3; split; last by apply: IH; rewrite -?mulnA.
suff -> : szs (ts ++ [:: t]) * a = szs ts * (size_of t * a) by [].
by rewrite mulnA; congr (_ * _); elim: (ts) => /= [|x l ->]; rewrite ?muln1 ?mul1n ?mulnA.
Qed.

Lemma add_at lim h i ts t : at_ h (Group i ts) None 1 1 -> at_ h t None 1 1 ->
  uniq (ids (Group i ts) ++ ids t) -> height (Group i ts) <= lim -> height t <= lim -> szs ts * size_of t <= big ->
  exists h', [/\ addSub fdiv lim i (nameOf t) h = (h', Ok tt), at_ h' (Group i (ts ++ [:: t])) None 1 1 &
    outside h h' (ids (Group i ts) ++ ids t)].
Proof.
rewrite at_group => -[[d [hi hd]] hk] ht; rewrite cat_uniq => /and3P [/= /andP [ui u] dis ut] hg hl hB.
have L : forall ts' b' h1, kids h1 i ts' b' 1 -> at_ h1 t None b' 1 -> uniq (flatten (map ids ts')) ->
    ~~ has (mem (ids t)) (flatten (map ids ts')) ->
    foldr maxn 0 (map height ts') <= lim -> 0 < b' -> b' * szs ts' * size_of t <= big ->
    exists h', [/\ each (map nameOf ts') (fun s =>
      bindM (getAft s) (fun a => bindM (dimension lim (nameOf t)) (fun d => bindM (setAft fdiv lim s (a * d)) (fun _ =>
      bindM (getBef (nameOf t)) (fun b => bindM (dimension lim s) (fun e => setBef fdiv lim (nameOf t) (b * e))))))) h1 = (h', Ok tt),
      kids h' i ts' b' (size_of t), at_ h' t None (b' * szs ts') 1 & outside h1 h' (flatten (map ids ts') ++ ids t)].
  elim=> [|x ts' IHt] b' h1 k1 kt u1 d1 l1 p1 B1 /=; first by exists h1; rewrite muln1.
  move: k1 u1 l1 B1 d1 => /= [kx kts]; rewrite cat_uniq geq_max has_cat negb_or.
  move=> /and3P [ux dx uts] /andP [lx lts] B1 /andP [d1 d2].
  have sx := size_pos kx; have st := size_pos kt; have zp := szs_pos kts; have [_ ax _] := at_name kx.
  have nt j : j \in ids x -> j \notin ids t by move=> hj; apply/negP => h2; move/negP: d1; apply; apply/hasP; exists j.
  have nt' j : j \in flatten (map ids ts') -> j \notin ids t.
    by move=> hj; apply/negP => h2; move/negP: d2; apply; apply/hasP; exists j.
  have nx j : j \in flatten (map ids ts') -> j \notin ids x.
    by move=> hj; apply/negP => h2; move/negP: dx; apply; apply/hasP; exists j.
  have tx j : j \in ids t -> j \notin ids x by move=> hj; apply/negP => /nt; rewrite hj.
  have [h2 [e2 t2 o2]] := dimension_at kt ut hl.
  have x2 : at_ h2 x (Some i) b' (szs ts' * 1) by apply: at_ext kx => j hj; apply: o2; apply: nt.
  have xp : 0 < szs ts' * 1 by rewrite muln1.
  have Bx : szs ts' * 1 * size_of t * size_of x <= big.
    apply: leq_trans B1; rewrite muln1 -mulnA [_ * size_of x]mulnC mulnA [_ * size_of x]mulnC leq_mul2r.
    by rewrite leq_pmull ?orbT.
  have [h3 [e3 x3 o3]] := setAft_at x2 ux lx xp st Bx.
  have t3 : at_ h3 t None b' 1 by apply: at_ext t2 => j hj; apply: o3; apply: tx.
  have [h4 [e4 x4 o4]] := dimension_at x3 ux lx.
  have t4 : at_ h4 t None b' 1 by apply: at_ext t3 => j hj; apply: o4; apply: tx.
  have [bt3 _ _] := at_name t3.
  have Bt : b' * size_of x * size_of t <= big.
    by apply: leq_trans B1; rewrite leq_mul2r leq_mul2l leq_pmulr ?orbT.
  have [h5 [e5 t5 o5]] := setBef_at t4 ut hl p1 sx Bt.
  have x5 : at_ h5 x (Some i) b' (szs ts' * size_of t).
    by move: x4; rewrite muln1 => x4; apply: at_ext x4 => j hj; apply: o5; apply: nt.
  have kts5 : kids h5 i ts' (b' * size_of x) 1.
    by apply: kids_ext kts => j hj; rewrite o5 ?nt' // o4 ?nx // o3 ?nx // o2 ?nt'.
  rewrite (@bindOk _ _ _ _ h1 h5 tt); last first.
    rewrite (bindOk _ (getAftP _)) ax // (bindOk _ e2) (bindOk _ e3) (bindOk _ (getBefP _)) bt3 //.
    by rewrite (bindOk _ e4).
  have [||h6 [e6 k6 t6 o6]] := IHt _ _ kts5 t5 uts d2 lts.
  - by rewrite muln_gt0 p1.
  - by rewrite -(mulnA b').
  exists h6; rewrite e6; split=> //.
  - split=> //; apply: at_ext x5 => j hj; apply: o6; rewrite mem_cat negb_or nt // andbT.
    by apply/negP => /nx; rewrite hj.
  - by rewrite mulnA.
  move=> j; rewrite !mem_cat !negb_or => /andP [/andP [j1 j2] j3].
  by rewrite o6 ?mem_cat ?negb_or ?j2 // o5 // o4 // o3 // o2.
have d1 : ~~ has (mem (ids t)) (flatten (map ids ts)).
  by apply: contra dis => /hasP [j j1 j2]; apply/hasP; exists j => //; rewrite inE /= inE j1 orbT.
have [|h1 [e1 k1 t1 o1]] := L ts 1 h hk ht u d1 (ltnW hg) isT; first by rewrite mul1n.
rewrite mul1n in t1; have it : i \notin ids t by apply: contra dis => h2; apply/hasP; exists i => //; rewrite inE /= inE eqxx.
have h1i : h1 i = h i by rewrite o1 // mem_cat negb_or ui.
have nf : nameOf t \notin flatten (map ids ts).
  by apply: contra d1 => h2; apply/hasP; exists (nameOf t) => //; rewrite inE /= name_in.
have nts : nameOf t \notin map nameOf ts by apply: contra nf; apply: names_sub.
have ni : nameOf t != i by apply: contraNneq it => <-; apply: name_in.
have ni' : i != nameOf t by rewrite eq_sym.
pose h2 := upd h1 i (withSubs (subs (h1 i) ++ [:: nameOf t]) (h1 i)).
pose h3 := upd h2 (nameOf t) (withSup (Some i) (h2 (nameOf t))).
pose h4 := upd h3 i (withDim None (h3 i)).
have e4 k : h4 k = if k == i then Obj true None 1 1 (map nameOf (ts ++ [:: t])) None
    else if k == nameOf t then withSup (Some i) (h1 k) else h1 k.
  rewrite /h4 /h3 /h2 /upd map_cat /=; case: (eqVneq k i) => [_|ki].
    by rewrite ?eqxx (negbTE ni') ?eqxx h1i hi.
  by case: (eqVneq k (nameOf t)) => [->|] //; rewrite ?(negbTE ni).
exists h4; split.
- rewrite /addSub (@bindOk _ _ _ _ h h (h i)) // hi /= (negbTE nts) (bindOk _ e1).
  by rewrite (@bindOk _ _ _ _ h1 h2 tt) // (@bindOk _ _ _ _ h2 h3 tt).
- apply/at_group; split; first by exists None; rewrite e4 eqxx; split=> //; left.
  apply: kids_cat; rewrite ?muln1 ?mul1n.
    apply: kids_ext k1 => k hk'; rewrite e4.
    have -> : k == i = false by apply/negP => /eqP e; rewrite -e hk' in ui.
    by have -> : k == nameOf t = false by apply/negP => /eqP e; rewrite -e hk' in nf.
  apply: at_ext (at_sup (Some i) t1 ut) => k hk'; rewrite e4 /upd.
  have -> : k == i = false by apply/negP => /eqP e; rewrite -e hk' in it.
  by case: eqP => [->|].
move=> k; rewrite inE negb_or mem_cat negb_or => /andP [k1' /andP [k2 k3]].
rewrite e4 (negbTE k1'); have -> : k == nameOf t = false by apply/negP => /eqP e; rewrite e name_in in k3.
by rewrite o1 // mem_cat negb_or k2.
Qed.

Lemma run_cat lim l1 l2 h h1 : run fdiv lim l1 h = (h1, Ok tt) -> run fdiv lim (l1 ++ l2) h = run fdiv lim l2 h1.
Proof.
elim: l1 h => [|a l IH] h /=; first by move=> [->].
by rewrite /bindM; case: (does fdiv lim a h) => h' [x|e] //; apply: IH.
Qed.

(** New systems, as in [start]. *)
Definition newAt (h : heap) (comp : nat -> bool) (ds : nat -> nat) (l : seq nat) : Prop :=
  forall i, i \in l -> h i = start comp ds i.

Lemma szs_cat ts1 ts2 : szs (ts1 ++ ts2) = szs ts1 * szs ts2.
Proof. by elim: ts1 => /= [|t ts ->]; rewrite ?mul1n ?mulnA. Qed.
Lemma made_pos comp ds t : made comp ds t -> 0 < size_of t.
Proof.
elim/tree_all: t => [i d /and3P []//|i ts IH] /= /andP [_]; elim: ts IH => //= t ts IHs IH /andP [h1 h2].
by rewrite muln_gt0 IH ?IHs //; [move=> u hu; apply: IH; right|left].
Qed.
Lemma maxn_cat l1 l2 : foldr maxn 0 (l1 ++ l2) = maxn (foldr maxn 0 l1) (foldr maxn 0 l2).
Proof. by elim: l1 => /= [|x l ->]; rewrite ?max0n ?maxnA. Qed.
Lemma build_at comp ds t : forall lim h, newAt h comp ds (ids t) -> made comp ds t -> uniq (ids t) -> height t <= lim ->
  size_of t <= big ->
  exists h', [/\ run fdiv lim (build t) h = (h', Ok tt), at_ h' t None 1 1 & outside h h' (ids t)].
Proof.
elim/tree_all: t => [i d|i ts IH] lim h hn.
  move=> /= /and3P [hc /eqP hd dp] _ _ _; exists h; split=> //; rewrite hn ?inE //.
  by rewrite /start (negbTE hc) hd.
move=> /= /andP [hc ha] /andP [ui u] hl hB.
have L : forall ts2 ts1 h1, ts = ts1 ++ ts2 -> at_ h1 (Group i ts1) None 1 1 ->
    newAt h1 comp ds (flatten (map ids ts2)) ->
    exists h', [/\ run fdiv lim (flatten (map (fun t => build t ++ [:: Add i (nameOf t)]) ts2)) h1 = (h', Ok tt),
      at_ h' (Group i ts) None 1 1 & outside h1 h' (i :: flatten (map ids ts))].
  elim=> [|t ts2 IHt] ts1 h1 ets g1 n1; first by exists h1; split=> //; rewrite ets cats0.
  have ht : List.In t ts by rewrite ets; elim: (ts1) => [|x l h2]; [left|right].
  have ha' := ha; rewrite ets all_cat /= in ha'; case/and3P: ha' => m1 mt m2.
  have u' := u; rewrite ets map_cat flatten_cat /= catA cat_uniq in u'; case/and3P: u' => u1 d2 u2.
  have hl' := hl; rewrite ets map_cat maxn_cat /= !gtn_max in hl'; case/and3P: hl' => l1 lt l2.
  have B : szs ts <= big by []; rewrite ets szs_cat /= in B.
  have i' := ui; rewrite ets map_cat flatten_cat /= !mem_cat !negb_or in i'; case/and3P: i' => i1 it i2.
  have p1 : 0 < szs ts1 by apply: (made_pos (t := Group i ts1) (comp := comp) (ds := ds)); rewrite /= hc.
  have p2 : 0 < szs ts2 by apply: (made_pos (t := Group i ts2) (comp := comp) (ds := ds)); rewrite /= hc.
  have pt := made_pos mt.
  have Bt : szs ts1 * size_of t <= big by apply: leq_trans B; rewrite leq_mul2l leq_pmulr ?orbT.
  have Bt' : size_of t <= big by apply: leq_trans Bt; rewrite leq_pmull.
  move: (u1); rewrite cat_uniq => /and3P [u11 d1 ut].
  have nt j : j \in ids t -> j \notin flatten (map ids ts1) by move=> hj; apply: contra d1 => h2; apply/hasP; exists j.
  have n2 j : j \in flatten (map ids ts2) -> j \notin flatten (map ids ts1) ++ ids t.
    by move=> hj; apply: contra d2 => h2; apply/hasP; exists j.
  have [|h2 [e2 a2 o2]] := IH t ht lim h1 _ mt ut (ltnW lt) Bt'.
    by move=> j hj; apply: n1; rewrite /= mem_cat hj.
  have g2 : at_ h2 (Group i ts1) None 1 1.
    apply: at_ext g1 => j /=; rewrite inE => hj; apply: o2; case/orP: hj => [/eqP -> //|hj].
    by apply/negP => /nt; rewrite hj.
  have u3 : uniq (ids (Group i ts1) ++ ids t) by rewrite /= mem_cat negb_or i1 it.
  have [h3 [e3 g3 o3]] := add_at g2 a2 u3 l1 (ltnW lt) Bt.
  have n3 : newAt h3 comp ds (flatten (map ids ts2)).
    move=> j hj; have := n2 j hj; rewrite mem_cat negb_or => /andP [j1 j2].
    have ji : j != i by apply: contraNneq i2 => <-.
    rewrite o3 /= ?inE ?mem_cat ?negb_or ?ji ?j1 ?j2 // o2 // n1 //= mem_cat hj orbT //.
  have [|h4 [e4 g4 o4]] := IHt (ts1 ++ [:: t]) h3 _ g3 n3; first by rewrite ets -catA.
  exists h4; split=> //; first by rewrite /= -catA (run_cat _ e2) (@run_cat _ _ _ _ h3) //= /bindM e3.
  move=> j hj; rewrite o4 //; move: hj.
  rewrite ets map_cat flatten_cat /= inE !mem_cat !negb_or => /and4P [j1 j2 j3 j4].
  by rewrite o3 /= ?inE ?mem_cat ?negb_or ?j1 ?j2 ?j3 // o2.
have [||h' [e1 g1 o1]] := L ts [::] h erefl.
- apply/at_group; split=> //; exists None; rewrite hn ?inE ?eqxx // /start hc; split=> //; by left.
- by move=> j hj; apply: hn; rewrite inE hj orbT.
by exists h'.
Qed.
End Nest.

(** What is read afterwards. *)
Lemma at_places h t : forall p b a i x y, at_ h t p b a -> (i, (x, y)) \in places t b a -> bef (h i) = x /\ aft (h i) = y.
Proof.
elim/tree_all: t => [i d|i ts IH] p b a j x y.
  by move=> [hi _]; rewrite /= inE => /eqP [-> -> ->]; rewrite hi.
rewrite at_group => -[[d [hi _]] hk]; rewrite /= inE => /orP [/eqP [-> -> ->]|]; first by rewrite hi.
elim: ts b {hi} IH hk => //= t ts IHs b IH [k1 k2]; rewrite mem_cat => /orP [h1|h2].
  by apply: IH h1; [left|exact: k1].
by apply: IHs k2 h2 => u hu; apply: IH; right.
Qed.
Lemma at_pos h t : forall p b a, at_ h t p b a -> 0 < b -> 0 < a -> forall j, j \in ids t -> 0 < bef (h j) /\ 0 < aft (h j).
Proof.
elim/tree_all: t => [i d|i ts IH] p b a.
  by move=> [hi _] hb ha j; rewrite /= inE => /eqP ->; rewrite hi.
rewrite at_group => -[[d [hi _]] hk] hb ha j; rewrite /= inE => /orP [/eqP ->|]; first by rewrite hi.
elim: ts b {hi} IH hk hb => //= t ts IHs b IH [k1 k2] hb; rewrite mem_cat => /orP [h1|h2].
  by apply: (IH t _ _ _ _ k1 hb _ j h1); [left|rewrite muln_gt0 (szs_pos k2)].
apply: IHs k2 _ h2; first by move=> u hu; apply: IH; right.
by rewrite muln_gt0 hb (size_pos k1).
Qed.
Lemma at_tree h t : forall lim p b a, at_ h t p b a -> height t <= lim -> treeOf lim h (nameOf t) = t.
Proof.
elim/tree_all: t => [i d|i ts IH] [|lim] p b a //; first by move=> [hi _] _; rewrite /= hi.
rewrite at_group => -[[d [hi _]] hk]; rewrite /= ltnS hi /= => hl; congr (Group _ _).
elim: ts b {hi} IH hk hl => //= t ts IHs b IH [k1 k2]; rewrite geq_max => /andP [h1 h2].
rewrite (IH t _ _ _ _ _ k1 h1); last by left.
by rewrite (IHs _ _ k2 h2) // => u hu; apply: IH; right.
Qed.
Lemma places_in t : forall x y i z, (i, z) \in places t x y -> i \in ids t.
Proof.
elim/tree_all: t => [j d|j ts IH] x y i z; first by rewrite !inE => /eqP [-> _].
rewrite /= !inE => /orP [/eqP [-> _]|]; rewrite ?eqxx // => hk; apply/orP; right; elim: ts x IH hk => //= k ts IHs x IH.
rewrite !mem_cat => /orP [h1|h1]; first by rewrite (IH k _ _ _ _ _ h1) //; left.
by rewrite (IHs _ _ h1) ?orbT // => v hv; apply: IH; right.
Qed.
