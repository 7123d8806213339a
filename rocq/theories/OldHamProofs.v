(** Proofs for C95. *)
From Verif Require Import Py.
From mathcomp Require Import all_ssreflect.
From Verif Require Import OldHamModel OldHamSpec.
Set Implicit Arguments.
Unset Strict Implicit.
Unset Printing Implicit Defensive.

Section P.
Variables (F O M : Type).
Variable eqF : F -> F -> bool.
Variable eqO : O -> O -> bool.
Variable base : O -> nat -> nat -> nat -> result M.
Variable mpow : M -> nat -> result M.
Variable scale : F -> M -> result M.
Variable add : M -> M -> result M.
Variable zero : M.
Hypothesis eqFP : forall f g, eqF f g -> f = g.
Hypothesis pow : powers base mpow.
Hypothesis eqOP : forall f g, eqO f g -> f = g.
Notation content := (content F O).
Notation cache := (cache M).
Notation construct := (construct (F := F) base mpow).
Implicit Types (c : content) (a : cache) (s k : nat) (t : term F O).

Definition val c s t : result M := bind (construct c s t) (scale (t_freq t)).
Definition SV c s : result M := total add (map (val c s) (terms c s)) zero.
Definition CV c : result M := bind (total add (map (SV c) (members c)) zero) (fun h => add h zero).
Definition nthT c s k := ohead (drop k (terms c s)).

Definition Tok c a := forall s k t m, tm a s k = Some m -> nthT c s k = Some t -> construct c s t = Ok m.
Definition Sok c a := forall s m, sm a s = Some m -> su a s = false -> SV c s = Ok m.
Definition Cok c a := forall m, cm a = Some m -> cu a = false -> CV c = Ok m.
Definition Iv c a := [/\ Tok c a, Sok c a, Cok c a, {subset members c <= bound c} & uniq (members c)].

(** ** Fewer kept matrices *)
Definition wk a' a := [/\ forall s k, tm a' s k = None \/ tm a' s k = tm a s k,
  forall s, [\/ sm a' s = None, su a' s = true | sm a' s = sm a s /\ su a' s = su a s] &
  [\/ cm a' = None, cu a' = true | cm a' = cm a /\ cu a' = cu a]].
Lemma wk_refl a : wk a a. Proof. by split=> *; [right|constructor 3|constructor 3]. Qed.
Lemma wk_trans a1 a2 a3 : wk a1 a2 -> wk a2 a3 -> wk a1 a3.
Proof.
move=> [t1 s1 c1] [t2 s2 c2]; split=> [s k|s|].
- by case: (t1 s k) => ->; [left|exact: t2].
- case: (s1 s) => [e|e|[e1 e2]]; [by constructor 1|by constructor 2|rewrite e1 e2; exact: s2].
- case: c1 => [e|e|[e1 e2]]; [by constructor 1|by constructor 2|rewrite e1 e2; exact: c2].
Qed.
Lemma wk_mark c s a : wk (mark c s a) a.
Proof.
split=> [j k|j|] /=; first by right.
- rewrite /at1; case: (j == s); first by constructor 2.
  by constructor 3.
- case: (s \in bound c); first by rewrite orbT; constructor 2.
  by rewrite orbF; constructor 3.
Qed.
Lemma wk_clearAll c a : wk (clearAll c a) a.
Proof.
split=> [j k|j|] /=; [|by case: (j \in _); [constructor 1|constructor 3]|by constructor 1].
by case: (j \in _); [left|right].
Qed.
Lemma wk_clearFrom c s a : wk (clearFrom c s a) a.
Proof.
rewrite /clearFrom; set a1 := Cache _ _ _ _ _.
have h : wk a1 a.
  split=> [j k|j|] /=; [by case: (j == s); [left|right]|rewrite /at1; by case: (j == s); [constructor 1|constructor 3]|by constructor 3].
by case: (s \in _) => //; apply: wk_trans h; exact: wk_clearAll.
Qed.
Lemma wk_clearTerms c s a : wk (clearTerms c s a) a.
Proof. by rewrite /clearTerms; case: (terms c s) => [|? ?]; [exact: wk_refl|exact: wk_clearFrom]. Qed.
Lemma wk_setPlace c s b a : wk (setPlace c s b a) a.
Proof. by apply: wk_trans (wk_clearTerms _ _ _) _; case: b; [exact: wk_mark|exact: wk_refl]. Qed.
Lemma wk_foldl (f : cache -> nat -> cache) l : (forall a s, wk (f a s) a) -> forall a, wk (foldl f a l) a.
Proof. by move=> h; elim: l => [|s l ih] a /=; [exact: wk_refl|apply: wk_trans (ih _) (h _ _)]. Qed.

(** The system [s] has nothing kept. *)
Definition dropped s a := (forall k, tm a s k = None) /\ sm a s = None.
Lemma dropped_wk s a a' : wk a' a -> dropped s a -> dropped s a' \/ su a' s = true /\ (forall k, tm a' s k = None).
Proof.
move=> [ht hs _] [d1 d2]; have ht' : forall k, tm a' s k = None by move=> k; case: (ht s k) => ->.
case: (hs s) => [e|e|[e _]]; [by left|by right|by left; split=> //; rewrite e].
Qed.
Definition out s a := (forall k, tm a s k = None) /\ (sm a s = None \/ su a s = true).
Lemma out_wk s a a' : wk a' a -> out s a -> out s a'.
Proof.
move=> [ht hs _] [d1 d2]; split=> [k|]; first by case: (ht s k) => ->.
by case: (hs s) => [e|e|[-> ->]]; auto.
Qed.
Lemma out_clearFrom c s a : out s (clearFrom c s a).
Proof.
rewrite /clearFrom; set a1 := Cache _ _ _ _ _.
have h : out s a1 by split=> [k|] /=; [rewrite eqxx|left; rewrite /at1 eqxx].
by case: (s \in _) => //; apply: out_wk h; exact: wk_clearAll.
Qed.
Lemma out_clearAll c s a : s \in members c -> out s (clearAll c a).
Proof. by move=> h; split=> [k|] /=; rewrite h; auto. Qed.
Lemma out_setPlace c s b a : terms c s = [::] \/ out s (setPlace c s b a).
Proof. by rewrite /setPlace /clearTerms; case: (terms c s) => [|? ?]; [left|right; exact: out_clearFrom]. Qed.

(** ** When the content changes *)
Definition same c c' s := [/\ terms c' s = terms c s, dims c' s = dims c s, dimsBefore c' s = dimsBefore c s & dimsAfter c' s = dimsAfter c s].
Lemma same_construct c c' s t : same c c' s -> construct c' s t = construct c s t.
Proof. by case=> [_ e1 e2 e3]; rewrite /construct /OldHamModel.construct e1 e2 e3. Qed.
Lemma same_SV c c' s : same c c' s -> SV c' s = SV c s.
Proof.
move=> h; rewrite /SV; case: (h) => [-> _ _ _]; congr total; apply: eq_map => t.
by rewrite /val (same_construct t h).
Qed.
Lemma Iv_change c a c' a' : Iv c a -> wk a' a ->
  (forall s, [\/ same c c' s, terms c s = [::] /\ terms c' s = [::] | out s a']) ->
  (cm a' = None \/ cu a' = true \/ CV c' = CV c) ->
  {subset members c' <= bound c'} -> uniq (members c') -> Iv c' a'.
Proof.
move=> [ht hs hc _ _] [wt ws wc] hd hC hb hu; split=> //.
- move=> s k t m e n; case: (hd s) => [h|[_ h]|[h _]]; [|by move: n; rewrite /nthT h|by rewrite h in e].
  rewrite (same_construct t h); case: (wt s k) => e'; first by rewrite e' in e.
  apply: (ht s k); [by rewrite -e'|by move: n; rewrite /nthT; case: h => ->].
- move=> s m e n; case: (ws s) => [e'|e'|[e1 e2]]; [by rewrite e' in e|by rewrite e' in n|].
  case: (hd s) => [h|[h1 h2]|[_ [h|h]]]; [|by move: (hs s m); rewrite -e1 -e2 /SV h1 h2; apply|by rewrite h in e|by rewrite h in n].
  by rewrite (same_SV h); apply: hs; [rewrite -e1|rewrite -e2].
- move=> m e n; case: hC => [h|[h|->]]; [by rewrite h in e|by rewrite h in n|].
  case: wc => [e'|e'|[e1 e2]]; [by rewrite e' in e|by rewrite e' in n|].
  by apply: hc; [rewrite -e1|rewrite -e2].
Qed.

(** ** Reading *)
Lemma freeMatP c s k t a a' r : Iv c a -> nthT c s k = Some t -> freeMat base mpow c s k t a = (a', r) ->
  [/\ r = construct c s t, Iv c a', sm a' = sm a & su a' = su a].
Proof.
move=> iv; have [ht hs hc hb hu] := iv; move=> n; rewrite /freeMat; case e: (tm a s k) => [m|].
  by case=> <- <-; split=> //; rewrite (ht s k t m).
case e1: (construct c s t) => [m|er]; case=> <- <-; split=> //; split=> // j l t' m' /=; rewrite /at2.
case: eqP => [->|_] /=; last exact: ht.
by case: eqP => [->|_]; [rewrite n => [[<-]] [<-]|exact: ht].
Qed.
Lemma sumTermsP c s ts : forall k acc a a' r, Iv c a -> ts = drop k (terms c s) -> sumTerms base mpow scale add c s k ts acc a = (a', r) ->
  [/\ r = total add (map (val c s) ts) acc, Iv c a', sm a' = sm a & su a' = su a].
Proof.
elim: ts => [|t ts ih] k acc a a' r iv e /=; first by case=> <- <-.
have n : nthT c s k = Some t by rewrite /nthT -e.
case e1: freeMat => [a1 r1]; have [er iv1 e2 e3] := freeMatP iv n e1; 
have -> : val c s t = bind r1 (scale (t_freq t)) by rewrite er.
case: r1 {er e1} => [m|er] /=; last by case=> <- <-.
case: (scale _ m) => [x|er] /=; last by case=> <- <-.
case: (add acc x) => [acc'|er] /=; last by case=> <- <-.
move=> h; have [|-> iv' -> ->] := ih k.+1 acc' a1 a' r iv1 _ h; last by split.
by rewrite -[k.+1]add1n -drop_drop -e /= drop0.
Qed.
Lemma sysHamP c s a a' r : Iv c a -> sysHam base mpow scale add zero c s a = (a', r) -> r = SV c s /\ Iv c a'.
Proof.
move=> iv; have [ht hs hc hb hu] := iv; rewrite /sysHam.
case e: (if su a s then None else sm a s) => [m|].
  by case=> <- <-; split=> //; case e1: (su a s) e => // e; rewrite (hs s m).
case e1: sumTerms => [a1 r1]; have [|er iv1 e2 e3] := sumTermsP iv _ e1; first by rewrite drop0.
have {}er : r1 = SV c s := er; have [ht1 hs1 hc1 _ _] := iv1.
case: r1 er {e1} => [m|er'] er; case=> <- <-; split=> //; split=> // j m' /=; rewrite /at1; case: eqP => [->|_]; [|exact: hs1].
by case=> <- _; rewrite -er.
Qed.
Lemma sumSysP c l : forall acc a a' r, Iv c a -> sumSys base mpow scale add zero c l acc a = (a', r) ->
  r = total add (map (SV c) l) acc /\ Iv c a'.
Proof.
elim: l => [|s l ih] acc a a' r iv /=; first by case=> <- <-.
case e: sysHam => [a1 r1]; have [<- iv1] := sysHamP iv e; case: r1 {e} => [m|er] /=; last by case=> <- <-.
case: (add acc m) => [acc'|er] /=; last by case=> <- <-.
exact: ih.
Qed.
Lemma compHamP c a a' r : Iv c a -> compHam base mpow scale add zero c a = (a', r) -> r = CV c /\ Iv c a'.
Proof.
move=> iv; have [ht hs hc hb hu] := iv; rewrite /compHam.
case e: (if cu a then None else cm a) => [m|].
  by case=> <- <-; split=> //; case e1: (cu a) e => // e; rewrite (hc m).
case e1: sumSys => [a1 r1]; have [er iv1] := sumSysP iv e1; rewrite /CV -er.
case: r1 {e1} er => [h|er'] er /=; last by case=> <- <-.
case e2: (add h zero) => [m|er'] /=; case=> <- <-; split=> //.
have [ht1 hs1 hc1 _ _] := iv1; split=> // m' /= [<-] _.
by rewrite /CV -er /= e2.
Qed.

(** ** Changing terms *)
Lemma CV_in c c' : members c' = members c -> (forall j, j \in members c -> SV c' j = SV c j) -> CV c' = CV c.
Proof. by move=> e h; rewrite /CV e; congr bind; congr total; apply/eq_in_map. Qed.
Lemma Iv_terms c a s ts a' : Iv c a ->
  (forall k t m, tm a' s k = Some m -> ohead (drop k ts) = Some t -> construct c s t = Ok m) ->
  (forall j k, j != s -> tm a' j k = tm a j k) -> sm a' = sm a -> cm a' = cm a ->
  su a' = at1 (su a) s true -> cu a' = cu a || (s \in bound c) -> Iv (withTerms c s ts) a'.
Proof.
move=> [ht hs hc hb hu] h1 h2 e1 e2 e3 e4.
have sj : forall j, j != s -> same c (withTerms c s ts) j by move=> j hj; split=> //=; rewrite /at1 (negPf hj).
split=> //.
- move=> j k t m; rewrite /nthT /= /at1; have [->|hj] := eqVneq j s; first exact: h1.
  by rewrite h2 // (same_construct t (sj j hj)); exact: ht.
- move=> j m; rewrite e1 e3 /at1; have [->|hj] := eqVneq j s => // e n.
  by rewrite (same_SV (sj j hj)); exact: hs.
- move=> m; rewrite e2 e4 => e n.
  have /norP[n1 n2] : ~~ (cu a || (s \in bound c)) by rewrite n.
  rewrite (_ : CV _ = CV c); first by apply: hc => //; exact: negbTE.
  apply: CV_in => // j hj; apply: same_SV; apply: sj; apply: contraNneq n2 => <-; exact: hb.
Qed.
Lemma Iv_drop c a a' : Iv c a -> wk a' a -> Iv c a'.
Proof.
by move=> iv w; have [_ _ _ hb hu] := iv; apply: (Iv_change iv w) => // [s|]; [constructor 1|right; right].
Qed.
Lemma nthT_size c s k t : nthT c s k = Some t -> k < size (terms c s).
Proof. by rewrite /nthT; case: (ltnP k (size (terms c s))) => // h; rewrite drop_oversize. Qed.
Lemma drop_set ts k j t : k < size ts -> ohead (drop j (set_nth t ts k t)) = if j == k then Some t else ohead (drop j ts) :> option (term F O).
Proof.
move=> h; have hs : size (set_nth t ts k t) = size ts by rewrite size_set_nth; apply/maxn_idPr.
have [hj|hj] := ltnP j (size ts); last first.
  by rewrite !drop_oversize ?hs //; case: eqP => // e; rewrite e leqNgt h in hj.
rewrite (@drop_nth _ t j (set_nth t ts k t)) ?hs // (@drop_nth _ t j ts) //= nth_set_nth /=.
by case: eqP.
Qed.
Lemma Iv_setTerm c a s k t t' a1 : Iv c a -> nthT c s k = Some t ->
  (forall m, tm a1 s k = Some m -> construct c s t' = Ok m) ->
  (forall j l, (j == s) && (l == k) = false -> tm a1 j l = tm a j l) -> sm a1 = sm a -> cm a1 = cm a ->
  su a1 = at1 (su a) s true -> cu a1 = cu a || (s \in bound c) ->
  Iv (withTerms c s (set_nth t' (terms c s) k t')) a1.
Proof.
move=> iv n hk ho e1 e2 e3 e4; have [ht _ _ _ _] := iv.
apply: (Iv_terms iv) => // [l t0 m|j l hj]; last by apply: ho; rewrite (negPf hj).
rewrite drop_set ?(nthT_size n) //; have [->|hl] := eqVneq l k => e; first by case=> <-; exact: hk.
by move=> n'; apply: (ht s l) => //; rewrite -e ho // eqxx (negPf hl).
Qed.

Definition okOp c (p : op F O) : Prop := match p with RemoveTerm _ _ => False | Order _ _ n => 0 < n | Remove s => s \in members c | _ => True end.
Lemma doesP c a p c' a' r : Iv c a ->
  okOp c p ->
  does eqF eqO base mpow scale add zero (c, a) p = ((c', a'), r) -> Iv c' a'.
Proof.
move=> iv; have [ht hs hc hb hu] := iv.
case: p => [s f o n|s k|s k f|s k o|s k n|s d|s|s|s k|s|] okp; rewrite /okOp in okp => //; rewrite /does /onTerm -?/(nthT c s k) /=.
- (* AddTerm *) case=> <- <- _; apply: (Iv_terms iv) => // [k t m|j k hj] /=; rewrite /at2 ?(negPf hj) // eqxx /=.
  case: eqP => // hk e; move: (ht s k t m e); rewrite /nthT; case: (ltnP k (size (terms c s))) => h.
    by rewrite -cats1 drop_cat h; case e': (drop k _) => [|x l] //=; move/(congr1 size): e'; rewrite size_drop => /eqP; rewrite subn_eq0 leqNgt h.
  by move=> _; rewrite drop_oversize // size_rcons ltn_neqAle h andbT; apply/eqP => e'; apply: hk.
- (* Freq *) case n: (nthT c s k) => [t|] //=; last by case=> <- <-.
  rewrite /setTerm; case h: (~~ eqF _ _) => /=; case=> <- <- _ //.
  apply: (Iv_setTerm iv n) => // m e; exact: (ht s k t m).
- (* Oper *) case n: (nthT c s k) => [t|] //=; last by case=> <- <-.
  rewrite /setTerm; case h: (~~ eqO _ _) => /=; case=> <- <- _.
    by apply: (Iv_setTerm iv n) => //= [m|j l h']; rewrite /at2 ?eqxx ?h'.
  apply: (Iv_drop iv); split=> [j l|j|] /=; [|by constructor 3|by constructor 3].
  by rewrite /at2; case: (_ && _); [left|right].
- (* Order *) case e: (nthT c s k) => [t|] //=; last by case=> <- <-.
  set t' := Term _ _ n; rewrite /setTerm; case h: (n != t_ord t) => /=.
    set c1 := withTerms _ _ _; have hc1 : OldHamModel.construct base mpow c1 s t' = construct c s t' by [].
    case e1: (tm a s k) => [m|] /=; last first.
      by case=> <- <- _; apply: (Iv_setTerm iv e) => // m; rewrite /= e1.
    rewrite hc1; case e2: (construct c s t') => [m'|er].
      case=> <- <- _; apply: (Iv_setTerm iv e) => //= [x|j l h']; rewrite /at2 ?eqxx ?h' //=.
      by case=> <-.
    move: (ht s k t m e1 e) e2; rewrite /t' /construct /OldHamModel.construct /=.
    case eb: (base _ _ _ _) => [mb|] //= _; have [m' ->] := pow eb okp; by [].
  move/negbFE/eqP: h => h; have -> : t' = t by rewrite /t' h; case: (t).
  case e1: (tm a s k) => [m|]; last by case=> <- <-.
  case e2: (OldHamModel.construct _ _ _ _ _) => [m'|er]; case=> <- <- _ //.
  split=> // j l x y /=; rewrite /at2; case: eqP => [->|_] /=; last exact: ht.
  by case: eqP => [->|_]; [case=> <-; rewrite e => [[<-]]|exact: ht].
- (* Dim *) set c1 := Content _ _ _ _.
  have nm : forall j, j \notin members c -> j != s -> same c c1 j.
    by move=> j h1 h2; split=> //=; rewrite /dimsBefore /dimsAfter /= ?(negPf h1) // /at1 (negPf h2).
  set a1 := clearTerms c s a; set a2 := if _ then a1 else _.
  have w2 : wk a2 a.
    apply: wk_trans (wk_clearTerms c s a); rewrite /a2; case: (d == _); [exact: wk_refl|exact: wk_mark].
  case: ifP => h; case=> <- <- _.
    set a3 := foldl _ _ _; have w3 : wk a3 a2.
      by apply: wk_foldl => b t; case: (t == s); [exact: wk_refl|exact: wk_setPlace].
    apply: (Iv_change iv) => //.
    + apply: wk_trans (wk_clearAll _ _) _; apply: wk_trans (wk_trans w3 w2).
      by split=> *; [right|constructor 3|constructor 2].
    + move=> j; case hj: (j \in members c); first by constructor 3; apply: out_clearAll.
      by constructor 1; apply: nm; [rewrite hj|apply: contraFneq hj => ->].
    + by left.
  have sm' : forall j, j \in members c -> same c c1 j.
    move=> j hj; have js : j != s by apply: contraFneq h => <-.
    have em : forall l, {subset l <= members c} -> map (dims c1) l = map (dims c) l.
      by move=> l hl; apply/eq_in_map => i /hl hi /=; rewrite /at1; case: eqP => // ei; rewrite ei h in hi.
    split=> //=; rewrite /dimsBefore /dimsAfter /= ?hj ?em //; first by rewrite /at1 (negPf js).
    + by move=> i /mem_take.
    + by move=> i /mem_drop.
  apply: (Iv_change iv) => //.
  + move=> j; have [->|js] := eqVneq j s; last first.
      by constructor 1; case hj: (j \in members c); [exact: sm'|apply: nm => //; rewrite hj].
    case et: (terms c s) => [|x l]; first by constructor 2.
    constructor 3; have o1 : out s a1 by rewrite /a1 /clearTerms et; exact: out_clearFrom.
    by rewrite /a2; case: (d == _) => //; apply: out_wk o1; exact: wk_mark.
  + by right; right; apply: CV_in => // j hj; apply: same_SV; apply: sm'.
- (* Add *) case: ifP => h; first by case=> <- <-.
  case=> <- <- _; set c1 := Content _ _ _ _; set g := fun _ _ => _; set a1 := foldl _ _ _; set a2 := (if sm a1 s is Some _ then _ else _).
  have wg : forall (b : cache) (t : nat), wk (g b t) b by move=> b t; apply: wk_trans (wk_setPlace _ _ _ _) (wk_setPlace _ _ _ _).
  have w1 : wk a1 a by exact: wk_foldl.
  have w2 : wk a2 a1.
    rewrite /a2; case: (sm a1 s) => [_|]; last exact: wk_refl.
    split=> [j k|j|] /=; [by case: (j == s); [left|right]|by constructor 3|by constructor 3].
  set a3 := Cache _ _ _ _ true; have w3 : wk a3 a2 by split=> *; [right|constructor 3|constructor 2].
  have og : forall (j t : nat) (b : cache), j = t \/ j = s -> terms c j = [::] \/ out j (g b t).
    move=> j t b [->|->].
      have [e|o1] := out_setPlace c t (dims c s != 1) b; [by left|right].
      by apply: out_wk o1; exact: wk_setPlace.
    exact: out_setPlace.
  have ol : forall (l : seq nat) (j : nat) (b : cache), (j \in l) \/ (l <> [::] /\ j = s) -> terms c j = [::] \/ out j (foldl g b l).
    elim=> [|t l ih] j b; first by case=> [|[]].
    case ejt: ((j == t) || (j == s)) => hj.
      have [] := og j t b; [by case/orP: ejt => /eqP; auto|by left|move=> o1; right].
      by apply: (out_wk _ o1); exact: (wk_foldl l wg (g b t)).
    case: hj => [|[_ /eqP hj]]; last by rewrite hj orbT in ejt.
    rewrite inE; case/norP: (negbT ejt) => /negPf -> _ /= hj; apply: ih; by left.
  apply: (Iv_change iv) => //.
  + by apply: wk_trans w3 (wk_trans w2 w1).
  + move=> j; have [|hj] := boolP ((j \in members c) || ((j == s) && (members c != [::]))).
      move=> hj; have [] := ol (members c) j a.
      * by case/orP: hj => [|/andP[/eqP -> /eqP hm]]; auto.
      * by move=> e; constructor 2.
      * by move=> o1; constructor 3; apply: out_wk o1; apply: wk_trans w3 w2.
    constructor 1; case/norP: hj => hj1 hj2; split=> //=; rewrite /dimsBefore /dimsAfter /= (negPf hj1) mem_rcons inE (negPf hj1) orbF.
      by case: eqP hj2 => //= ej; rewrite negbK => /eqP em; rewrite em /= ej eqxx.
    by case: eqP hj2 => //= ej; rewrite negbK => /eqP em; rewrite em.
  + by right; left.
  + by move=> j /=; rewrite mem_rcons !inE => /orP[->//|/hb ->]; rewrite orbT.
  + by rewrite /= rcons_uniq h.
- (* Remove *) rewrite okp /=; case=> <- <- _; set c1 := Content _ _ _ _; set a1 := foldl _ _ _; set a2 := setPlace _ _ _ a1; set a3 := setPlace _ _ _ a2.
  have w1 : wk a1 a by apply: wk_foldl => b t; case: (t == s); [exact: wk_refl|exact: wk_setPlace].
  have w3 : wk a3 a by apply: wk_trans (wk_setPlace _ _ _ _) (wk_trans (wk_setPlace _ _ _ _) w1).
  apply: (Iv_change iv) => //.
  + by apply: wk_trans (wk_clearAll _ _) w3.
  + move=> j; have [hj|hj] := boolP (j \in members c1); first by constructor 3; exact: out_clearAll.
    have [->|js] := eqVneq j s.
      have [e|o1] := out_setPlace c1 s (dimsBefore c s != 1) a2; first by constructor 2.
      by constructor 3; apply: out_wk o1; exact: wk_clearAll.
    have hj' : j \notin members c by move: hj; rewrite /= mem_rem_uniq // inE /= js.
    by constructor 1; split=> //; rewrite /dimsBefore /dimsAfter (negPf hj) (negPf hj').
  + by left.
  + by move=> j /= /mem_rem /hb.
  + exact: rem_uniq.
- (* ReadTerm *) case n: (nthT c s k) => [t|] //=; last by case=> <- <-.
  by case e: freeMat => [a1 r1]; case=> <- <- _; have [] := freeMatP iv n e.
- (* ReadSys *) by case e: sysHam => [a1 r1]; case=> <- <- _; have [] := sysHamP iv e.
- (* ReadComp *) by case e: compHam => [a1 r1]; case=> <- <- _; have [] := compHamP iv e.
Qed.

(** ** The content is what the user assigned last *)
Definition tri t := (t_freq t, t_op t, t_ord t).
Definition sim c (w : world F O) := [/\ dims c =1 dimOf w, forall s, map tri (terms c s) = termsOf w s & members c = inside w].
Lemma sim_at c w s k t t' g : sim c w -> nthT c s k = Some t -> tri t' = g (tri t) ->
  sim (withTerms c s (set_nth t' (terms c s) k t')) (changeAt w s k g).
Proof.
move=> [e1 e2 e3] n eg; split=> //= j; rewrite /at1; have [_|_] := eqVneq j s; last exact: e2.
have h := nthT_size n; rewrite set_nthE h -(e2 s) map_cat /= map_take map_drop.
have -> : drop k (map tri (terms c s)) = tri t :: drop k.+1 (map tri (terms c s)).
  rewrite -!map_drop -[RHS]/(map tri (t :: drop k.+1 (terms c s))); congr map.
  by move: n; rewrite /nthT (@drop_nth _ t k) //=; case=> ->.
by rewrite /= take0 /= -eg.
Qed.
Lemma changeAt_same c w s k g : sim c w -> (forall t, nthT c s k = Some t -> g (tri t) = tri t) -> sim c (changeAt w s k g).
Proof.
move=> [e1 e2 e3] h; split=> //= j; have [->|_] := eqVneq j s; last exact: e2.
rewrite -(e2 s) -[LHS](cat_take_drop k); congr cat; case: (ltnP k (size (terms c s))) => hk; last first.
  by rewrite !drop_oversize ?size_map // (leq_trans hk).
rewrite -!map_drop; case e: (drop k (terms c s)) => [|t ts].
  by move/(congr1 size): e; rewrite size_drop => /eqP; rewrite subn_eq0 leqNgt hk.
have -> : drop k.+1 (terms c s) = ts by rewrite -[k.+1]add1n -drop_drop e /= drop0.
by rewrite /= take0 /= (h t) // /nthT e.
Qed.
Lemma doesW c a p c' a' r w : sim c w ->
  okOp c p ->
  does eqF eqO base mpow scale add zero (c, a) p = ((c', a'), r) -> sim c' (next w p).
Proof.
move=> sm; have [e1 e2 e3] := sm.
have none : forall s k g, nthT c s k = None -> sim c (changeAt w s k g) by move=> s k g n; apply: changeAt_same => // t; rewrite n.
case: p => [s f o n|s k|s k f|s k o|s k n|s d|s|s|s k|s|] okp; rewrite /okOp in okp => //; rewrite /does /onTerm -?/(nthT c s k) /next.
- case=> <- _ _; split=> //= j; rewrite /at1; case: eqP => [_|_] //.
  by rewrite map_rcons -cats1 e2.
- case n: (nthT c s k) => [t|]; last by case=> <- _ _; exact: none.
  rewrite /setTerm; case h: (~~ eqF _ _); case=> <- _ _; first exact: (sim_at sm n).
  by apply: changeAt_same => // t'; rewrite n => [[<-]]; rewrite /= (eqFP (negbFE h)).
- case n: (nthT c s k) => [t|]; last by case=> <- _ _; exact: none.
  rewrite /setTerm; case h: (~~ eqO _ _); case=> <- _ _; first exact: (sim_at sm n).
  by apply: changeAt_same => // t'; rewrite n => [[<-]]; rewrite /= (eqOP (negbFE h)).
- case e: (nthT c s k) => [t|]; last by case=> <- _ _; exact: none.
  have hs : sim (withTerms c s (set_nth (Term (t_freq t) (t_op t) n) (terms c s) k (Term (t_freq t) (t_op t) n))) (changeAt w s k (fun x => (x.1.1, x.1.2, n))).
    exact: (sim_at sm e).
  rewrite /setTerm; case h: (n != t_ord t).
    case: (tm _ s k) => [m|]; last by case=> <-.
    by case: (OldHamModel.construct _ _ _ _ _) => [m'|er]; case=> <-.
  have h2 : sim c (changeAt w s k (fun x => (x.1.1, x.1.2, n))).
    by apply: changeAt_same => // t'; rewrite e => [[<-]]; move/negbFE/eqP: h => ->.
  case: (tm _ s k) => [m|]; last by case=> <-.
  by case: (OldHamModel.construct _ _ _ _ _) => [m'|er]; case=> <-.
- have hd : sim (Content (at1 (dims c) s d) (terms c) (members c) (bound c)) (World (fun j => if j == s then d else dimOf w j) (termsOf w) (inside w)).
    by split=> //= j; rewrite /at1; case: (j == s).
  by case: (s \in members c); case=> <-.
- rewrite -e3; case: (s \in members c); case=> <- _ _ //; split=> //=.
  by rewrite -cats1.
- by rewrite okp; case=> <- _ _; split=> //=; rewrite e3.
- by case: (nthT c s k) => [t|]; [case: freeMat => [? ?]|]; case=> <-.
- by case: sysHam => [? ?]; case=> <-.
- by case: compHam => [? ?]; case=> <-.
Qed.
Lemma run_iv l : forall gone c a w, Iv c a -> sim c w -> fine gone w l ->
  let x := run eqF eqO base mpow scale add zero (c, a) l in Iv x.1 x.2 /\ sim x.1 (foldl (@next F O) w l).
Proof.
elim: l => [|p l ih] gone c a w iv sm //.
rewrite [fine _ _ _]/= => /andP[hp hl].
have ok : okOp c p.
  by case: (sm) => _ _ es; case: p hp {hl} => //= s; rewrite es.
case e: (does eqF eqO base mpow scale add zero (c, a) p) => [[c' a'] r].
have h := ih _ _ _ _ (doesP iv ok e) (doesW sm ok e) hl.
have er : run eqF eqO base mpow scale add zero (c, a) (p :: l) = run eqF eqO base mpow scale add zero (c', a') l.
  rewrite -[LHS]/(run eqF eqO base mpow scale add zero (does eqF eqO base mpow scale add zero (c, a) p).1 l).
  by rewrite e.
cbv zeta in h |- *; rewrite er; exact: h.
Qed.

Lemma sim_before c w s : sim c w -> dimsBefore c s = before w s.
Proof. by case=> e1 _ e3; rewrite /dimsBefore /before -e3; case: ifP => // _; congr foldr; apply: eq_map. Qed.
Lemma sim_after c w s : sim c w -> dimsAfter c s = after w s.
Proof. by case=> e1 _ e3; rewrite /dimsAfter /after -e3; case: ifP => // _; congr foldr; apply: eq_map. Qed.
Lemma sim_term c w s t : sim c w -> construct c s t = termValue base mpow w s (tri t).
Proof. by move=> h; rewrite /construct /OldHamModel.construct /termValue (sim_before _ h) (sim_after _ h); case: h => -> _ _. Qed.
Lemma sim_sys c w s : sim c w -> SV c s = sysValue base mpow scale add zero w s.
Proof.
move=> h; have [_ e2 _] := h; rewrite /SV /sysValue -e2 -map_comp; congr total; apply: eq_map => t /=.
by rewrite /val (sim_term s t h).
Qed.
Lemma sim_comp c w : sim c w -> CV c = compValue base mpow scale add zero w.
Proof.
move=> h; have [_ _ e3] := h; rewrite /CV /compValue -e3; congr bind; congr total; apply: eq_map => s.
exact: sim_sys.
Qed.
Lemma start_iv ds : Iv (start F O M ds).1 (start F O M ds).2.
Proof. by split=> // s k. Qed.
Lemma start_sim ds : sim (start F O M ds).1 (newWorld F O ds).
Proof. by split. Qed.
End P.
