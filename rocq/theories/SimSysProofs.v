(** Lemmas for SimSysModel.v. *)
From Verif Require Import Py SweepModel SimSysModel SimSysSpec.
From mathcomp Require Import all_ssreflect.
Set Implicit Arguments.
Unset Strict Implicit.
Unset Printing Implicit Defensive.
Local Open Scope nat_scope.

Section Dict.
Implicit Types (d : dict) (k : key) (q : nat).

Lemma keys_dset d k q : map fst (dset d k q) = if hasKey d k then map fst d else rcons (map fst d) k.
Proof.
rewrite /dset; case: ifP => _; last by rewrite map_rcons.
by rewrite -map_comp; apply: eq_map => e /=; case: eqP.
Qed.
Lemma keys_dpop d k : map fst (dpop d k) = [seq x <- map fst d | x != k].
Proof. by rewrite /dpop filter_map. Qed.
Lemma dset_new d k q : ~~ hasKey d k -> dset d k q = rcons d (k, q).
Proof. by rewrite /dset => /negbTE ->. Qed.
Lemma dpop_none d k : ~~ hasKey d k -> dpop d k = d.
Proof.
rewrite /hasKey /dpop => h; apply/all_filterP/allP => e he.
by apply: contraNneq h => <-; apply: map_f.
Qed.
Lemma dpop_rcons d k q : ~~ hasKey d k -> dpop (rcons d (k, q)) k = d.
Proof. by move=> h; rewrite /dpop filter_rcons /= eqxx; apply: dpop_none. Qed.
Lemma dgetP d k q : dget d k = Some q -> (k, q) \in d.
Proof.
elim: d => //= -[k' q'] d IH /=; case: eqP => [->|_]; first by move=> [<-]; rewrite mem_head.
by move/IH; rewrite inE orbC => ->.
Qed.
Lemma dget_none d k : (dget d k == None) = ~~ hasKey d k.
Proof.
elim: d => //= -[k' q'] d IH /=; rewrite /hasKey /= inE.
by rewrite (eq_sym k k'); case: (k' == k).
Qed.
Lemma dget_in d k q : uniq (map fst d) -> (k, q) \in d -> dget d k = Some q.
Proof.
elim: d => //= -[k' q'] d IH /= /andP[h1 h2]; rewrite inE => /orP[/eqP[<- <-]|h]; first by rewrite eqxx.
case: eqP => [e|_]; last exact: IH.
by move: h1; rewrite e; have /= -> := map_f fst h.
Qed.
Lemma in_dset d k q e : e \in dset d k q -> e = (k, q) \/ (e \in d /\ e.1 != k).
Proof.
rewrite /dset /hasKey; case: ifP => [_|/negbT hk].
  by move/mapP => [x hx ->]; case: eqP => [_|/eqP hn]; [left | right].
rewrite mem_rcons inE => /orP[/eqP ->|he]; [by left | right; split=> //].
by apply: contraNneq hk => <-; apply: map_f.
Qed.
Lemma dset_has d k q : (k, q) \in dset d k q.
Proof.
rewrite /dset /hasKey; case: ifP => [/mapP[e he ->]|_]; last by rewrite mem_rcons mem_head.
by apply/mapP; exists e => //; rewrite eqxx.
Qed.
Lemma dset_keep d k q e : e \in d -> e.1 != k -> e \in dset d k q.
Proof.
rewrite /dset; case: ifP => _ he hk; last by rewrite mem_rcons inE he orbT.
by apply/mapP; exists e => //; rewrite (negbTE hk).
Qed.
Lemma in_dpop d k e : (e \in dpop d k) = (e.1 != k) && (e \in d).
Proof. by rewrite mem_filter. Qed.

(** Keys are unique and the name of a system is the key of that system. *)
Definition wf d : Prop := uniq (map fst d) /\ forall s q, (KName s, q) \in d -> s = q.

Lemma wf_dset d k q : (k.1 \/ k = KName q) -> wf d -> wf (dset d k q).
Proof.
move=> hk [h1 h2]; split.
  by rewrite keys_dset; case: ifP => // hn; rewrite rcons_uniq h1 andbT -[_ \in _]/(hasKey d k) hn.
move=> s x /in_dset[[e ->]|[he _]]; last exact: h2.
by case: hk; rewrite -e // => -[].
Qed.
Lemma wf_dpop d k : wf d -> wf (dpop d k).
Proof.
move=> [h1 h2]; split; first by rewrite keys_dpop filter_uniq.
by move=> s x; rewrite in_dpop => /andP[_]; apply: h2.
Qed.
End Dict.

Section Steps.
Variables (w : world) (me : nat).
Implicit Types (s : st) (q p : nat).

Lemma wf_addOne b q po s : wf (s_dict s) -> wf (s_dict (addOne b q po s)).
Proof.
move=> h; rewrite /addOne /=.
have h1 : wf (if b || (q \notin [seq i.2 | i <- s_dict s]) then dpop (dset (s_dict s) (KName q) q) (KName q) else s_dict s).
  by case: ifP => // _; apply: wf_dpop; apply: wf_dset => //; right.
case: po => [p|]; first by apply: wf_dset => //; left.
by case: ifP => // _; apply: wf_dset => //; right.
Qed.

Lemma dict_removeIn m o s : s_dict (removeIn m o s).1 = s_dict s.
Proof. by rewrite /removeIn; case: (removeSweep _ _).2 => // u; case: (removeSweep _ _).2. Qed.
Lemma dict_removeSweepOf o s : s_dict (removeSweepOf w me o s).1 = s_dict s.
Proof.
rewrite /removeSweepOf; have := dict_removeIn me o s; case: removeIn => a [x|e] //= h.
by case: ifP => _ //; rewrite dict_removeIn.
Qed.
Lemma dict_removeSweepAll os s : s_dict (removeSweepAll w me os s).1 = s_dict s.
Proof.
elim: os s => //= o os IH s; have := dict_removeSweepOf o s; case: removeSweepOf => a [x|e] //= <-.
exact: IH.
Qed.

Lemma dict_removeProtocol k s : s_dict (removeProtocol w me (Some k) s).1 = dpop (s_dict s) k.
Proof.
rewrite /removeProtocol; case e : dget => [q|]; last by rewrite dpop_none // -dget_none e.
case: (k.1) => //; set s1 := withDict _ _.
have := dict_removeSweepAll [:: k.2; w_sim w k.2] s1; case: removeSweepAll => a [x|ex] //= h.
by case: ifP => _ //; rewrite dict_removeSweepOf.
Qed.
Lemma dict_removeQSystems b q s : s_dict (removeQSystems w me b q s).1 = dpop (s_dict s) (KName q).
Proof.
rewrite /removeQSystems; case: ifP => h; first by rewrite dpop_none.
by case: b => //; rewrite dict_removeSweepAll.
Qed.

Lemma wf_freeLoop keys d : wf d -> wf (freeLoop w keys d).1.
Proof.
elim: keys d => //= k keys IH d h; case e : dget => [q|] //=; apply: IH.
by case hk : (k.1); apply: wf_dset; [left| apply: wf_dpop | left | apply: wf_dpop].
Qed.

Lemma wf_addProtocol p (q : option nat) rem s : wf (s_dict s) -> wf (s_dict (addProtocol w me p q rem s).1).
Proof.
move=> h; have H x : wf (s_dict (addProtocolTo w me p x rem s).1).
  rewrite /addProtocolTo; case: (w_super w p) => [y|] //; case: ifP => // _.
  by case: rem => [k|]; [rewrite dict_removeProtocol; apply: wf_dpop | ]; apply: wf_addOne.
by rewrite /addProtocol; case: q => // ; case: (w_super w p).
Qed.

Lemma wf_step s o : wf (s_dict s) -> wf (s_dict (step w me s o)).
Proof.
move=> h; case: o => [q|q|q p|qs p|p q rem|b q|k| |]; rewrite /step; try exact: wf_addOne.
- by rewrite /addList; elim: qs s h => //= q qs IH s h; apply: IH; apply: wf_addOne.
- exact: wf_addProtocol.
- by rewrite dict_removeQSystems; apply: wf_dpop.
- by rewrite dict_removeProtocol; apply: wf_dpop.
- by rewrite /qEvolutions /freeEvol; have := wf_freeLoop (protocols s) h; case: freeLoop => a [x|e].
- rewrite /runStart; case e : (s_dict s) => [|x d].
    case: (w_super w me) => [q|] //.
    by apply: wf_freeLoop; apply: wf_addOne.
  exact: wf_freeLoop.
Qed.

(** Running: keys become protocols. *)
Lemma freeLoop_ok keys d : uniq keys -> {subset keys <= map fst d} -> (freeLoop w keys d).2 = Ok tt.
Proof.
elim: keys d => //= k keys IH d /andP[hn hu] hs.
have hk : hasKey d k by apply: hs; rewrite mem_head.
case e : dget => [q|]; last by move/eqP: e; rewrite dget_none hk.
apply: IH => // x hx.
have hxk : x != k by apply: contraNneq hn => <-.
have hx1 : x \in map fst (dpop d k) by rewrite keys_dpop mem_filter hxk hs // inE hx orbT.
by case: (k.1); rewrite keys_dset; case: ifP => // _; rewrite mem_rcons inE hx1 orbT.
Qed.

Lemma freeLoop_keys keys d k : k \in map fst (freeLoop w keys d).1 -> k.1 \/ (k \in map fst d /\ k \notin keys) \/ (freeLoop w keys d).2 <> Ok tt.
Proof.
elim: keys d => [|k' keys IH] d /=; first by move=> h; right; left.
case e : dget => [q|] //=; last by move=> _; right; right.
move=> /IH[h|[[h1 h2]|h]]; [by left | | by right; right].
case hk : k'.1 h1; rewrite keys_dset => h1.
  have : k \in k' :: map fst (dpop d k') by move: h1; case: ifP => _; rewrite ?mem_rcons // inE => ->; rewrite orbT.
  rewrite inE => /orP[/eqP ->|]; first by left.
  by rewrite keys_dpop mem_filter => /andP[h3 h4]; right; left; rewrite inE negb_or h3.
have : k \in KPro (w_free w q) :: map fst (dpop d k') by move: h1; case: ifP => _; rewrite ?mem_rcons // inE => ->; rewrite orbT.
rewrite inE => /orP[/eqP ->|]; first by left.
by rewrite keys_dpop mem_filter => /andP[h3 h4]; right; left; rewrite inE negb_or h3.
Qed.

Lemma freeEvol_ok s : wf (s_dict s) -> (freeEvol w s).2 = Ok tt /\ all (fun k => k.1) (protocols (freeEvol w s).1).
Proof.
move=> [hu _].
have ok : (freeLoop w (protocols s) (s_dict s)).2 = Ok tt by apply: freeLoop_ok.
split=> //; apply/allP => k hk.
by have [//|[[h1 h2]|h]] := freeLoop_keys hk; [rewrite h1 in h2 | ].
Qed.

Lemma freeLoop_head k q keys d : freeLoop w (k :: keys) ((k, q) :: d) =
  freeLoop w keys (if k.1 then dset (dpop d k) k q else dset (dpop d k) (KPro (w_free w q)) q).
Proof.
have e : dget ((k, q) :: d) k = Some q by rewrite /dget -/dget eqxx.
have e' : dpop ((k, q) :: d) k = dpop d k.
  by rewrite /dpop; have -> : forall f, filter f ((k, q) :: d) = if f (k, q) then (k, q) :: filter f d else filter f d by []; rewrite eqxx.
by rewrite /freeLoop -/freeLoop e e'.
Qed.

Lemma freeLoop_map d d' : wf (d ++ d') -> all (fun e => e.1.1) d' ->
  uniq (map (atRun w) (d ++ d')) -> freeLoop w (map fst d) (d ++ d') = (d' ++ [seq (atRun w e, e.2) | e <- d], Ok tt).
Proof.
elim: d d' => [|[k q] d IH] d' hw ha hu; first by rewrite cats0.
rewrite -[((k, q) :: d) ++ d']/((k, q) :: (d ++ d')) -[map fst ((k, q) :: d)]/(k :: map fst d) freeLoop_head.
have [hk hw'] : ~~ hasKey (d ++ d') k /\ wf (d ++ d').
  case: hw => /= /andP[h1 h2] h3; split=> //; split=> // s x hx; apply: h3; by rewrite inE hx orbT.
rewrite (dpop_none hk).
have hp1 : (atRun w (k, q)).1 by rewrite /atRun /=; case e : (k.1).
have hn : ~~ hasKey (d ++ d') (atRun w (k, q)).
  move: hu => /= /andP[h1 _]; apply: contra h1 => /mapP[e he ee]; apply/mapP; exists e => //.
  by rewrite /atRun -ee hp1.
have E := dset_new q hn.
have -> : (if k.1 then dset (d ++ d') k q else dset (d ++ d') (KPro (w_free w q)) q) = d ++ rcons d' (atRun w (k, q), q).
  by rewrite -rcons_cat -E /atRun /=; case: (k.1).
rewrite IH ?cat_rcons //.
- by rewrite -rcons_cat -E; apply: wf_dset => //; left.
- by rewrite all_rcons /= hp1.
- rewrite -rcons_cat map_rcons rcons_uniq.
  by have -> : atRun w (atRun w (k, q), q) = atRun w (k, q) by rewrite {1}/atRun /= hp1.
Qed.

Lemma freeEvol_map s : wf (s_dict s) -> uniq (map (atRun w) (s_dict s)) ->
  s_dict (freeEvol w s).1 = [seq (atRun w e, e.2) | e <- s_dict s].
Proof.
move=> h1 h2; have := freeLoop_map (d := s_dict s) (d' := [::]); rewrite cats0 => /(_ h1 isT h2) h.
by rewrite /freeEvol h.
Qed.

Lemma freeEvol_again s : wf (s_dict s) -> all (fun k => k.1) (protocols s) -> freeEvol w s = (s, Ok tt).
Proof.
move=> hw ha; have e : map (atRun w) (s_dict s) = protocols s.
  apply/eq_in_map => x hx; rewrite /atRun; have := allP ha _ (map_f fst hx); by move=> ->.
have := freeLoop_map (d := s_dict s) (d' := [::]); rewrite cats0 => /(_ hw isT).
rewrite e => /(_ (proj1 hw)) h; rewrite /freeEvol h /=; congr pair.
case: s hw ha e h => d a b /= hw ha e h; congr St; rewrite /withDict /=.
elim: d {hw h} ha e => //= x d IH /andP[h1 h2] [e1 e2]; rewrite e1 IH //; by case: x {h1 e1}.
Qed.

(** Protocols belong to their systems. *)
Definition paired (d : dict) : Prop := forall p q, (KPro p, q) \in d -> w_super w p = Some q.

Lemma paired_dset d (k : key) q : (k.1 -> w_super w k.2 = Some q) -> paired d -> paired (dset d k q).
Proof.
move=> hk hd p x /in_dset[[e ->]|[he _]]; last exact: hd.
by move: hk; rewrite -e => /(_ isT).
Qed.
Lemma paired_dpop d (k : key) : paired d -> paired (dpop d k).
Proof. by move=> h p x; rewrite in_dpop => /andP[_]; apply: h. Qed.
Lemma paired_addOne b q po s : (if po is Some p then w_super w p = Some q else True) ->
  paired (s_dict s) -> paired (s_dict (addOne b q po s)).
Proof.
move=> hpo h; rewrite /addOne /=.
have h1 : paired (if b || (q \notin [seq i.2 | i <- s_dict s]) then dpop (dset (s_dict s) (KName q) q) (KName q) else s_dict s).
  by case: ifP => // _; apply: paired_dpop; apply: paired_dset.
by case: po hpo => [p|_]; [move=> hp; apply: paired_dset | case: ifP => // _; apply: paired_dset].
Qed.
Hypothesis free_super : forall q, w_super w (w_free w q) = Some q.
Lemma paired_freeLoop keys d : paired d -> paired (freeLoop w keys d).1.
Proof.
elim: keys d => //= k keys IH d h; case e : dget => [q|] //=; apply: IH.
case hk : (k.1); apply: paired_dset; try exact: paired_dpop; last by move=> _; apply: free_super.
move=> _; apply: h; have := dgetP e; by case: k hk {e} => b p /= ->.
Qed.
Lemma paired_addProtocol p (q : option nat) rem s : paired (s_dict s) -> paired (s_dict (addProtocol w me p q rem s).1).
Proof.
move=> h; have H x : paired (s_dict (addProtocolTo w me p x rem s).1).
  rewrite /addProtocolTo; case e : (w_super w p) => [y|] //; case: eqP => // ->.
  by case: rem => [k|]; [rewrite dict_removeProtocol; apply: paired_dpop | ]; apply: paired_addOne.
by rewrite /addProtocol; case: q => // ; case: (w_super w p).
Qed.
Lemma paired_step s o : noPair o -> paired (s_dict s) -> paired (s_dict (step w me s o)).
Proof.
move=> ho h; case: o ho => [q|q|q p|qs p|p q rem|b q|k| |] // _; rewrite /step; try exact: paired_addOne.
- by rewrite /addList; elim: qs s h => //= q qs IH s h; apply: IH; apply: paired_addOne.
- exact: paired_addProtocol.
- by rewrite dict_removeQSystems; apply: paired_dpop.
- by rewrite dict_removeProtocol; apply: paired_dpop.
- by rewrite /qEvolutions /freeEvol; have := @paired_freeLoop (protocols s) _ h; case: freeLoop => a [x|e].
- rewrite /runStart; case e : (s_dict s) => [|x d].
    case: (w_super w me) => [q|] //.
    by apply: paired_freeLoop; apply: paired_addOne.
  exact: paired_freeLoop.
Qed.

Lemma systems_freeLoop keys d q : wf d -> paired d -> (q \in map snd (freeLoop w keys d).1) = (q \in map snd d).
Proof.
elim: keys d => //= k keys IH d hw hp; case e : dget => [x|] //=.
have hin := dgetP e.
set k' := if k.1 then k else KPro (w_free w x).
have hk' : k'.1 by rewrite /k'; case h : (k.1).
have hs : w_super w k'.2 = Some x.
  rewrite /k'; case h : (k.1); last exact: free_super.
  by apply: hp; case: k h hin {e k' hk'} => b p /= ->.
have -> : (if k.1 then dset (dpop d k) k x else dset (dpop d k) (KPro (w_free w x)) x) = dset (dpop d k) k' x by rewrite /k'; case: (k.1).
rewrite IH; last 2 first.
- by apply: wf_dset; [left | apply: wf_dpop].
- by apply: paired_dset; [move=> _ | apply: paired_dpop].
apply/mapP/mapP => -[y hy ->].
  case: (in_dset hy) => [->|[]]; first by exists (k, x).
  by rewrite in_dpop => /andP[_ h] _; exists y.
have [ey|ny] := eqVneq y.1 k.
  exists (k', x); first exact: dset_has.
  case: hw => hu _; have := dget_in hu (k := y.1) (q := y.2); rewrite -surjective_pairing => /(_ hy).
  by rewrite ey e => -[].
have [ey|ny'] := eqVneq y.1 k'.
  exists (k', x); first exact: dset_has.
  have : w_super w y.1.2 = Some y.2.
    by apply: hp; move: hk'; rewrite -ey; case: y hy {ny ey} => -[b p] z /= hy hb; rewrite hb in hy.
  by rewrite ey hs => -[].
exists y => //; apply: dset_keep => //; by rewrite in_dpop ny.
Qed.


Lemma wf_run s os : wf (s_dict s) -> wf (s_dict (run w me s os)).
Proof. by elim: os s => //= o os IH s h; apply: IH; apply: wf_step. Qed.
Lemma paired_run s os : all noPair os -> paired (s_dict s) -> paired (s_dict (run w me s os)).
Proof. by elim: os s => //= o os IH s /andP[h1 h2] h; apply: IH => //; apply: paired_step. Qed.
Lemma listedE s : listed s = s_dict s.
Proof. by rewrite /listed zip_map; elim: (s_dict s) => //= -[k q] d ->. Qed.
Lemma reachable_wf s : reachable w me s -> wf (s_dict s).
Proof. by move=> [s0 [os [h ->]]]; apply: wf_run; rewrite h. Qed.
Lemma own_wf s : reachableOwn w me s -> wf (s_dict s).
Proof. by move=> [s0 [os [h _ ->]]]; apply: wf_run; rewrite h. Qed.
Lemma own_paired s : reachableOwn w me s -> paired (s_dict s).
Proof. by move=> [s0 [os [h1 h2 ->]]]; apply: paired_run => //; rewrite h1. Qed.

(** Without sweeps nothing is removed from them. *)
Lemma removeIn_none m o s : noSweep s -> exists s', [/\ removeIn m o s = (s', Ok tt), noSweep s' & s_dict s' = s_dict s].
Proof.
move=> h; exists (removeIn m o s).1; rewrite dict_removeIn.
by rewrite /removeIn (h m).1 (h m).2 /=; split=> // j; rewrite /= /fset; case: eqP => _; split=> //; case: (h j).
Qed.
Lemma removeSweepOf_none o s : noSweep s -> exists s', [/\ removeSweepOf w me o s = (s', Ok tt), noSweep s' & s_dict s' = s_dict s].
Proof.
move=> h; rewrite /removeSweepOf; have [s1 [-> h1 e1]] := removeIn_none me o h.
rewrite /=; case: ifP => _; last by exists s1.
by have [s2 [-> h2 e2]] := removeIn_none o o h1; exists s2; rewrite e2.
Qed.
Lemma removeSweepAll_none os s : noSweep s -> exists s', [/\ removeSweepAll w me os s = (s', Ok tt), noSweep s' & s_dict s' = s_dict s].
Proof.
elim: os s => [|o os IH] s h /=; first by exists s.
have [s1 [-> h1 e1]] := removeSweepOf_none o h.
by have [s2 [-> h2 e2]] := IH _ h1; exists s2; rewrite e2.
Qed.
End Steps.

(** What removing an object does to the sweeps. *)
Section Swept.
Variables (w : world) (me : nat).
Implicit Types (s : st) (m o x : nat) (l : sweeps).
Definition sw l x : bool := has (fun e => x \in e.2) l.
Lemma mem_del x o (l : seq nat) : (x \in del o l) = (x != o) && (x \in l).
Proof.
have -> : del o l = [seq y <- l | y != o] by elim: l => //= y l ->; case: PeanoNat.Nat.eqb_spec => [->|/eqP h]; rewrite ?eqxx // h.
by rewrite mem_filter.
Qed.
Lemma existsbE o (l : seq nat) : List.existsb (PeanoNat.Nat.eqb o) l = (o \in l).
Proof. by elim: l => //= y l ->; rewrite inE; case: PeanoNat.Nat.eqb_spec => [->|/eqP h]; rewrite ?eqxx // (negbTE h). Qed.
Lemma sw_loop l o : let r := removeSystem_loop l o in
  [/\ forall x, sw r.1 x -> sw l x, forall x, x != o -> sw r.1 x = sw l x & r.2 = Ok tt -> ~~ sw r.1 o].
Proof.
elim: l => [|[i sys] l [h1 h2 h3]] //=; rewrite existsbE; case: ifP => // ho.
case E : (removeSystem_loop l o) => [l' r] /=; rewrite E /= in h1 h2 h3.
have e x : sw ((if del o sys is [::] then [::] else [:: (i, del o sys)]) ++ l') x = (x != o) && (x \in sys) || sw l' x.
  by rewrite -mem_del; case: (del o sys).
split=> [x|x hx|hr]; rewrite e.
- by rewrite /sw /= => /orP[/andP[_ ->]//|/h1 h]; apply/orP; right.
- by rewrite hx h2.
- by rewrite eqxx /=; apply: h3.
Qed.
Lemma swE s m x : sweptIn s m x = sw (s_sweep s m) x || sw (s_tdep s m) x.
Proof. by rewrite /sweptIn has_cat. Qed.
Lemma sw_removeIn m o s : let r := removeIn m o s in
  [/\ forall j x, sweptIn r.1 j x -> sweptIn s j x, forall j x, x != o -> sweptIn r.1 j x = sweptIn s j x
    & r.2 = Ok tt -> ~~ sweptIn r.1 m o].
Proof.
rewrite /removeIn /=; have [a1 a2 a3] := sw_loop (s_sweep s m) o; have [b1 b2 b3] := sw_loop (s_tdep s m) o.
case e1 : (removeSystem_loop (s_sweep s m) o) a1 a2 a3 => [l [[]|e]] /= a1 a2 a3.
  case e2 : (removeSystem_loop (s_tdep s m) o) b1 b2 b3 => [l' r] /= b1 b2 b3.
  have E j x : sweptIn (St (s_dict s) (fset (s_sweep s) m l) (fset (s_tdep s) m l')) j x =
               if j == m then sw l x || sw l' x else sweptIn s j x.
    by rewrite swE /= /fset; case: eqP => // _; rewrite swE.
  have F j x : sweptIn s j x = if j == m then sw (s_sweep s m) x || sw (s_tdep s m) x else sweptIn s j x.
    by rewrite swE; case: eqP => [->|].
  case: r e2 b3 => [[]|e] e2 b3; split=> [j x|j x hx|//]; rewrite ?E ?eqxx.
  - by rewrite F; case: eqP => // _ /orP[/a1|/b1] ->; rewrite ?orbT.
  - by rewrite F; case: eqP => // _; rewrite a2 ?b2.
  - by move=> _; rewrite negb_or a3 ?b3.
  - by rewrite F; case: eqP => // _ /orP[/a1|/b1] ->; rewrite ?orbT.
  - by rewrite F; case: eqP => // _; rewrite a2 ?b2.
split=> [j x|j x hx|//]; rewrite !swE /= /fset; case: eqP => // ->.
- by move=> /orP[/a1|] ->; rewrite ?orbT.
- by rewrite a2.
Qed.
Lemma sw_removeSweepOf o s : let r := removeSweepOf w me o s in
  [/\ forall j x, sweptIn r.1 j x -> sweptIn s j x, forall j x, x != o -> sweptIn r.1 j x = sweptIn s j x
    & r.2 = Ok tt -> ~~ sweptIn r.1 me o /\ (w_isSim w o -> ~~ sweptIn r.1 o o)].
Proof.
rewrite /removeSweepOf /=; have := sw_removeIn me o s; case: removeIn => a [[]|e] /= [h1 h2 h3]; last by split.
have [b1 b2 b3] := sw_removeIn o o a.
case: ifP => hs.
  split=> [j x /b1/h1//|j x hx|hr]; first by rewrite b2 // h2.
  split; last by move=> _; apply: b3.
  by apply/negP => /b1; apply/negP; apply: h3.
split=> // hr; split; first exact: h3.
by move=> hi; move: hs; rewrite hi /= => /negbFE/eqP e; move: (h3 erefl); rewrite -e.
Qed.
Lemma sw_removeSweepAll os s : let r := removeSweepAll w me os s in
  [/\ forall j x, sweptIn r.1 j x -> sweptIn s j x, forall j x, x \notin os -> sweptIn r.1 j x = sweptIn s j x
    & r.2 = Ok tt -> forall o, o \in os -> ~~ sweptIn r.1 me o /\ (w_isSim w o -> ~~ sweptIn r.1 o o)].
Proof.
elim: os s => [|o os IH] s /=; first by split.
have := sw_removeSweepOf o s; case: removeSweepOf => a [[]|e] /= [h1 h2 h3]; last first.
  by split=> // j x; rewrite inE negb_or => /andP[hx _]; apply: h2.
have [b1 b2 b3] := IH a; split=> [j x /b1/h1//|j x|hr y].
  by rewrite inE negb_or => /andP[hx hn]; rewrite b2 // h2.
rewrite inE => /orP[/eqP->|hy]; last exact: b3.
have [g1 g2] := h3 erefl; split=> [|hi]; first by apply: contra g1; apply: b1.
by apply: contra (g2 hi); apply: b1.
Qed.
Lemma sw_dict s d m x : sweptIn (withDict s d) m x = sweptIn s m x.
Proof. by []. Qed.
End Swept.
