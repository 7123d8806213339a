(** C83: the systems and protocols of a simulation. *)
From Verif Require Import Py SweepModel SimSysModel SimSysSpec SimSysProofs.
From mathcomp Require Import all_ssreflect.
Set Implicit Arguments.
Unset Strict Implicit.
Unset Printing Implicit Defensive.

Section Stated.
Variables (w : world) (me : nat).
Implicit Types (s : st) (q p : nat).

(** Whatever was done, no key is listed twice, and a name is the one of its system. *)
Theorem C83_keys s : reachable w me s ->
  uniq (protocols s) /\ forall x q, (KName x, q) \in listed s -> x = q.
Proof. by move=> /reachable_wf[h1 h2]; rewrite listedE. Qed.

(** Adding a system: one that is there changes nothing, another comes last, under its name. *)
Theorem C83_add s q : reachable w me s ->
  listed (addOne false q None s) = if q \in qSystems s then listed s else rcons (listed s) (KName q, q).
Proof.
move=> /reachable_wf[h1 h2]; rewrite !listedE /addOne /= /qSystems.
case hq : (q \in [seq i.2 | i <- s_dict s]); first by rewrite /= hq.
have hk : ~~ hasKey (s_dict s) (KName q).
  apply/negP => /mapP[[k x] hx /= e]; move: hx; rewrite -e => hx.
  by move: hq; rewrite (h2 _ _ hx); have /= -> := map_f snd hx.
by rewrite (dset_new _ hk) (dpop_rcons _ hk) /= hq (dset_new _ hk).
Qed.
Theorem C83_addList s qs po q : reachable w me s ->
  (q \in qSystems (addList qs po s)) = (q \in qs) || (q \in qSystems s).
Proof.
rewrite /addList; elim: qs s => //= x qs IH s h.
have h' : reachable w me (addOne false x None s).
  by case: h => s0 [os [e ->]]; exists s0, (rcons os (Add x)); rewrite /run foldl_rcons.
rewrite IH // inE /qSystems -!listedE C83_add //.
have e : map snd (listed s) = qSystems s by rewrite listedE.
case: ifP => hx; last by rewrite map_rcons mem_rcons inE /= orbCA orbA.
by case: eqP => [->|] //=; rewrite e hx orbT.
Qed.

(** Adding a protocol of a system: that pair is listed, last unless the protocol was there, and
    nothing else is changed. *)
Theorem C83_addProtocol s p q : reachable w me s -> w_super w p = Some q ->
  let s' := (addProtocol w me p None None s).1 in
  [/\ (addProtocol w me p None None s).2 = Ok tt,
      protocols s' = if KPro p \in protocols s then protocols s else rcons (protocols s) (KPro p),
      (KPro p, q) \in listed s'
    & forall k x, k != KPro p -> ((k, x) \in listed s') = ((k, x) \in listed s)].
Proof.
move=> /reachable_wf[h1 h2] hp; rewrite /addProtocol hp /addProtocolTo hp eqxx /= !listedE /=.
have E : (if q \notin [seq i.2 | i <- s_dict s] then dpop (dset (s_dict s) (KName q) q) (KName q) else s_dict s) = s_dict s.
  case: ifP => // hq; have hk : ~~ hasKey (s_dict s) (KName q).
    apply/negP => /mapP[[k x] hx /= e]; move: hx; rewrite -e => hx.
    by move: hq; rewrite (h2 _ _ hx); have /= -> := map_f snd hx.
  by rewrite (dset_new _ hk) (dpop_rcons _ hk).
rewrite E; split=> //.
- by rewrite -(keys_dset (s_dict s) (KPro p) q) /protocols /addOne /= E.
- exact: dset_has.
-
move=> k x hk; apply/idP/idP; last by move=> h; apply: dset_keep.
by move/in_dset => [[e _]|[]] //; rewrite e eqxx in hk.
Qed.
(** It is refused when the system is not the one of the protocol. *)
Theorem C83_otherSystem s p q q' rem : w_super w p = Some q -> q' != q ->
  addProtocol w me p (Some q') rem s = (s, Err TypeError).
Proof. by move=> hp hq; rewrite /addProtocol /addProtocolTo hp (negbTE hq). Qed.

(** A run, or qEvolutions, never fails on the dictionary; every key is then a protocol. *)
Theorem C83_run s : reachable w me s ->
  (freeEvol w s).2 = Ok tt /\ all (fun k => k.1) (protocols (freeEvol w s).1).
Proof. by move=> /reachable_wf; apply: freeEvol_ok. Qed.
(** The order is kept, and every name becomes the free evolution of the system. *)
Theorem C83_runOrder s : reachable w me s -> uniq (map (atRun w) (listed s)) ->
  listed (freeEvol w s).1 = [seq (atRun w e, e.2) | e <- listed s].
Proof. by move=> /reachable_wf h; rewrite !listedE; apply: freeEvol_map. Qed.
(** qEvolutions returns these protocols, and they are then those of the simulation. *)
Theorem C83_qEvolutions s : reachable w me s -> uniq (map (atRun w) (listed s)) -> listed s <> [::] ->
  let r := qEvolutions w s in
  r.2 = Ok (map (atRun w) (listed s)) /\ protocols r.1 = map (atRun w) (listed s).
Proof.
move=> h hu hn; have [e _] := C83_run h; have ho := C83_runOrder h hu.
have hp : protocols (freeEvol w s).1 = map (atRun w) (listed s).
  have := congr1 (map fst) ho; rewrite -map_comp listedE -/(protocols _) => ->; exact: eq_map.
rewrite /qEvolutions e /= hp; by case: (listed s) hn.
Qed.
(** Running again changes nothing. *)
Theorem C83_runTwice s : reachable w me s -> freeEvol w (freeEvol w s).1 = ((freeEvol w s).1, Ok tt).
Proof.
move=> h; have hw := reachable_wf h; apply: freeEvol_again; last by case: (C83_run h).
by rewrite /freeEvol; apply: wf_freeLoop.
Qed.
(** Every protocol is listed with its own system, and a run keeps the systems. *)
Theorem C83_own s p q : (forall x, w_super w (w_free w x) = Some x) -> reachableOwn w me s ->
  (KPro p, q) \in listed s -> w_super w p = Some q.
Proof. by move=> hf /(own_paired hf); rewrite listedE; apply. Qed.
Theorem C83_runSystems s q : (forall x, w_super w (w_free w x) = Some x) -> reachableOwn w me s ->
  (q \in qSystems (freeEvol w s).1) = (q \in qSystems s).
Proof. by move=> hf h; apply: systems_freeLoop => //; [apply: own_wf h | apply: own_paired h]. Qed.

(** Removing a system that is listed under its name, or a protocol: exactly that pair goes. *)
Theorem C83_remove s q : noSweep s -> KName q \in protocols s ->
  let r := removeQSystems w me false q s in
  r.2 = Ok tt /\ listed r.1 = [seq e <- listed s | e.1 != KName q].
Proof.
move=> hs hq /=; rewrite !listedE dict_removeQSystems; split=> //.
rewrite /removeQSystems; have -> : hasKey (s_dict s) (KName q) by [].
by have [s1 [-> _ _]] := removeSweepAll_none w me [:: q; w_sim w q; w_free w q; w_sim w (w_free w q)]
   (s := withDict s (dpop (s_dict s) (KName q))) hs.
Qed.
Theorem C83_removeProtocol s p : noSweep s ->
  let r := removeProtocol w me (Some (KPro p)) s in
  r.2 = Ok tt /\ listed r.1 = [seq e <- listed s | e.1 != KPro p].
Proof.
move=> hs r; rewrite /r !listedE dict_removeProtocol; split=> //.
rewrite /removeProtocol; case: dget => // q.
have [s1 [E h1 _]] := removeSweepAll_none w me [:: p; w_sim w p] (s := withDict s (dpop (s_dict s) (KPro p))) hs.
rewrite -[(KPro p).1]/true -[(KPro p).2]/p E -[(s1, Ok tt).1]/s1 -[(s1, Ok tt).2]/(Ok tt).
by case: ifP => // _; have [s2 [-> _ _]] := removeSweepOf_none w me q h1.
Qed.

(** A system that was removed, its free evolution and their simulations are swept no more, and
    nothing else leaves the sweeps, also when the removal fails. *)
Theorem C83_removeSwept s q o : (removeQSystems w me false q s).2 = Ok tt -> o \in partsOf w q ->
  let s' := (removeQSystems w me false q s).1 in
  ~~ sweptIn s' me o /\ (w_isSim w o -> ~~ sweptIn s' o o).
Proof.
rewrite /removeQSystems; case: ifP => // _; set s1 := withDict _ _.
by have [_ _ h] := sw_removeSweepAll w me (partsOf w q) s1; move=> hr ho; apply: h.
Qed.
Theorem C83_removeKeeps s q b m x : x \notin partsOf w q ->
  sweptIn (removeQSystems w me b q s).1 m x = sweptIn s m x.
Proof.
rewrite /removeQSystems; case: ifP => // _; case: b => // hx; set s1 := withDict _ _.
by have [_ h _] := sw_removeSweepAll w me (partsOf w q) s1; rewrite [LHS]h.
Qed.
(** The same for a protocol; its system leaves the sweeps exactly with its last protocol. *)
Theorem C83_removeProtocolSwept s p q : reachable w me s -> (KPro p, q) \in listed s ->
  (removeProtocol w me (Some (KPro p)) s).2 = Ok tt ->
  let s' := (removeProtocol w me (Some (KPro p)) s).1 in
  forall o, (o \in [:: p; w_sim w p]) || (o == q) && (q \notin qSystems s') ->
  ~~ sweptIn s' me o /\ (w_isSim w o -> ~~ sweptIn s' o o).
Proof.
move=> hw hl; cbv zeta; have -> : (q \notin qSystems (removeProtocol w me (Some (KPro p)) s).1) =
   (q \notin map snd (dpop (s_dict s) (KPro p))) by rewrite /qSystems dict_removeProtocol.
rewrite /removeProtocol.
have -> : dget (s_dict s) (KPro p) = Some q.
  by apply: dget_in; [case: (reachable_wf hw) | rewrite -listedE].
rewrite -[(KPro p).1]/true -[(KPro p).2]/p; set s1 := withDict _ _.
have [] := sw_removeSweepAll w me [:: p; w_sim w p] s1.
have := dict_removeSweepAll w me [:: p; w_sim w p] s1.
case: (removeSweepAll w me [:: p; w_sim w p] s1) => a [[]|e] //= ed h1 h2 h3.
rewrite [qSystems a]/qSystems ed; case: ifP => hq; last first.
  by move=> _ o; rewrite andbF orbF => ho; apply: h3.
have := sw_removeSweepOf w me q a; case: removeSweepOf => b [[]|e] //= [g1 g2 g3] _ o.
rewrite andbT => /orP[ho|/eqP->]; last exact: g3.
have [f1 f2] := h3 erefl _ ho; split=> [|hi]; first by apply: contra f1; apply: g1.
by apply: contra (f2 hi); apply: g1.
Qed.
Theorem C83_removeProtocolKeeps s p q m x : reachable w me s -> (KPro p, q) \in listed s ->
  let s' := (removeProtocol w me (Some (KPro p)) s).1 in
  x \notin [:: p; w_sim w p] -> (x != q) || (q \in qSystems s') -> sweptIn s' m x = sweptIn s m x.
Proof.
move=> hw hl; cbv zeta; have -> : (q \in qSystems (removeProtocol w me (Some (KPro p)) s).1) =
   (q \in map snd (dpop (s_dict s) (KPro p))) by rewrite /qSystems dict_removeProtocol.
rewrite /removeProtocol.
have -> : dget (s_dict s) (KPro p) = Some q.
  by apply: dget_in; [case: (reachable_wf hw) | rewrite -listedE].
rewrite -[(KPro p).1]/true -[(KPro p).2]/p; set s1 := withDict _ _ => hx.
have [] := sw_removeSweepAll w me [:: p; w_sim w p] s1.
have := dict_removeSweepAll w me [:: p; w_sim w p] s1.
case: (removeSweepAll w me [:: p; w_sim w p] s1) => a [[]|e] //= ed h1 h2 h3; last by rewrite h2.
rewrite [qSystems a]/qSystems ed; case: ifP => hq; last by rewrite h2.
rewrite (negbTE hq) orbF => hn; have [_ g2 _] := sw_removeSweepOf w me q a.
by rewrite [LHS]g2 // h2.
Qed.

(** A system that is not listed under its name cannot be removed: an error, and nothing changes.
    It is the case of every system after a run. *)
Theorem C83_removeAbsent s b q : KName q \notin protocols s -> removeQSystems w me b q s = (s, Err KeyError).
Proof. by rewrite /removeQSystems /hasKey /protocols => ->. Qed.
Theorem C83_removeAfterRun s b q : reachable w me s ->
  removeQSystems w me b q (freeEvol w s).1 = ((freeEvol w s).1, Err KeyError).
Proof.
move=> /C83_run[_ /allP h]; apply: C83_removeAbsent; by apply/negP => /h.
Qed.
(** By name, the pair goes and the call fails. *)
Theorem C83_removeByName s q : KName q \in protocols s ->
  let r := removeQSystems w me true q s in
  r.2 = Err AttributeError /\ listed r.1 = [seq e <- listed s | e.1 != KName q].
Proof.
move=> hq /=; rewrite !listedE dict_removeQSystems; split=> //.
by rewrite /removeQSystems; have -> : hasKey (s_dict s) (KName q) by [].
Qed.
(** Replacing the free evolution of a system by a protocol of it, with the name of the system for
    protocolRemove: the change is made and the call fails. *)
Theorem C83_replaceByName s p q : reachable w me s -> w_super w p = Some q -> KName q \in protocols s ->
  let r := addProtocol w me p None (Some (KName q)) s in
  r.2 = Err AttributeError /\
  listed r.1 = [seq e <- listed (addProtocol w me p None None s).1 | e.1 != KName q].
Proof.
move=> h hp hq r.
have E : r = removeProtocol w me (Some (KName q)) (addProtocol w me p None None s).1.
  by rewrite /r /addProtocol hp /addProtocolTo hp eqxx.
rewrite E !listedE dict_removeProtocol; split=> //.
have [_ hpr _ _] := C83_addProtocol h hp.
rewrite /removeProtocol; case e : dget => [x|] //.
move/eqP: e; rewrite dget_none -[hasKey _ _]/(KName q \in protocols _) hpr.
by case: ifP => _; rewrite ?mem_rcons ?inE hq ?orbT.
Qed.
(** A protocol without a system, added for a system: nothing happens and no error is raised. *)
Theorem C83_silent s p q rem : w_super w p = None -> addProtocol w me p (Some q) rem s = (s, Ok tt).
Proof. by rewrite /addProtocol /addProtocolTo => ->. Qed.
(** The protocol given with a list of systems is not used. *)
Theorem C83_listProtocol s qs p : reachable w me s -> KPro p \notin protocols s ->
  KPro p \notin protocols (addList qs (Some p) s).
Proof.
rewrite /addList; elim: qs s => //= x qs IH s h hp.
apply: IH; first by case: h => s0 [os [e ->]]; exists s0, (rcons os (Add x)); rewrite /run foldl_rcons.
have -> : protocols (addOne false x None s) = map fst (listed (addOne false x None s)) by rewrite listedE.
rewrite C83_add //; case: ifP => _; first by rewrite listedE.
by rewrite map_rcons mem_rcons inE negb_or /= listedE.
Qed.
End Stated.

(** A concrete world: system q has the free evolution 10 + q, p >= 20 is a protocol of p - 20;
    simulations have numbers from 100. *)
Definition wx : world := World (fun x => 100 + x) (fun q => 10 + q)
  (fun x => if x < 10 then None else if x < 20 then Some (x - 10) else if x < 30 then Some (x - 20) else None)
  (fun x => 100 <= x).
Definition s0 : st := St [::] (fun _ => [::]) (fun _ => [::]).

(** What one would expect of these, and is false. *)
Theorem C83_removable_refuted : ~ (forall w me s q, reachable w me s -> q \in qSystems s ->
  (removeQSystems w me false q s).2 = Ok tt).
Proof.
move=> H; have h : reachable wx 100 (run wx 100 s0 [:: Add 1; Run]) by exists s0, [:: Add 1; Run].
by have := H _ _ _ 1 h isT.
Qed.
Theorem C83_sweptElsewhere_refuted : ~ (forall w me s q, reachable w me s -> KName q \in protocols s ->
  (removeQSystems w me false q s).2 = Ok tt).
Proof.
pose s1 := St [::] (fun m => if m == 100 then [:: (7, [:: 2])] else [::]) (fun _ => [::]).
move=> H; have h : reachable wx 100 (run wx 100 s1 [:: Add 1; Add 2]) by exists s1, [:: Add 1; Add 2].
by have := H _ _ _ 1 h isT.
Qed.
Theorem C83_byNameOrder_refuted : ~ (forall w me s q, reachable w me s -> q \in qSystems s ->
  listed (addOne true q None s) = listed s).
Proof.
move=> H; have h : reachable wx 100 (run wx 100 s0 [:: Add 1; Add 2]) by exists s0, [:: Add 1; Add 2].
by have := H _ _ _ 1 h isT.
Qed.
Theorem C83_ownAlways_refuted : ~ (forall w me s p q, (forall x, x < 10 -> w_super w (w_free w x) = Some x) -> reachable w me s ->
  (KPro p, q) \in listed s -> w_super w p = Some q).
Proof.
move=> H; have h : reachable wx 100 (run wx 100 s0 [:: AddWith 1 22]) by exists s0, [:: AddWith 1 22].
have hf x : x < 10 -> w_super wx (w_free wx x) = Some x.
  by move=> hx; rewrite /= -{1}[10]addn0 ltn_add2l /= -{2}[20]/(10 + 10) ltn_add2l hx addKn.
by have := H _ _ _ 22 1 hf h isT.
Qed.
Theorem C83_evolutions_refuted : ~ (forall w me s, reachable w me s -> exists l, (qEvolutions w s).2 = Ok l).
Proof.
by move=> H; case: (H wx 100 s0) => //; exists s0, [::].
Qed.

(** Concrete cases. *)
Example C83_ex :
  let s := run wx 100 s0 [:: Add 1; AddList [:: 2; 1; 3] (Some 21); AddPro 22 None None; Add 2] in
  [/\ listed s = [:: (KName 1, 1); (KName 2, 2); (KName 3, 3); (KPro 22, 2)],
      uniq (map (atRun wx) (listed s)),
      listed (freeEvol wx s).1 = [:: (KPro 11, 1); (KPro 12, 2); (KPro 13, 3); (KPro 22, 2)],
      (qEvolutions wx s).2 = Ok [:: KPro 11; KPro 12; KPro 13; KPro 22]
    & listed (removeQSystems wx 100 false 2 s).1 = [:: (KName 1, 1); (KName 3, 3); (KPro 22, 2)]].
Proof. by []. Qed.
Example C83_ex_reach :
  let os := [:: Add 1; AddList [:: 2; 1; 3] (Some 21); AddPro 22 None None; Add 2] in
  reachableOwn wx 100 (run wx 100 s0 os) /\ noSweep (run wx 100 s0 os) /\
  w_super wx 22 = Some 2 /\ KName 2 \in protocols (run wx 100 s0 os).
Proof. by split; [exists s0, [:: Add 1; AddList [:: 2; 1; 3] (Some 21); AddPro 22 None None; Add 2] |]. Qed.
Example C83_ex_free : let w := World (fun x => x) (fun q => q.*2.+1) (fun x => Some x./2) (fun _ => false) in
  forall q, w_super w (w_free w q) = Some q.
Proof. by move=> w q; rewrite /= uphalf_double. Qed.

(** Sweeps of system 2, its protocol 22, their simulations and system 3. *)
Example C83_ex_swept :
  let a := St [::] (fun m => if m == 100 then [:: (7, [:: 2; 102; 12; 112]); (8, [:: 12; 3; 112; 2; 102])] else [::])
     (fun m => if m == 100 then [:: (9, [:: 102; 12; 4; 112; 2])] else [::]) in
  let s := run wx 100 a [:: Add 2; Add 3] in
  let r := removeQSystems wx 100 false 2 s in
  [/\ reachable wx 100 s, r.2 = Ok tt, s_sweep r.1 100 = [:: (8, [:: 3])] & s_tdep r.1 100 = [:: (9, [:: 4])]].
Proof. by move=> a s r; split=> //; exists a, [:: Add 2; Add 3]. Qed.
Example C83_ex_sweptProtocol :
  let a := St [::] (fun m => if m == 100 then [:: (7, [:: 2; 22; 122; 3])] else [::])
     (fun m => if m == 100 then [:: (9, [:: 22; 2; 122])] else [::]) in
  let r os := removeProtocol wx 100 (Some (KPro 22)) (run wx 100 a os) in
  [/\ (r [:: AddPro 22 None None]).2 = Ok tt, s_sweep (r [:: AddPro 22 None None]).1 100 = [:: (7, [:: 3])],
      s_tdep (r [:: AddPro 22 None None]).1 100 = [::]
    & s_sweep (r [:: Add 2; AddPro 22 None None]).1 100 = [:: (7, [:: 2; 3])]].
Proof. by []. Qed.

Print Assumptions C83_keys.
Print Assumptions C83_add.
Print Assumptions C83_addList.
Print Assumptions C83_addProtocol.
Print Assumptions C83_otherSystem.
Print Assumptions C83_run.
Print Assumptions C83_runOrder.
Print Assumptions C83_runTwice.
Print Assumptions C83_own.
Print Assumptions C83_runSystems.
Print Assumptions C83_remove.
Print Assumptions C83_removeProtocol.
Print Assumptions C83_removeSwept.
Print Assumptions C83_removeKeeps.
Print Assumptions C83_removeProtocolSwept.
Print Assumptions C83_removeProtocolKeeps.
Print Assumptions C83_removeAbsent.
Print Assumptions C83_removeAfterRun.
Print Assumptions C83_removeByName.
Print Assumptions C83_replaceByName.
Print Assumptions C83_silent.
Print Assumptions C83_listProtocol.
Print Assumptions C83_removable_refuted.
Print Assumptions C83_sweptElsewhere_refuted.
Print Assumptions C83_byNameOrder_refuted.
Print Assumptions C83_ownAlways_refuted.
Print Assumptions C83_evolutions_refuted.
