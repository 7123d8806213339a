(** C82: initial states of single and nested composite systems. *)
From mathcomp Require Import all_ssreflect all_algebra all_field.
From Verif Require Py.
From Verif Require Import MatModel OperModel StateModel MatLib MatSpec MatProofs CField OperProofs EvolProofs StateSpec StateProofs PropsMat PropsState.
From Verif Require Import InitModel InitSpec InitProofs.
Set Implicit Arguments.
Unset Strict Implicit.
Unset Printing Implicit Defensive.
Import GRing.Theory Num.Theory.
Local Open Scope ring_scope.

Section Init.
Variable C : numClosedFieldType.
Implicit Types (t : sys C) (v : inp C) (os : seq (op C)).

Lemma readsE t p r : reads t p r <-> exists2 u, subAt t p = Some u & (getState u).1 = Ok r.
Proof.
split=> [[t' h]|[u e h]].
  case e : (subAt t p) => [u|]; last by move: h; rewrite /getAt (callAt_none _ _ e).
  exists u => //; move: h; rewrite /getAt.
  by have [t1 [-> _]] := callAt_sub (@getState C) id e => -[].
by have [t1 [h1 _]] := callAt_sub (@getState C) id e; exists t1; rewrite /getAt h1 h.
Qed.
Lemma readRaisesE t p e : readRaises t p e <-> exists2 u, subAt t p = Some u & (getState u).1 = Err e.
Proof.
split=> [[t' h]|[u es h]].
  case es : (subAt t p) => [u|]; last by move: h; rewrite /getAt (callAt_none _ _ es).
  exists u => //; move: h; rewrite /getAt.
  by have [t1 [-> _]] := callAt_sub (@getState C) id es => -[].
by have [t1 [h1 _]] := callAt_sub (@getState C) id es; exists t1; rewrite /getAt h1 h.
Qed.

Lemma shapeAt_sub t q s : shapeAt (shapeOf t) q = Some s -> exists2 u, subAt t q = Some u & shapeOf u = s.
Proof.
elim: q t => [|i q IH] t /=; first by move=> [<-]; exists t.
case: t => [d c m|m l] //=.
elim: l i => [|a l IHl] [|i] //=; first exact: IH.
exact: IHl.
Qed.

Lemma run_cat t os os' : run t (os ++ os') = run (run t os) os'.
Proof. by rewrite /run foldl_cat. Qed.
Lemma proper_run t os : proper (shapeOf t) -> proper (shapeOf (run t os)).
Proof. by rewrite /run; elim: os t => //= o os IH t h; apply: IH; apply: proper_step. Qed.
Lemma flat_run t os : flat (shapeOf t) -> flat (shapeOf (run t os)).
Proof. by rewrite /run; elim: os t => //= o os IH t h; apply: IH; apply: flat_step. Qed.
Lemma kind_run t os : kind (shapeOf (run t os)) = kind (shapeOf t).
Proof. by rewrite /run; elim: os t => //= o os IH t; rewrite IH kind_step. Qed.
Lemma comp_kind t t' : kind (shapeOf t) = kind (shapeOf t') -> (exists m l, t = Comp m l) -> exists m l, t' = Comp m l.
Proof. by move=> e [m [l et]]; case: t' e; rewrite et // => m' l' _; exists m', l'. Qed.

(** Assigning an input: the assignment succeeds and does not change the
    structure, the system and each of its sub-systems then give the state that
    their part of the input stands for, and the systems outside of it (but for
    the ones it is in) give what they gave before. *)
Theorem C82_assign t p s v ps : proper (shapeOf t) -> shapeAt (shapeOf t) p = Some s -> parts s v = Some ps ->
  exists t', [/\ setAt t p v = Some (Ok tt, t'), shapeOf t' = shapeOf t,
    forall q w sq, inpAt v q = Some w -> shapeAt s q = Some sq ->
      exists pw r, [/\ parts sq w = Some pw, isState pw r & reads t' (p ++ q) r]
  & forall q r, ~~ prefix p q -> ~~ prefix q p -> reads t' q r <-> reads t q r].
Proof.
move=> hp /shapeAt_sub[u eu <-] hv.
have hpu := proper_sub hp eu.
have [u' [e1 st sh]] := setStateE hpu hv.
have [t' [e2 hsub]] := callAt_sub (fun s => setState s v) (putVal None) eu.
rewrite e1 /= in e2 hsub.
exists t'; split.
- exact: e2.
- by apply: (shape_callAt _ e2) => x; apply: shape_setState.
- move=> q w sq hw hq; rewrite -sh in hq; have [x ex hx] := shapeAt_sub hq.
  have sx := settled_own (settled_sub st ex hw).
  have hpx : proper (shapeOf x) by apply: proper_sub ex; rewrite sh.
  have [pw epw er] := getStateE hpx sx.
  exists pw, (stateOf pw); split.
  + by rewrite -hx.
  + by apply: isStateE; apply: parts_ne epw.
  + by apply/readsE; exists x => //; rewrite hsub.
- by move=> q r h1 h2; rewrite !readsE (callAt_other e2 h1 h2).
Qed.

(** A composite system that has been given an input keeps it: whatever is
    assigned to its sub-systems, read or changed in dimension afterwards, it
    gives the state that the input stands for with the present dimensions. *)
Theorem C82_whole t v os ps : (exists m l, t = Comp m l) -> proper (shapeOf t) -> parts (shapeOf t) v = Some ps ->
  neverWhole os -> forall ps', parts (shapeOf (run t (OSet [::] v :: os))) v = Some ps' ->
  exists2 r, isState ps' r & reads (run t (OSet [::] v :: os)) [::] r.
Proof.
move=> hc hp hv hn ps'; rewrite -cat1s run_cat.
have [t' [e1 st sh]] := setStateE hp hv.
have -> : run t [:: OSet [::] v] = t' by rewrite /run /= /setAt /= e1.
have [o1 _ [ps0 e0 o2]] := settled_own st.
have hp' : proper (shapeOf t') by rewrite sh.
have hc' : exists m l, t' = Comp m l by apply: comp_kind hc; rewrite sh.
have vn : v <> INone C by move=> ev; move: hv; rewrite ev; case: (shapeOf t).
have hw : wholeInv v t'.
  by split=> // ps1 h1; right; move: e0; rewrite h1 => -[->].
move=> {o1 o2 e0 e1 st}.
have {hw} : wholeInv v (run t' os).
  rewrite /run; elim: os t' hn hp' hc' hw {sh} => //= o os IH t' /andP[ho hn] hp' hc' hw.
  apply: IH => //; first exact: proper_step.
    by apply: comp_kind hc'; rewrite kind_step.
  by apply: wholeInv_step => //; case: (o) ho => // -[].
have {hp'} := proper_run os hp'.
have {hc'} : exists m l, run t' os = Comp m l by apply: comp_kind hc'; rewrite kind_run.
move: (run t' os) => {ps hv} t1 hc1 hp1 [ei ev] hps'.
exists (stateOf ps'); first by apply: isStateE; apply: parts_ne hps'.
apply/readsE; exists t1 => //; rewrite /getState ei.
have ecr : (create t1 v (s_max (simOf t1))).1 = Ok (stateOf ps').
  by apply: createE => //; case: hc1 => m [l ->].
case: ifP => hr; first by case: create ecr => a b /= ->.
by case: (ev _ hps') hr => ->.
Qed.

(** The same for a single system that is not in another one. *)
Definition aloneInv v t : Prop :=
  [/\ s_inp (simOf t) = v, (exists2 x, getMax v = Ok x & s_max (simOf t) = Some x)
    & forall ps, parts (shapeOf t) v = Some ps -> s_val (simOf t) = None \/ s_val (simOf t) = stateOf ps].
Lemma alone_read t v ps : proper (shapeOf t) -> aloneInv v t -> parts (shapeOf t) v = Some ps -> 
  (getState t).1 = Ok (stateOf ps).
Proof.
move=> hp [ei [x gx ex] ev] h; rewrite /getState ei ex.
have ecr : (create t v (Some x)).1 = Ok (stateOf ps) by apply: createE => //; case: (t).
case: ifP => hr; first by case: create ecr => a b /= ->.
by case: (ev _ h) hr => ->.
Qed.
Lemma alone_step t v o : (exists d c m, t = Single d c m) -> proper (shapeOf t) ->
  (if o is OSet [::] _ then false else true) -> aloneInv v t -> aloneInv v (step t o).
Proof.
move=> [d [c [m et]]] hp ho [h1 [x gx h2] h3].
case: o ho => [[|i p] w|[|i p]|p d' flag|b] // _; try by rewrite et; rewrite et in h1 h2 h3; split=> //; exists x.
- rewrite [step _ _]/=; have ei := getState_inp t; have es := shape_getState t.
  have [_ e2] := getState_sim hp.
  split; first by rewrite ei.
    exists x => //; rewrite -h2 et /getState; case: ifP => // _.
    by have := create_single d c m (s_inp (simOf (Single d c m))) (s_max (simOf (Single d c m))); case: create => -[s|e] u /= ->.
  move=> ps; rewrite es => hps; case: e2 => [->|[r er ->]]; first exact: h3.
  right; move: er; rewrite h1 h2 (createE hp hps) => [[]//|].
  by rewrite et.
- have [->|[rt e ->]] := step_dim t p d' flag; first by split=> //; exists x.
  have e0 : simOf rt.2 = simOf t by rewrite (callAt_sim_id _ e) // => u; apply: setDim_sim.
  split; rewrite clear_root e0 //=; first by exists x.
  by move=> ps _; left.
- split; rewrite [step _ _]/= clear_root; case: (b [::]) => //=; try by exists x.
    by move=> ps _; left.
  by move=> ps; rewrite shape_clear; apply: h3.
Qed.

Theorem C82_alone t v os ps : (exists d c m, t = Single d c m) -> proper (shapeOf t) -> parts (shapeOf t) v = Some ps ->
  neverWhole os -> forall ps', parts (shapeOf (run t (OSet [::] v :: os))) v = Some ps' ->
  exists2 r, isState ps' r & reads (run t (OSet [::] v :: os)) [::] r.
Proof.
move=> hc hp hv hn ps'; rewrite -cat1s run_cat.
have [t' [e1 st sh]] := setStateE hp hv.
have -> : run t [:: OSet [::] v] = t' by rewrite /run /= /setAt /= e1.
have [o1 o3 [ps0 e0 o2]] := settled_own st.
have hp' : proper (shapeOf t') by rewrite sh.
have hc' : exists d c m, t' = Single d c m.
  by case: hc sh => d [c [m ->]]; case: (t') => // d' c' m' _; exists d', c', m'.
have hw : aloneInv v t'.
  by split=> // ps1 h1; right; move: e0; rewrite h1 => -[->].
move=> {o1 o2 o3 e0 e1 st}.
have {hw} : aloneInv v (run t' os).
  rewrite /run; elim: os t' hn hp' hc' hw {sh} => //= o os IH t' /andP[ho hn] hp' hc' hw.
  apply: IH => //; first exact: proper_step.
    have := kind_step t' o; case: hc' => d [c [m ->]]; case: (step _ _) => // d' c' m' _; by exists d', c', m'.
  exact: alone_step.
have {hp'} := proper_run os hp'.
move: (run t' os) => {ps hv} t1 hp1 hw hps'.
exists (stateOf ps'); first by apply: isStateE; apply: parts_ne hps'.
by apply/readsE; exists t1 => //; apply: alone_read hw hps'.
Qed.

(** Without an input of its own, a composite system of single systems follows
    them: after any history of assignments to the single systems, dimension
    changes and reads, in any order, it gives the state that the latest inputs of
    the single systems stand for; if one was never given an input, reading
    raises. *)
Lemma singles_notRoot t os : (exists m l, t = Comp m l) -> onlySingles t os -> neverWhole os.
Proof.
move=> [m [l ->]]; elim: os => //= o os IH h; rewrite IH ?andbT; last by move=> p v hv; apply: (h p v); right.
case: o h => [[|i p] v||| ] // h.
by have [|d [c [n]]] := h [::] v _; first by left.
Qed.
Lemma follow_run t os : unset t -> proper (shapeOf t) -> flat (shapeOf t) -> onlySingles t os -> followInv (run t os).
Proof.
move=> hu hp hf hs.
have hc : exists m l, t = Comp m l by case: (t) hf => // m l _; exists m, l.
have hn := singles_notRoot hc hs.
have h0 : followInv t.
  move: hu; case: (t) hf => // m l _ /= /andP[hm _].
  by case: m hm => -[] // [] // [] // _; split=> //= ps _; left.
rewrite /run; elim: os t hn hp hf h0 {hu hs hc} => //= o os IH t /andP[ho hn] hp hf h0.
apply: IH => //; [exact: proper_step | exact: flat_step | apply: followInv_step => //].
by case: (o) ho => // -[].
Qed.

Theorem C82_follows t os : unset t -> proper (shapeOf t) -> flat (shapeOf t) -> onlySingles t os ->
  let t1 := run t os in
  (forall ps, parts (shapeOf t1) (inputFor (shapeOf t1) (latest os)) = Some ps ->
     exists2 r, isState ps r & reads t1 [::] r) /\
  (forall i s, shapeAt (shapeOf t1) [:: i] = Some s -> latest os [:: i] = INone C -> exists e, readRaises t1 [::] e).
Proof.
move=> hu hp hf hs t1.
have [f1 f2 f3] : followInv t1 := follow_run hu hp hf hs.
have ag : agree t1 (latest os) := agree_run hu hs.
have hf1 : flat (shapeOf t1) := flat_run os hf.
have hp1 : proper (shapeOf t1) := proper_run os hp.
have hc1 : exists m l, t1 = Comp m l by case: (t1) hf1 => // m l _; exists m, l.
rewrite (agree_flat hf1 ag); split.
  move=> ps hps; exists (stateOf ps); first by apply: isStateE; apply: parts_ne hps.
  apply/readsE; exists t1 => //; rewrite /getState f1.
  have ecr : (create t1 (INone C) (s_max (simOf t1))).1 = Ok (stateOf ps).
    by rewrite create_none //; apply: createE => //; case: hc1 => m [l ->].
  case: ifP => hr; first by case: create ecr => a b /= ->.
  by case: (f2 _ hps) hr => ->.
move=> i s hi ei.
have hn : has (@isNone C) (inputs t1).
  case: hc1 ag hi hf1 => m [l ->]; rewrite agree_comp shapeOf_comp => -[_ h] hi hf1.
  move: ei; rewrite -[i]add0n; move: h hi hf1; rewrite /=.
  elim: l i (0%N) => [|c l IH] [|i] k //= [h1 h2] hi /andP[hc hl].
    by rewrite addn0; case: c hc h1 {hi} => //= d c n _ -> ->.
  by rewrite addnS -addSn => e; apply/orP; right; apply: (IH i k.+1).
have [e he] : exists e, (create t1 (ISeq (inputs t1)) (s_max (simOf t1))).1 = Err e by apply: create_missing.
exists e; apply/readRaisesE; exists t1 => //; rewrite /getState f1 (f3 hn).
by rewrite -create_none // in he; case: create he => a b /= ->.
Qed.

(** Nested systems: the same whenever the stored state of the whole system has
    been deleted. *)
Theorem C82_nested t os (b : seq nat -> bool) : unset t -> (exists m l, t = Comp m l) -> proper (shapeOf t) -> onlySingles t os -> b [::] ->
  let t1 := run t (rcons os (OClear C b)) in
  forall ps, parts (shapeOf t1) (inputFor (shapeOf t1) (latest os)) = Some ps ->
  exists2 r, isState ps r & reads t1 [::] r.
Proof.
move=> hu hc hp hs hb; rewrite -cats1 run_cat /= shape_clear.
have ag : agree (run t os) (latest os) := agree_run hu hs.
have hp1 := proper_run os hp.
have hc1 : exists m l, run t os = Comp m l by apply: comp_kind hc; rewrite kind_run.
move: (run t os) ag hp1 hc1 => {hu hc hp hs} t1 ag hp hc ps hps.
exists (stateOf ps); first by apply: isStateE; apply: parts_ne hps.
apply/readsE; exists (clear b t1) => //.
have ag' := agree_clear b ag.
have hc' : exists m l, clear b t1 = Comp m l by apply: comp_kind hc; rewrite shape_clear.
apply: getState_cleared.
- by rewrite clear_root hb.
- by case: hc' ag' => m [l ->]; rewrite agree_comp => -[].
- by apply: create_agree ag' _ hc'; rewrite shape_clear.
Qed.

(** Without that, they do not follow: once the state of a system has been read,
    assignments to systems two or more levels below it do not change what it
    gives. *)
Lemma superPos_normalised n e b (M : mat C) : superPos n e b = Ok M -> normalised n M.
Proof.
rewrite /superPos; case es : (match e with EDict d => _ | _ => _ end) => [d|] //= {es}.
case em : mapr => [bs|] //= h.
have ne : d <> [::] by move=> ed; move: em h; rewrite ed /= => -[<-].
have hk : keysBelow n d.
  apply/negP => /negP /allPn[i hi /negP/negP]; rewrite -leqNgt => hn.
  have := @mapr_err _ _ (basis C n) Py.ValueError [seq q.1 | q <- d]; rewrite em => H.
  have // : Ok bs = Err Py.ValueError.
  apply: H => [x _|]; last by exists i => //; rewrite basis_out.
  by case: (ltnP x n) => hx; [left; exists (unit_vec C n x); rewrite basisE | right; rewrite basis_out].
have [S [eS [kS _]]] := super_sum ne hk.
rewrite em /= in eS; have {h} h : normalise (PMat S) = Ok M by move: h; rewrite eS.
have nz : norm2 n S <> 0.
  move=> e0; have z i : (i < n)%N -> amp S i = 0.
    move=> hi; move/eqP: e0; rewrite /norm2 psumr_eq0 => [/allP/(_ (Ordinal hi))|j _]; last by rewrite exprn_ge0.
    by rewrite mem_index_enum => /(_ isT); rewrite /= expf_eq0 /= normr_eq0 => /eqP.
  move: h; rewrite /normalise; case: (kS) => rS cS; rewrite rS cS.
  case: eqP => [n1|n1] /=; last by rewrite (normKet kS) /= e0 sqrtC0 eqxx.
  by rewrite trace_sq ?rS ?cS // n1 big_ord1 -[ent S _ _]/(amp S 0) z ?n1 // eqxx.
have [a [ea [_ [na _]]]] := normalise_ket kS nz.
by move: h; rewrite ea => -[<-]; split=> //; case: kS => rS cS; split.
Qed.
Lemma kron_normalised m n (A B : mat C) : normalised m A -> normalised n B -> normalised (m * n)%N (kron A B).
Proof.
move=> [kA nA] [kB nB]; split; first by case: (kron_ket kA kB).
by rewrite (norm2_kron kA kB) nA nB mulr1.
Qed.
Lemma arrays_true (P : mat C -> Prop) v : (forall M, P M) -> arrays P v.
Proof.
move=> hP; move: v; fix IH 1; case=> //=.
by elim=> // w l IHl; split.
Qed.
Lemma good_rows t : good (fun n (M : mat C) => rows M = n) t.
Proof.
elim/sys_nested: t => [d c m|m l IH]; apply/goodE; split=> //; split=> //; exact: arrays_true.
Qed.
Lemma superPos_rows n e b (M : mat C) : superPos n e b = Ok M -> rows M = n.
Proof. by move/superPos_normalised => [[]]. Qed.
Lemma kron_rows m n (A B : mat C) : rows A = m -> rows B = n -> rows (kron A B) = (m * n)%N.
Proof. by move=> <- <-. Qed.
Lemma create_rows t v mx M : (create t v mx).1 = Ok (Some M) -> rows M = dimension t.
Proof.
apply: (@create_quality C (fun n M => rows M = n)) => //.
- exact: superPos_rows.
- exact: kron_rows.
- exact: good_rows.
- exact: arrays_true.
Qed.

Lemma read_rows t M : (getState t).1 = Ok (Some M) -> rows M = dimension t.
Proof.
rewrite /getState; case: ifP => hr; last first.
  by move=> [e]; move: hr; rewrite e => /negbFE/eqP.
by case ec : create => [[s|e] u] //= [es]; rewrite es in ec; apply: (create_rows (v := s_inp (simOf t)) (mx := s_max (simOf t))); rewrite ec.
Qed.

Lemma rows_read t : forall M, (getState t).1 = Ok (Some M) -> s_val (simOf (getState t).2) = Some M.
Proof.
move=> M; rewrite /getState; case: ifP => hr /=; last by move=> [].
case ec : create => [[s|e] u] //= [->].
by have := congr1 (@simOf C) (congr1 snd ec); case: (u).
Qed.

Theorem C82_deepStale t p v M : reads t [::] (Some M) -> (1 < size p)%N ->
  reads (run t [:: OGet C [::]; OSet p v]) [::] (Some M).
Proof.
case: p => [|i [|j p]] // h _; have {h} [u [<-] h] := iffLR (readsE _ _ _) h.
rewrite /run /=; have := rows_read h; have := read_rows h; rewrite -(dimension_shape (shape_getState t)).
move: (getState t).2 => {t h} t hr hv.
have H : reads t [::] (Some M) by apply/readsE; exists t => //; rewrite /getState hv hr eqxx.
rewrite /setAt; case e : callAt => [rt|] //=.
have sh := shape_callAt (fun u => shape_setState u v) e.
apply/readsE; exists rt.2 => //; rewrite /getState (dimension_shape sh).
suff -> : simOf rt.2 = simOf t by rewrite hv hr eqxx.
move: e; rewrite -[callAt _ _ _ _]/(callAt (fun s => setState s v) (putVal None) t (i :: j :: p)).
rewrite [callAt _ _ _ _]/=; case: (t) => // m l; case: (ohead _) => // c; case: (if c is Comp _ _ then _ else _) => // rc [<-] //.
Qed.

(** In every situation a state that is read has as many rows as the system has
    levels; after any history, it is a normalised ket if the arrays that were
    assigned are. *)
Lemma sub_shapeAt t p u : subAt t p = Some u -> shapeAt (shapeOf t) p = Some (shapeOf u).
Proof.
elim: p t => [|i q IH] t /=; first by move=> [<-].
case: t => [d c m|m l] //=.
elim: l i => [|a l IHl] [|i] //=; first exact: IH.
exact: IHl.
Qed.

Theorem C82_shape t p M : reads t p (Some M) ->
  exists2 s, shapeAt (shapeOf t) p = Some s & rows M = sizeOf s.
Proof.
move/readsE => [u /sub_shapeAt eu /read_rows h].
by exists (shapeOf u) => //; rewrite h dimensionE.
Qed.

Theorem C82_normalised t os p M : unset t -> ketsIn os -> reads (run t os) p (Some M) ->
  exists2 s, shapeAt (shapeOf (run t os)) p = Some s & normalised (sizeOf s) M.
Proof.
move=> hu hk h.
have Qr n (N : mat C) : normalised n N -> rows N = n by move=> [[]].
have [|u eu hM] := @reads_quality C (@normalised C) superPos_normalised kron_normalised (run t os) p M _ h.
  apply: (@good_run C (@normalised C) Qr superPos_normalised kron_normalised).
    exact: good_unset.
  exact: hk.
by exists (shapeOf u); [apply: sub_shapeAt | rewrite -dimensionE].
Qed.

(** The initial state of a protocol is made by the same rules, without storing
    the input; the number of levels of a single system has to be at least two. *)
Theorem C82_protocol t v ps : proper (shapeOf t) -> parts (shapeOf t) v = Some ps -> all isSome ps ->
  (if t is Single d _ _ then (1 < d)%N else true) ->
  exists2 M, (protocolState t v).1 = Ok (Some M) & isState ps (Some M).
Proof.
move=> hp hv ha hd.
have [x gx] := parts_getMax hp hv.
have hi := isStateE (parts_ne hp hv).
have [M eM] : exists M, stateOf ps = Some M by rewrite /stateOf ha; eexists.
exists M; last by rewrite -eM.
rewrite /protocolState gx -eM; case: t hp hv hd => [d c m|m l] hp hv hd; last by apply: createE.
have := createE (t := Single d c m) (mx := Some x) hp hv; rewrite /maxFits gx => /(_ (conj erefl erefl)).
rewrite eM; case: v hv gx hi => [|n|l|dd|N|] //= hv gx hi; by rewrite hd; case: ifP.
Qed.

(** ** What does not hold *)
Definition none : sim C := Sim None (INone C) None.
Definition fresh d : sys C := Single d true none.

Lemma partsInt d k : (k < d)%N -> parts (SSingle d true) (IInt C k) = Some [:: Some (unit_vec C d k)].
Proof. by move=> h; rewrite /= h superPos_int basisE. Qed.
Lemma isState1 (M : mat C) r : isState [:: Some M] r -> r = Some M.
Proof. by rewrite /isState -[all _ _]/true => -[N ->]; rewrite tensorProd_mats // /= kronm1 => -[->]. Qed.
Lemma unit_neq : unit_vec C 2 0%N <> unit_vec C 2 1%N.
Proof.
move=> /(congr1 (fun M => ent M 0 0)); rewrite !ent_unit //= => /eqP.
by rewrite oner_eq0.
Qed.

(** The state of a composite system is not always the product of the states of
    its sub-systems: an input given to the whole system hides later ones. *)
Theorem C82_product_refuted : ~ (forall t os M Ms, unset t -> proper (shapeOf t) -> flat (shapeOf t) ->
  reads (run t os) [::] (Some M) ->
  (forall i s, shapeAt (shapeOf (run t os)) [:: i] = Some s -> reads (run t os) [:: i] (Some (nth (zerom C 0 0) Ms i))) ->
  Ms <> [::] -> tensorProd [seq TMat N | N <- Ms] = Ok M).
Proof.
pose t := Comp none [:: fresh 2].
pose o1 := OSet [::] (ISeq [:: IInt C 0]); pose o2 := OSet [:: 0%N] (IInt C 1).
move=> /(_ t [:: o1; o2] (unit_vec C 2 0%N) [:: unit_vec C 2 1%N]).
have pt : proper (shapeOf t) by [].
have e1 : parts (shapeOf t) (ISeq [:: IInt C 0]) = Some [:: Some (unit_vec C 2 0%N)].
  by rewrite /= superPos_int basisE.
have sh os : all (fun o : op C => if o is OSet _ _ then true else false) os -> shapeOf (run t os) = shapeOf t.
  rewrite /run; elim: os t {pt e1} => //= o os IH u /andP[ho ha]; rewrite IH //; case: o ho => // p w _.
  rewrite /= /setAt; case e : callAt => [rt|] //=; apply: (shape_callAt _ e) => x; exact: shape_setState.
have hc : exists m l, t = Comp m l by exists none, [:: fresh 2].
have e1' : parts (shapeOf (run t [:: o1; o2])) (ISeq [:: IInt C 0]) = Some [:: Some (unit_vec C 2 0%N)] by rewrite sh.
have [r /isState1 -> h1] := C82_whole hc pt e1 (os := [:: o2]) isT e1'.
move=> /(_ isT pt isT h1); rewrite tensorProd_mats // [tens _]/= kronm1 => h2.
apply: unit_neq; suff hs : forall i s, shapeAt (shapeOf (run t [:: o1; o2])) [:: i] = Some s ->
   reads (run t [:: o1; o2]) [:: i] (Some (nth (zerom C 0 0) [:: unit_vec C 2 1%N] i)) by apply/esym; apply: (@Ok_inj _ _ _ (h2 hs _)).
move=> i s; rewrite sh //; case: i => [|[]] // _.
have [||t' [e _ hr _]] := @C82_assign (run t [:: o1]) [:: 0%N] (SSingle 2 true) (IInt C 1) _ _ _ (partsInt (d := 2%N) (k := 1%N) isT).
- by rewrite sh.
- by rewrite sh.
have [pw [r' [e4 e2' e3']]] := hr [::] (IInt C 1) (SSingle 2 true) erefl erefl.
rewrite (partsInt (d := 2%N) (k := 1%N) isT) in e4; case: e4 e2' => <- /isState1 er; rewrite er in e3'.
have -> : run t [:: o1; o2] = t'; last by [].
by rewrite -[[:: o1; o2]]/([:: o1] ++ [:: o2]) run_cat -[LHS]/(after (run t [:: o1]) (setAt (run t [:: o1]) [:: 0%N] (IInt C 1))) e.
Qed.

(** A nested system does not always follow its single systems. *)
Theorem C82_nestedFollows_refuted : ~ (forall t os, unset t -> (exists m l, t = Comp m l) -> proper (shapeOf t) ->
  onlySingles t os -> forall ps, parts (shapeOf (run t os)) (inputFor (shapeOf (run t os)) (latest os)) = Some ps ->
  exists2 r, isState ps r & reads (run t os) [::] r).
Proof.
pose t := Comp none [:: Comp none [:: fresh 2]].
pose o1 := OSet [:: 0; 0]%N (IInt C 0); pose o2 := OSet [:: 0; 0]%N (IInt C 1).
have hc : exists m l, t = Comp m l by exists none, [:: Comp none [:: fresh 2]].
have sub : subAt t [:: 0; 0]%N = Some (fresh 2) by [].
have sh os : all (fun o : op C => if o is ODim _ _ _ then false else true) os -> shapeOf (run t os) = shapeOf t.
  rewrite /run; elim: os t {hc sub} => //= o os IH u /andP[ho ha]; rewrite IH //; case: o ho => // [p w|p|b] _.
  - rewrite /= /setAt; case e : callAt => [rt|] //=; apply: (shape_callAt _ e) => x; exact: shape_setState.
  - rewrite /= /getAt; case e : callAt => [rt|] //=; apply: (shape_callAt _ e) => x; exact: shape_getState.
  - by rewrite /= shape_clear.
have e k : (k < 2)%N -> parts (shapeOf t) (ISeq [:: ISeq [:: IInt C k]]) = Some [:: Some (unit_vec C 2 k)].
  by move=> hk; rewrite /= hk superPos_int basisE.
move=> /(_ t [:: o1; OClear C xpredT; OGet C [::]; o2] isT hc isT).
have [||r /isState1 -> h1] := @C82_nested t [:: o1] xpredT isT hc isT _ isT [:: Some (unit_vec C 2 0%N)].
- by move=> p w /= [[<- _]|//]; exists 2%N, true, none.
- by rewrite sh // -(e 0%N).
have h2 := C82_deepStale (p := [:: 0; 0]%N) (IInt C 1) h1 isT.
move=> /(_ _ [:: Some (unit_vec C 2 1%N)]) [].
- by move=> p w /=; (do 5?case) => // -[<- _]; exists 2%N, true, none.
- by rewrite sh // -(e 1%N).
move=> r' /isState1 -> h3; apply: unit_neq.
move: h2 h3; rewrite -run_cat => -[t1 h2] [t2 h3]; move: h3; rewrite -[[:: o1; _; _; _]]/(rcons [:: o1] (OClear C xpredT) ++ [:: OGet C [::]; OSet [:: 0; 0]%N (IInt C 1)]).
by rewrite h2 => /(congr1 (fun x => if x is Some (Ok (Some M), _) then M else unit_vec C 2 0%N)).
Qed.

(** Reading a composite system can change what a sub-system gives later. *)
Theorem C82_level_refuted : ~ (forall t p v os s ps, proper (shapeOf t) ->
  all (fun o => if o is OSet _ _ then false else true) os ->
  shapeAt (shapeOf (run t (OSet p v :: os))) p = Some s -> parts s v = Some ps ->
  exists2 r, isState ps r & reads (run t (OSet p v :: os)) p r).
Proof.
pose t := run (Comp none [:: fresh 2]) [:: OSet [::] (ISeq [:: IInt C 1])].
move=> /(_ t [:: 0%N] (IInt C 0) [:: OGet C [::]; ODim C [:: 0%N] 1 false] (SSingle 1 true) [:: Some (unit_vec C 1 0%N)]).
have et : t = Comp (Sim (Some (unit_vec C 2 1%N)) (ISeq [:: IInt C 1]) (Some 1%N)) [:: Single 2 true (Sim (Some (unit_vec C 2 1%N)) (IInt C 1) (Some 1%N))].
  by rewrite /t /run /= /setAt /= /simSet /= superPos_int basisE //= superPos_int basisE //= /tensorAll /= kronm1.
have er : run t [:: OSet [:: 0%N] (IInt C 0); OGet C [::]; ODim C [:: 0%N] 1 false] =
  Comp (Sim None (ISeq [:: IInt C 1]) (Some 1%N)) [:: Single 1 true (Sim None (IInt C 0) (Some 1%N))].
  rewrite et /run /= /setAt /= /simSet /= superPos_int basisE //= /getAt /= /getState /=.
  by rewrite superPos_int basisE //= /tensorAll /= kronm1.
rewrite er => -[].
- by rewrite et.
- by [].
- by [].
- exact: partsInt.
move=> r /isState1 -> [t' h]; move: h; rewrite /getAt /= /getState /=; by case.
Qed.

(** An assignment that raises is not without effect. *)
Theorem C82_atomic_refuted : ~ (forall t p v e t' q r, proper (shapeOf t) ->
  setAt t p v = Some (Err e, t') -> reads t q r -> reads t' q r).
Proof.
pose t := run (Comp none [:: fresh 2; fresh 2]) [:: OSet [:: 0%N] (IInt C 0)].
have et : t = Comp none [:: Single 2 true (Sim (Some (unit_vec C 2 0%N)) (IInt C 0) (Some 0%N)); fresh 2].
  by rewrite /t /run /= /setAt /= /simSet /= superPos_int basisE.
have es : setAt t [::] (ISeq [:: IInt C 1; IOther C]) = Some (Err Py.TypeError,
    Comp none [:: Single 2 true (Sim (Some (unit_vec C 2 1%N)) (IInt C 1) (Some 1%N)); fresh 2]).
  by rewrite et /setAt /= /simSet /= superPos_int basisE.
move=> /(_ t [::] _ _ _ [:: 0%N] (Some (unit_vec C 2 0%N)) _ es) [].
- by rewrite et.
- by rewrite et; eexists; rewrite /getAt /= /getState /=.
move=> t' h; apply: unit_neq; move: h; rewrite /getAt /= /getState /=.
by move=> /(congr1 (fun x => if x is Some (Ok (Some M), _) then M else unit_vec C 2 0%N)).
Qed.

(** A protocol does not accept the only level of a one-dimensional system. *)
Theorem C82_protocolLevel_refuted : ~ (forall t v ps, proper (shapeOf t) -> parts (shapeOf t) v = Some ps ->
  all isSome ps -> exists2 M, (protocolState t v).1 = Ok (Some M) & isState ps (Some M)).
Proof. by move=> /(_ (fresh 1) (IInt C 0) _ isT (partsInt (d := 1%N) (k := 0%N) isT) isT) [M]. Qed.

(** ** Cases that meet the hypotheses *)
(** A nested system with a nested input. *)
Example C82_ex : let t := Comp none [:: fresh 2; Comp none [:: fresh 3; fresh 2]] in
  let v := ISeq [:: IInt C 1; ISeq [:: IInt C 2; IInt C 0]] in
  [/\ unset t, proper (shapeOf t), parts (shapeOf t) v = Some [:: Some (unit_vec C 2 1%N); Some (unit_vec C 3 2%N); Some (unit_vec C 2 0%N)]
    & forall os, neverWhole os -> all (fun o => if o is ODim _ _ _ then false else true) os ->
      exists2 M, reads (run t (OSet [::] v :: os)) [::] (Some M) & normalised 12 M].
Proof.
move=> t v.
have e : parts (shapeOf t) v = Some [:: Some (unit_vec C 2 1%N); Some (unit_vec C 3 2%N); Some (unit_vec C 2 0%N)].
  by rewrite /= !superPos_int !basisE.
split=> // os hn hd.
have sh : shapeOf (run t (OSet [::] v :: os)) = shapeOf t.
  have : all (fun o : op C => if o is ODim _ _ _ then false else true) (OSet [::] v :: os) by [].
  rewrite /run; elim: (_ :: _) (t) => //= o k IH u /andP[ho ha]; rewrite IH //; case: o ho => // [p w|p|b] _.
  - rewrite /= /setAt; case e1 : callAt => [rt|] //=; apply: (shape_callAt _ e1) => x; exact: shape_setState.
  - rewrite /= /getAt; case e1 : callAt => [rt|] //=; apply: (shape_callAt _ e1) => x; exact: shape_getState.
  - by rewrite /= shape_clear.
have hc : exists m l, t = Comp m l by eexists; eexists.
have e1 := e; rewrite -{1}sh in e1; have [r] := C82_whole hc isT e hn e1.
rewrite /isState -[all _ _]/true => -[M -> eM] hr; exists M => //.
move: eM; rewrite tensorProd_mats // => /(@Ok_inj _ _ _) <- /=.
have nu d k : (k < d)%N -> normalised d (unit_vec C d k).
  move=> hk; apply: (@superPos_normalised d (@EInt C k) false).
  by rewrite superPos_int basisE.
by rewrite kronm1; apply: (kron_normalised (m := 2%N) (n := 6%N)); [|apply: (kron_normalised (m := 3%N) (n := 2%N))]; apply: nu.
Qed.

(** A composite system that follows its two single systems, the second of which
    is assigned twice. *)
Example C82_ex_follows : let t := Comp none [:: fresh 2; fresh 3] in
  let os := [:: OSet [:: 1%N] (IInt C 0); OSet [:: 0%N] (IInt C 1); OGet C [::]; ODim C [:: 1%N] 4 false; OSet [:: 1%N] (IInt C 3)] in
  [/\ unset t, proper (shapeOf t), flat (shapeOf t), onlySingles t os
    & parts (shapeOf (run t os)) (inputFor (shapeOf (run t os)) (latest os)) = Some [:: Some (unit_vec C 2 1%N); Some (unit_vec C 4 3%N)]].
Proof.
move=> t os; split=> //.
  move=> p w /=; (do 6?case) => // -[<- _]; by [exists 2%N, true, none | exists 3%N, true, none].
have -> : shapeOf (run t os) = SComp [:: SSingle 2 true; SSingle 4 true].
  rewrite /run /= /setAt /= /simSet /= superPos_int basisE //= /tensorAll /=.
  rewrite superPos_int basisE //= /getAt /= /getState /= !superPos_int !basisE //=.
  by rewrite shape_simSet.
by rewrite /= !superPos_int !basisE.
Qed.

End Init.

Print Assumptions C82_assign.
Print Assumptions C82_whole.
Print Assumptions C82_alone.
Print Assumptions C82_follows.
Print Assumptions C82_nested.
Print Assumptions C82_deepStale.
Print Assumptions C82_shape.
Print Assumptions C82_normalised.
Print Assumptions C82_protocol.
Print Assumptions C82_product_refuted.
Print Assumptions C82_nestedFollows_refuted.
Print Assumptions C82_level_refuted.
Print Assumptions C82_atomic_refuted.
Print Assumptions C82_protocolLevel_refuted.
Print Assumptions C82_ex.
Print Assumptions C82_ex_follows.
