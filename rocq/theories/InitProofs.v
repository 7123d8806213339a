(** Proofs about initial states of nested systems. *)
From mathcomp Require Import all_ssreflect all_algebra.
From Verif Require Py.
From Verif Require Import MatModel OperModel StateModel MatSpec StateSpec MatLib MatProofs StateProofs InitModel InitSpec.
Set Implicit Arguments.
Unset Strict Implicit.
Unset Printing Implicit Defensive.
Import GRing.Theory Num.Theory.
Local Open Scope ring_scope.

Section Init.
Variable C : numClosedFieldType.
Implicit Types (t : sys C) (v w : inp C) (l : seq (sys C)) (p q : seq nat) (ps : seq (option (mat C))) (r : option (mat C)).

(** ** Induction and the loops as functions of their own *)
Section Ind.
Variable P : sys C -> Prop.
Hypothesis hS : forall d c m, P (Single d c m).
Hypothesis hC : forall m l, (forall t, List.In t l -> P t) -> P (Comp m l).
Fixpoint sys_nested t : P t :=
  match t with
  | Single d c m => hS d c m
  | Comp m l =>
      hC m ((fix go (l : seq (sys C)) : forall t, List.In t l -> P t :=
        match l return forall t, List.In t l -> P t with
        | [::] => fun t h => match h with end
        | c :: l' => fun t h => match h with
                                | or_introl e => match e in _ = t return P t with erefl => sys_nested c end
                                | or_intror h => go l' t h
                                end
        end) l)
  end.
End Ind.

Section ShapeInd.
Variable P : shape -> Prop.
Hypothesis hS : forall d c, P (SSingle d c).
Hypothesis hC : forall l : seq shape, (forall t : shape, List.In t l -> P t) -> P (SComp l).
Fixpoint shape_nested (t : shape) : P t :=
  match t with
  | SSingle d c => hS d c
  | SComp l =>
      hC ((fix go (l : seq shape) : forall t : shape, List.In t l -> P t :=
        match l return forall t : shape, List.In t l -> P t with
        | [::] => fun (t : shape) h => match h with end
        | c :: l' => fun (t : shape) h => match h with
                                | or_introl e => match e in _ = t return P t with erefl => shape_nested c end
                                | or_intror h => go l' t h
                                end
        end) l)
  end.
End ShapeInd.

Definition eachCreate v := fix each (l : seq (sys C)) (i : nat) : result (seq (option (mat C))) * seq (sys C) :=
  match l with
  | [::] => (Ok [::], [::])
  | c :: l' =>
      match item v i with
      | Err e => (Err e, l)
      | Ok w =>
        match getMax w with
        | Err e => (Err e, l)
        | Ok x =>
          let rc := create c w (Some x) in
          let c' := withSim rc.2 (putMax x) in
          match rc.1 with
          | Err e => (Err e, c' :: l')
          | Ok s => let rr := each l' i.+1 in (do ss <- rr.1; Ok (s :: ss), c' :: rr.2)
          end
        end
      end
  end.

Definition isArr v : bool := if v is IArr _ then true else false.
Definition isNone v : bool := if v is INone then true else false.

Definition childInputs l v : inp C := if v is INone then ISeq [seq s_inp (simOf c) | c <- l] else v.

Lemma create_comp m l v mx : ~~ isArr v -> create (Comp m l) v mx =
  let w := childInputs l (if v is INone then s_inp m else v) in
  let rl := eachCreate w l 0 in (do ss <- rl.1; tensorAll ss, Comp m rl.2).
Proof. by case: v. Qed.

Definition eachSet := fix each (l : seq (sys C)) (vs : seq (inp C)) : result unit * seq (sys C) :=
  match l, vs with
  | c :: l', w :: vs' =>
      let rc := setState c w in
      match rc.1 with
      | Err e => (Err e, rc.2 :: l')
      | Ok _ => let rr := each l' vs' in (rr.1, rc.2 :: rr.2)
      end
  | _, _ => (Ok tt, l)
  end.

Lemma setState_comp m l vs : setState (Comp m l) (ISeq vs) =
  if size vs != size l then (Err Py.ValueError, Comp m l)
  else let rl := eachSet l vs in
       let t' := Comp (if l is [::] then m else putVal None m) rl.2 in
       match rl.1 with Err e => (Err e, t') | Ok _ => simSet t' (ISeq vs) end.
Proof. by []. Qed.

Definition eachPart := fix each (l : seq shape) (vs : seq (inp C)) : option (seq (option (mat C))) :=
  match l, vs with
  | s :: l', w :: vs' =>
      if parts s w is Some a then (if each l' vs' is Some b then Some (a ++ b) else None) else None
  | _, _ => Some [::]
  end.

Lemma parts_comp (ss : seq shape) v : ~~ isArr v -> parts (SComp ss) v =
  if v is ISeq vs then (if size vs == size ss then eachPart ss vs else None) else None.
Proof. by case: v. Qed.

(** ** Levels *)
Lemma allIntsE (vs : seq (inp C)) : allInts vs = all (fun w => if w is IInt _ then true else false) vs.
Proof. by apply: eq_all => -[]. Qed.
Lemma pmap_int (vs : seq (inp C)) : pmap (@asInt C) vs = pmap (fun w => if w is IInt n then Some n else None) vs.
Proof. by apply: eq_pmap => -[]. Qed.

Lemma max_lt (ks : seq nat) d : (0 < d)%N -> (foldr maxn 0 ks < d)%N = all (fun k => k < d)%N ks.
Proof. by move=> d0; elim: ks => //= k ks IH; rewrite gtn_max IH. Qed.

Lemma levels_spec v ks : levels v = Some ks ->
  [/\ ks <> [::], getMax v = Ok (foldr maxn 0%N ks), toExcit v = excitOf v, ~~ isArr v & ~~ isNone v].
Proof.
case: v => //= [n [<-]|vs|d]; first by rewrite /= maxn0.
  rewrite -allIntsE -pmap_int; case: ifP => // _.
  by case: (pmap _ vs) => // k l [<-].
by case: d => //= q d [<-].
Qed.

(** ** The state of given parts *)
Definition stateOf (ps : seq (option (mat C))) : option (mat C) :=
  if all isSome ps then Some (tens (pmap id ps)) else None.

Lemma targ_id (Ms : seq (mat C)) : [seq targMat x | x <- [seq TMat N | N <- Ms]] = Ms.
Proof. by elim: Ms => //= M Ms ->. Qed.

Lemma tensorProd_mats (Ms : seq (mat C)) : Ms <> [::] -> tensorProd [seq TMat N | N <- Ms] = Ok (tens Ms).
Proof. by move=> h; rewrite tensorProdE ?targ_id //; case: Ms h. Qed.

Lemma pmap_ne (ps : seq (option (mat C))) : ps <> [::] -> all isSome ps -> pmap id ps <> [::].
Proof. by case: ps => // -[a|] ps. Qed.

Lemma isStateE ps : ps <> [::] -> isState ps (stateOf ps).
Proof.
rewrite /isState /stateOf => h; case a : (all isSome ps) => //.
by exists (tens (pmap id ps)) => //; apply: tensorProd_mats; apply: pmap_ne.
Qed.

Lemma isState_inj ps r r' : isState ps r -> isState ps r' -> r = r'.
Proof.
by rewrite /isState; case: ifP => _ => [[M -> e] [M' ->]|-> ->//]; rewrite e => -[<-].
Qed.

Lemma tens_flatten (Mss : seq (seq (mat C))) : tens (flatten Mss) = tens (map (@tens C) Mss).
Proof. by elim: Mss => //= Ms Mss IH; rewrite tens_cat IH. Qed.

Lemma stateOf_all (pss : seq (seq (option (mat C)))) : all isSome (map stateOf pss) = all isSome (flatten pss).
Proof. by elim: pss => //= ps pss ->; rewrite all_cat /stateOf; case: ifP. Qed.

Lemma tensorAllE (pss : seq (seq (option (mat C)))) : pss <> [::] -> 
  tensorAll (map stateOf pss) = Ok (stateOf (flatten pss)).
Proof.
move=> ne; rewrite /tensorAll stateOf_all {2}/stateOf; case: ifP => // a.
have e : pmap id (map stateOf pss) = map (@tens C) (map (pmap id) pss).
  elim: pss a {ne} => //= ps pss IH; rewrite all_cat => /andP[a b]; rewrite /stateOf a /=.
  by rewrite -/stateOf IH.
rewrite e tensorProd_mats /=; last by case: (pss) ne.
congr (Ok (Some _)); rewrite -tens_flatten; congr tens.
by elim: (pss) => //= ps l ->; rewrite pmap_cat.
Qed.

(** ** What create leaves unchanged *)
Fixpoint noMax t : sys C :=
  match t with
  | Single d c m => Single d c (Sim (s_val m) (s_inp m) None)
  | Comp m l => Comp (Sim (s_val m) (s_inp m) None) (map noMax l)
  end.

Lemma noMax_putMax t x : noMax (withSim t (putMax x)) = noMax t.
Proof. by case: t. Qed.

Lemma noMax_comp m l : noMax (Comp m l) = Comp (Sim (s_val m) (s_inp m) None) (map noMax l).
Proof. by []. Qed.

Lemma create_noMax t v mx : noMax (create t v mx).2 = noMax t.
Proof.
elim/sys_nested: t v mx => [d c m|m l IH] v mx.
  case: v => [|n|vs|dd|M|] /=; try (by case: mx); by case e : (s_inp m); case: mx; rewrite /= ?e.
case ea : (isArr v); first by case: v ea.
rewrite create_comp ?ea //; set w := childInputs _ _.
rewrite -[(let w := _ in _).2]/(Comp m (eachCreate w l 0).2) !noMax_comp; congr (Comp _ _).
clearbody w; elim: l IH (0%N) w => //= c l IHl IH i w.
case: (item w i) => // a; case: (getMax a) => // x.
have e := IH c (or_introl erefl) a (Some x).
have {}IHl := IHl (fun t h => IH t (or_intror h)) i.+1 w.
by case: (create c a (Some x)) e => -[s|ex] c1 /= e; rewrite noMax_putMax e // IHl.
Qed.

Lemma shape_noMax t : shapeOf (noMax t) = shapeOf t.
Proof.
elim/sys_nested: t => //= m l IH; congr SComp.
elim: l IH => //= c l IHl IH; rewrite IH ?IHl //; last by left.
by move=> t h; apply: IH; right.
Qed.
Lemma simOf_noMax t : simOf (noMax t) = Sim (s_val (simOf t)) (s_inp (simOf t)) None.
Proof. by case: t. Qed.

Lemma dimensionE t : dimension t = sizeOf (shapeOf t).
Proof.
elim/sys_nested: t => //= m l IH; rewrite /prodn -map_comp; congr foldr.
elim: l IH => //= c l IHl IH; rewrite IH ?IHl //; last by left.
by move=> t h; apply: IH; right.
Qed.

(** ** create on inputs of the right form *)
Definition maxFits t v (mx : option nat) : Prop := if t is Single _ _ _ then getMax v = Ok (odflt 0%N mx) /\ isSome mx else True.

Lemma parts_ne s v ps : proper s -> parts s v = Some ps -> ps <> [::].
Proof.
elim/shape_nested: s v ps => [d c|ss IH] v ps h.
  case: v => //= [n|vs|dd|M]; last by case: ifP => // _ [<-].
  - by case: ifP => // _; [case: superPos => // M [<-] | move=> [<-]].
  - case: ifP => // _; case: (pmap _ _) => // k l; case: ifP => // _; last by move=> [<-].
    by case: superPos => // M [<-].
  - case: (map _ _) => // k l; case: ifP => // _; last by move=> [<-].
    by case: superPos => // M [<-].
case ea : (isArr v).
  by case: v ea => // M _ /=; case: ifP => // _ [<-].
rewrite parts_comp ?ea //; case: v ea => // vs _; case: ifP => // /eqP sz.
case: ss vs sz h IH => //= s ss [|w vs] //= _ /andP[h _] IH.
case e : (parts s w) => [a|] //; case: (eachPart ss vs) => // b [<-].
by have := IH s (or_introl erefl) w a h e; case: (a).
Qed.

Lemma pmapint_ne (vs : seq (inp C)) : vs <> [::] -> allInts vs -> pmap (@asInt C) vs <> [::].
Proof. by case: vs => // -[]. Qed.

Lemma parts_getMax s v ps : proper s -> parts s v = Some ps -> exists x, getMax v = Ok x.
Proof.
case: v => [|n|vs|d|M|] //=; last first.
- by case: s.
- by move=> _ _; exists (rows M).
- case: s => // n c _ /=; case: d => // q d _; by exists (foldr maxn 0%N [seq p.1 | p <- q :: d]).
- move=> hp e; have ne : vs <> [::].
    by case: s hp e => [n c|ss] /= hp; case: vs => //=; case: ss hp.
  case: ifP => // [a|]; last by exists 1%N.
  by have := pmapint_ne ne a; case: (pmap _ _) => // k l _; exists (foldr maxn 0%N (k :: l)).
- by exists n.
- by case: s.
Qed.

Lemma shapeOf_comp m l : shapeOf (Comp m l) = SComp (map (@shapeOf C) l).
Proof. by []. Qed.

Lemma createE t v mx ps : proper (shapeOf t) -> parts (shapeOf t) v = Some ps -> maxFits t v mx ->
  (create t v mx).1 = Ok (stateOf ps).
Proof.
elim/sys_nested: t v mx ps => [d c m|m l IH] v mx ps hp.
  case ea : (isArr v).
    by case: v ea => // M _ /=; case: ifP => // h [<-] _; rewrite /stateOf /= kronm1.
  move=> e; have {e} : exists2 ks, levels v = Some ks & (if all (fun k => k < d)%N ks then
            (if superPos d (excitOf v) (~~ c) is Ok M then Some [:: Some M] else None) else Some [:: None]) = Some ps.
    by case: v ea e => //= [n|vs|dd] _; [exists [:: n] | case: ifP => // _; case: (pmap _ _) => // k r; exists (k :: r)
      | case: (map _ _) => // k r; exists (k :: r)].
  move=> [ks hl e] [hm hx]; have [ne gm te na nn] := levels_spec hl.
  case: mx hm hx => // x; rewrite gm => hm _; have {hm} <- : foldr maxn 0%N ks = x by case: hm.
  have -> : create (Single d c m) v (Some (foldr maxn 0%N ks))
    = ((if (foldr maxn 0 ks < d)%N then do M <- superPos d (toExcit v) (~~ c); Ok (Some M) else Ok None), Single d c m).
    by case: (v) na nn.
  rewrite /= max_lt // te; case: ifP e => _; last by move=> [<-].
  by case: superPos => // M [<-]; rewrite /stateOf /= kronm1.
case ea : (isArr v).
  case: v ea => // M _; rewrite [create _ _ _]/= -/(dimension (Comp m l)) dimensionE /=.
  by case: ifP => // h [<-] _; rewrite /stateOf /= kronm1.
rewrite shapeOf_comp parts_comp ?ea // create_comp ?ea //; case: v ea => // vs _; case: ifP => // /eqP sz e _.
rewrite [let w := _ in _]/=.
have {sz} sz : size vs = size l by rewrite sz size_map.
have {e} [pss [epss ne ee]] : exists pss, [/\ ps = flatten pss, size pss = size l &
   (eachCreate (ISeq vs) l 0).1 = Ok (map stateOf pss)].
  have hpl : all proper (map (@shapeOf C) l) by move: hp => /= /andP[].
  rewrite -(drop0 vs) in e; move: e.
  have : size vs = (0 + size l)%N by [].
  elim: l IH (0%N) ps hpl {hp sz} => [|c l IHl] IH i ps hpl sz /=; rewrite ?addn0 in sz.
    by move=> [<-]; exists [::].
  have hi : (i < size vs)%N by rewrite sz /= addnS ltnS leq_addr.
  rewrite (drop_nth (INone C)) // hi; move: hpl => /= /andP[hc hpl].
  case e1 : parts => [a|] //; case e2 : eachPart => [b|] // [<-].
  have [x gx] := parts_getMax hc e1; rewrite gx.
  have [|pss [eb sp ep]] := IHl (fun t h => IH t (or_intror h)) i.+1 b hpl _ e2; first by rewrite sz /= addnS.
  rewrite (IH c (or_introl erefl) _ (Some x) a) //; last by case: (c).
  by exists (a :: pss); rewrite /= eb sp ep.
rewrite ee /= tensorAllE ?epss //.
by move: hp => /= /andP[]; rewrite size_map -ne; case: (pss).
Qed.

(** ** Assignment *)
Definition own t v : Prop :=
  [/\ s_inp (simOf t) = v, (exists2 x, getMax v = Ok x & s_max (simOf t) = Some x)
    & exists2 ps, parts (shapeOf t) v = Some ps & s_val (simOf t) = stateOf ps].
Fixpoint settled t v {struct t} : Prop :=
  own t v /\
  match t, v with
  | Comp _ l, ISeq vs =>
      (fix each (l : seq (sys C)) (vs : seq (inp C)) : Prop :=
         match l, vs with c :: l', w :: vs' => settled c w /\ each l' vs' | _, _ => True end) l vs
  | _, _ => True
  end.
Definition eachSettled := fix each (l : seq (sys C)) (vs : seq (inp C)) : Prop :=
  match l, vs with c :: l', w :: vs' => settled c w /\ each l' vs' | _, _ => True end.

Lemma settled_comp m l vs : settled (Comp m l) (ISeq vs) = (own (Comp m l) (ISeq vs) /\ eachSettled l vs).
Proof. by []. Qed.
Lemma settled_own t v : settled t v -> own t v.
Proof. by case: t => /= [???|??] []. Qed.

Lemma putMax_id t x : s_max (simOf t) = Some x -> withSim t (putMax x) = t.
Proof. by case: t => [d c [a b e]|[a b e] l] //= ->. Qed.

Lemma eachCreate_settled l vs i :
  (forall t, List.In t l -> forall v mx, settled t v -> (create t v mx).2 = t) ->
  size vs = (i + size l)%N -> eachSettled l (drop i vs) -> (eachCreate (ISeq vs) l i).2 = l.
Proof.
elim: l i => //= c l IHl i IH sz.
have hi : (i < size vs)%N by rewrite sz /= addnS ltnS leq_addr.
rewrite (drop_nth (INone C)) // hi => -[hc hl].
have := IH c (or_introl erefl) _ _ hc.
have [_ [x gx mx] _] := settled_own hc; rewrite gx => /(_ (Some x)) e.
have {}IHl := IHl i.+1 (fun t h => IH t (or_intror h)) _ hl.
case: (create c _ (Some x)) e => -[s|ex] c1 /= ->; rewrite putMax_id // IHl //.
by rewrite sz addnS.
Qed.

Lemma create_single d c m v mx : (create (Single d c m) v mx).2 = Single d c m.
Proof. by case: v => [|n|vs|dd|M|] /=; try (by case: mx); case: (s_inp m); case: mx. Qed.
Lemma create_arr t M mx : (create t (IArr M) mx).2 = t.
Proof. by case: t. Qed.

Lemma create_settled t v mx : settled t v -> (create t v mx).2 = t.
Proof.
elim/sys_nested: t v mx => [d c m|m l IH] v mx; first by rewrite create_single.
case ea : (isArr v); first by case: v ea => // M _ _; rewrite create_arr.
move=> h; have [_ _ [ps e _]] := settled_own h.
move: e; rewrite shapeOf_comp parts_comp ?ea //; case: v ea h => // vs _ h; case: ifP => // /eqP sz _.
rewrite create_comp // -[(let w := _ in _).2]/(Comp m (eachCreate (ISeq vs) l 0).2).
move: h; rewrite settled_comp => -[_ h].
rewrite eachCreate_settled ?drop0 //; last by rewrite sz size_map.
Qed.

Lemma simSetE t v ps x : proper (shapeOf t) -> parts (shapeOf t) v = Some ps -> getMax v = Ok x ->
  (create (withSim t (fun m => putInp v (putMax x m))) v (Some x)).2 = withSim t (fun m => putInp v (putMax x m)) ->
  simSet t v = (Ok tt, withSim t (fun _ => Sim (stateOf ps) v (Some x))).
Proof.
move=> hp e gx e2; rewrite /simSet gx.
have e1 : (create (withSim t (fun m => putInp v (putMax x m))) v (Some x)).1 = Ok (stateOf ps).
  by apply: createE; case: (t) hp e.
case: (create _ _ _) e1 e2 => a b /= -> ->; by case: (t).
Qed.

Lemma shape_withSim t f : shapeOf (withSim t f) = shapeOf t.
Proof. by case: t. Qed.

Lemma eachSetE l vs ps : (forall t, List.In t l -> forall v ps, proper (shapeOf t) -> parts (shapeOf t) v = Some ps ->
     exists t', [/\ setState t v = (Ok tt, t'), settled t' v & shapeOf t' = shapeOf t]) ->
  all proper (map (@shapeOf C) l) -> size vs = size l -> eachPart (map (@shapeOf C) l) vs = Some ps ->
  exists l', [/\ eachSet l vs = (Ok tt, l'), eachSettled l' vs & map (@shapeOf C) l' = map (@shapeOf C) l].
Proof.
elim: l vs ps => [|c l IHl] [|w vs] ps //= IH; first by exists [::].
move=> /andP[hc hl] [sz]; case e1 : parts => [a|] //; case e2 : eachPart => [b|] // _.
have [c' [es sc shc]] := IH c (or_introl erefl) w a hc e1.
have [l' [el sl shl]] := IHl vs b (fun t h => IH t (or_intror h)) hl sz e2.
by exists (c' :: l'); rewrite es /= el /= shc shl.
Qed.

Lemma setStateE t v ps : proper (shapeOf t) -> parts (shapeOf t) v = Some ps ->
  exists t', [/\ setState t v = (Ok tt, t'), settled t' v & shapeOf t' = shapeOf t].
Proof.
elim/sys_nested: t v ps => [d c m|m l IH] v ps hp e.
  have [x gx] := parts_getMax hp e.
  exists (withSim (Single d c m) (fun _ => Sim (stateOf ps) v (Some x))).
  rewrite shape_withSim; split=> //; first by apply: simSetE => //; rewrite create_single.
  by split=> //; split=> //; [exists x | exists ps].
have [x gx] := parts_getMax hp e.
case ea : (isArr v).
  case: v ea e gx => // M _ e gx.
  exists (withSim (Comp m l) (fun _ => Sim (stateOf ps) (IArr M) (Some x))).
  rewrite shape_withSim; split=> //; first by apply: simSetE => //; rewrite create_arr.
  by split=> //; split=> //; [exists x | exists ps].
have e' := e; move: e'; rewrite shapeOf_comp parts_comp ?ea //; case: v ea e gx => // vs _ e gx; case: ifP => // /eqP sz e'.
rewrite size_map in sz.
have hpl : all proper (map (@shapeOf C) l) by move: hp => /= /andP[].
have [l' [el sl shl]] := eachSetE IH hpl sz e'.
rewrite setState_comp sz eqxx el /=.
set m' := (match l with [::] => _ | _ :: _ => _ end).
have shc : shapeOf (Comp m' l') = shapeOf (Comp m l) by rewrite !shapeOf_comp shl.
have sz' : size vs = size l' by rewrite sz -(size_map (@shapeOf C) l) -shl size_map.
have ec : (create (Comp (putInp (ISeq vs) (putMax x m')) l') (ISeq vs) (Some x)).2
    = Comp (putInp (ISeq vs) (putMax x m')) l'.
  rewrite create_comp // -[(let w := _ in _).2]/(Comp _ (eachCreate (ISeq vs) l' 0).2).
  by rewrite eachCreate_settled ?drop0 // => t _ w mx; apply: create_settled.
exists (Comp (Sim (stateOf ps) (ISeq vs) (Some x)) l'); rewrite settled_comp; split=> //.
  by rewrite (@simSetE (Comp m' l') (ISeq vs) ps x) // shc.
split=> //; split=> //; first by exists x.
by exists ps => //; rewrite -e !shapeOf_comp shl.
Qed.

(** ** Calls on sub-systems *)
Lemma ohead_drop_set (T : Type) (x y : T) (s : seq T) i j : ohead (drop i s) = Some x ->
  ohead (drop j (set_nth x s i y)) = if j == i then Some y else ohead (drop j s).
Proof.
elim: s i j => [|a s IH] [|i] [|j] //= h.
by rewrite eqSS; apply: IH.
Qed.

Section Call.
Variables (R : Type) (f : sys C -> R * sys C) (up : sim C -> sim C).

Lemma callAt_sub t p u : subAt t p = Some u ->
  exists t', callAt f up t p = Some ((f u).1, t') /\ forall q, subAt t' (p ++ q) = subAt (f u).2 q.
Proof.
elim: p t => [|i p IH] t /=; first by move=> [<-]; exists (f t).2; split=> //; case: (f t).
case: t => // m l; case e : (ohead _) => [c|] // /IH[c' [e1 e2]]; rewrite e1.
by eexists; split; first reflexivity; move=> q /=; rewrite (ohead_drop_set _ _ e) eqxx.
Qed.

Lemma callAt_none t p : subAt t p = None -> callAt f up t p = None.
Proof.
elim: p t => [|i p IH] t //=; case: t => // m l; case: (ohead _) => // c /IH -> //.
Qed.

Lemma callAt_other t p q rt : callAt f up t p = Some rt -> ~~ prefix p q -> ~~ prefix q p ->
  subAt rt.2 q = subAt t q.
Proof.
elim: p t q rt => [|i p IH] t [|j q] rt //=.
case: t => // m l; case e : (ohead _) => [c|] //; case e1 : callAt => [rc|] // [<-] /=.
rewrite (ohead_drop_set _ _ e); case: (eqVneq i j) => [<-|_] //=; rewrite ?e ?eqxx //=.
exact: IH e1.
Qed.
End Call.

Lemma getStateE u v : proper (shapeOf u) -> own u v -> exists2 ps, parts (shapeOf u) v = Some ps & 
  (getState u).1 = Ok (stateOf ps).
Proof.
move=> hp [ei [x gx ex] [ps ep ev]]; exists ps => //.
rewrite /getState ev ei ex; case: ifP => // _.
have := @createE u v (Some x) ps hp ep; case: (create _ _ _) => a b /= -> //.
by case: (u).
Qed.

Lemma proper_sub t p u : proper (shapeOf t) -> subAt t p = Some u -> proper (shapeOf u).
Proof.
elim: p t => [|i p IH] t /= hp; first by move=> [<-].
case: t hp => // m l /= /andP[_ hp]; case e : (ohead _) => [c|] // /IH; apply.
by elim: l i e hp => [|a l IHl] [|i] //= => [[->] /andP[]//|e /andP[_]]; apply: IHl e.
Qed.

Lemma settled_sub t v p u w : settled t v -> subAt t p = Some u -> inpAt v p = Some w -> settled u w.
Proof.
elim: p t v => [|i p IH] t v h /=; first by move=> [<-] [<-].
case: t h => // m l; case: v => // vs; rewrite settled_comp => -[_ h].
case e : (ohead _) => [c|] //; case e' : (ohead _) => [a|] //; apply: IH.
by elim: l vs i e e' h => [|b l IHl] [|z vs] [|i] //= => [[->] [->] []//|e e' [_]]; apply: IHl e e'.
Qed.

(** ** Shapes along a history *)
Lemma shape_create t v mx : shapeOf (create t v mx).2 = shapeOf t.
Proof. by rewrite -shape_noMax create_noMax shape_noMax. Qed.

Lemma shape_simSet t v : shapeOf (simSet t v).2 = shapeOf t.
Proof.
rewrite /simSet; case: (getMax v) => // x; set t0 := withSim _ _.
have e : shapeOf (create t0 v (Some x)).2 = shapeOf t by rewrite shape_create /t0 shape_withSim.
by case: (create t0 v (Some x)) e => -[s|ex] b /= e; rewrite ?shape_withSim.
Qed.

Lemma shape_setState t v : shapeOf (setState t v).2 = shapeOf t.
Proof.
elim/sys_nested: t v => [d c m|m l IH] v; first by rewrite /setState shape_simSet.
case: v => // [vs|M]; last by rewrite /setState shape_simSet.
rewrite setState_comp; case: ifP => // _.
have {IH} e : map (@shapeOf C) (eachSet l vs).2 = map (@shapeOf C) l.
  elim: l vs IH => [|c l IHl] [|w vs] //= IH.
  have := IH c (or_introl erefl) w; case: (setState c w) => -[[]|ex] c' /= -> //.
  by rewrite IHl // => t h; apply: IH; right.
have {e} e m' : shapeOf (Comp m' (eachSet l vs).2) = shapeOf (Comp m l) by rewrite !shapeOf_comp e.
by case: (eachSet l vs) e => -[[]|ex] l' e; [rewrite shape_simSet|]; apply: e.
Qed.

Lemma shape_getState t : shapeOf (getState t).2 = shapeOf t.
Proof.
rewrite /getState; case: ifP => // _.
by have := shape_create t (s_inp (simOf t)) (s_max (simOf t)); case: create => -[s|ex] b /= <-; rewrite ?shape_withSim.
Qed.

Lemma set_nth_map (l : seq (sys C)) i c c' : ohead (drop i l) = Some c -> shapeOf c' = shapeOf c ->
  map (@shapeOf C) (set_nth c l i c') = map (@shapeOf C) l.
Proof. by elim: l i => [|a l IH] [|i] //= => [[->] -> //|e es]; rewrite IH. Qed.

Lemma shape_callAt (R : Type) (f : sys C -> R * sys C) up t p rt :
  (forall u, shapeOf (f u).2 = shapeOf u) -> callAt f up t p = Some rt -> shapeOf rt.2 = shapeOf t.
Proof.
move=> hf; elim: p t rt => [|i p IH] t rt /=; first by move=> [<-].
case: t => // m l; case e : (ohead _) => [c|] //; case e1 : callAt => [rc|] // [<-].
by rewrite !shapeOf_comp (set_nth_map e) //; apply: IH e1.
Qed.

Lemma shape_clear b t : shapeOf (clear b t) = shapeOf t.
Proof.
elim/sys_nested: t b => //= m l IH b; congr SComp.
elim: l IH (0%N) => //= c l IHl IH i; rewrite IH; last by left.
by rewrite IHl // => t h; apply: IH; right.
Qed.

(** What a call below the root does to the root. *)
Lemma callAt_root (R : Type) (f : sys C -> R * sys C) up t i p rt : callAt f up t (i :: p) = Some rt ->
  simOf rt.2 = simOf t \/ simOf rt.2 = up (simOf t).
Proof.
case: t => // m l /=; case: (ohead _) => // c; case: callAt => // rc [<-] /=.
by case: p; [right | left].
Qed.

Lemma clear_root b t : simOf (clear b t) = (if b [::] then putVal None (simOf t) else simOf t).
Proof. by case: t. Qed.

Lemma set_nth_id (T : Type) (l : seq T) i c : ohead (drop i l) = Some c -> set_nth c l i c = l.
Proof. by elim: l i => [|a l IH] [|i] //= => [[->] //|e]; rewrite IH. Qed.

Lemma callAt_setDim t p d flag rt : callAt (fun s => setDim s d flag) id t p = Some rt -> rt.1 = Ok true \/ rt.2 = t.
Proof.
elim: p t rt => [|i p IH] t rt /=.
  move=> [<-]; case: t => [d0 c m|m l] /=; last by right.
  by case: ifP => _; [case: eqP => [->|_]; [case: flag; [left|right]|left]|right].
case: t => // m l; case e : (ohead _) => [c|] //; case e1 : callAt => [rc|] // [<-] /=.
case: (IH _ _ e1) => [->|->]; [by left | right].
by rewrite (set_nth_id e); case: (p).
Qed.

Lemma step_dim t p d flag : step t (ODim C p d flag) = t \/
  exists2 rt, callAt (fun s => setDim s d flag) id t p = Some rt & step t (ODim C p d flag) = clear xpredT rt.2.
Proof.
rewrite /= /dimAt; case e : callAt => [[r s]|] /=; last by left.
case: (callAt_setDim e) => [/= ->|/= es]; first by right; exists (Ok true, s).
by case: r e => [[]|ex] e /=; [right; exists (Ok true, s) | left | left].
Qed.

Lemma callAt_sim_id (R : Type) (f : sys C -> R * sys C) t p rt :
  (forall u, simOf (f u).2 = simOf u) -> callAt f id t p = Some rt -> simOf rt.2 = simOf t.
Proof.
move=> hf; case: p => [[<-]//|i p]; by move=> /callAt_root[].
Qed.

Lemma setDim_sim t d flag : simOf (setDim t d flag).2 = simOf t.
Proof. by case: t => //= d0 c m; case: ifP. Qed.

(** ** A system with an input of its own *)
Definition wholeInv v t : Prop :=
  s_inp (simOf t) = v /\
  forall ps, parts (shapeOf t) v = Some ps -> s_val (simOf t) = None \/ s_val (simOf t) = stateOf ps.

Lemma getState_sim t : proper (shapeOf t) ->
  s_inp (simOf (getState t).2) = s_inp (simOf t) /\
  (s_val (simOf (getState t).2) = s_val (simOf t) \/
   exists2 r, (create t (s_inp (simOf t)) (s_max (simOf t))).1 = Ok r & s_val (simOf (getState t).2) = r).
Proof.
move=> hp; rewrite /getState; case: ifP => _; last by split; [|left].
have := create_noMax t (s_inp (simOf t)) (s_max (simOf t)).
case: create => -[s|ex] b /= /(congr1 (@simOf C)); rewrite !simOf_noMax => -[e1 e2].
  by split; [rewrite -e2; case: (b) | right; exists s => //; case: (b)].
by split; [|left].
Qed.

Lemma wholeInv_step v t o : (exists m l, t = Comp m l) -> proper (shapeOf t) -> v <> INone C ->
  (if o is OSet [::] _ then False else True) -> wholeInv v t -> wholeInv v (step t o).
Proof.
move=> [m [l et]] hp nv ho [hi hv]; case: o ho => [p w|p|p d flag|b].
- case: p => // i p _; rewrite /= /setAt; case e : callAt => [rt|] //=.
  have sh := shape_callAt (fun u => shape_setState u w) e.
  by case: (callAt_root e) => es; rewrite /wholeInv es sh; split=> // ps _; left.
- move=> _; case: p => [|i p]; rewrite [step _ _]/= /getAt; last first.
    case e : callAt => [rt|] //=.
    have sh := shape_callAt shape_getState e.
    by case: (callAt_root e) => es; rewrite /wholeInv es sh.
  rewrite /wholeInv shape_getState.
  have [e1 e2] := getState_sim hp; rewrite e1; split=> // ps hps.
  case: e2 => [->|[r e ->]]; first exact: hv.
  right; move: e; rewrite hi (createE hp hps) //; first by case.
  by rewrite et.
- move=> _; have [->|[rt e ->]] := step_dim t p d flag; first by split.
  rewrite /wholeInv clear_root /= (callAt_sim_id _ e); last by move=> u; apply: setDim_sim.
  by split=> // ps _; left.
- move=> _; rewrite /wholeInv [step _ _]/= shape_clear clear_root; case: ifP => _; split=> //= ps _; by left.
Qed.

Lemma proper_callDim t p d flag rt : proper (shapeOf t) -> callAt (fun s => setDim s d flag) id t p = Some rt ->
  proper (shapeOf rt.2).
Proof.
elim: p t rt => [|i p IH] t rt hp /=.
  by move=> [<-]; case: t hp => [d0 c m|m l] //=; case: ifP.
case: t hp => // m l; rewrite shapeOf_comp => /= /andP[h1 h2].
case e : (ohead _) => [c|] //; case e1 : callAt => [rc|] // [<-].
rewrite shapeOf_comp /=; apply/andP; split.
  by move: h1; rewrite !size_map size_set_nth leq_max => ->; rewrite orbT.
have hc : proper (shapeOf c).
  by elim: l i e h2 {h1 e1} => [|a l IHl] [|i] //= => [[->] /andP[]//|e /andP[_]]; apply: IHl e.
have := IH _ _ hc e1; elim: l i e h2 {h1 e1} => [|a l IHl] [|i] //= => [_ /andP[_ ->]->//|e /andP[-> h] h3] /=.
exact: IHl h3.
Qed.

Lemma proper_step t o : proper (shapeOf t) -> proper (shapeOf (step t o)).
Proof.
case: o => [p w|p|p d flag|b] hp.
- rewrite /= /setAt; case e : callAt => [rt|] //=.
  by rewrite (shape_callAt _ e) // => u; apply: shape_setState.
- rewrite /= /getAt; case e : callAt => [rt|] //=.
  by rewrite (shape_callAt _ e) // => u; apply: shape_getState.
- have [->//|[rt e ->]] := step_dim t p d flag.
  by rewrite shape_clear; apply: proper_callDim e.
- by rewrite /= shape_clear.
Qed.

(** ** Flat systems *)
Definition inputs t : seq (inp C) := if t is Comp _ l then [seq s_inp (simOf c) | c <- l] else [::].

Lemma inputs_noMax t : inputs (noMax t) = inputs t.
Proof. by case: t => //= m l; rewrite -map_comp; apply: eq_map => c /=; rewrite simOf_noMax. Qed.

Lemma acceptedE w : accepted w = if getMax w is Ok _ then true else false.
Proof.
case: w => // [vs|d]; last by case: d.
case: vs => // a vs; rewrite /accepted /getMax; case: ifP => // h.
have ne : a :: vs <> [::] by [].
by have := pmapint_ne ne h; rewrite /pymax; case: (pmap _ _).
Qed.

Lemma simSet_inp t w : s_inp (simOf (simSet t w).2) = if accepted w then w else s_inp (simOf t).
Proof.
rewrite acceptedE /simSet; case: (getMax w) => // x; set t0 := withSim _ _.
have := create_noMax t0 w (Some x); case: create => -[s|ex] b /= /(congr1 (@simOf C)); rewrite !simOf_noMax => -[_].
  by case: (b) => [d c m|m l] /= ->; rewrite /t0; case: (t).
by move=> ->; rewrite /t0; case: (t).
Qed.

Lemma flat_child m l i c : flat (shapeOf (Comp m l)) -> ohead (drop i l) = Some c -> exists d k n, c = Single d k n.
Proof.
rewrite /= => h e; elim: l i e h => [|a l IH] [|i] //= => [[->] /andP[]|e /andP[_]]; last exact: IH e.
by case: (c) => // d k n _ _; exists d, k, n.
Qed.

Lemma inputs_set m l i c c' : ohead (drop i l) = Some c ->
  inputs (Comp m (set_nth c l i c')) = set_nth (INone C) (inputs (Comp m l)) i (s_inp (simOf c')).
Proof. by rewrite /=; elim: l i => [|a l IH] [|i] //= e; rewrite IH. Qed.

Lemma set_nth_self (T : Type) (x : T) (s : seq T) i : (i < size s)%N -> set_nth x s i (nth x s i) = s.
Proof. by elim: s i => [|a s IH] [|i] //= h; rewrite IH. Qed.

Lemma ohead_nth (T : Type) (x c : T) (s : seq T) i : ohead (drop i s) = Some c -> nth x s i = c /\ (i < size s)%N.
Proof. by elim: s i => [|a s IH] [|i] //= => [[]//|/IH]. Qed.

Lemma inputs_call (R : Type) (f : sys C -> R * sys C) up t i p rt : flat (shapeOf t) ->
  (forall u, s_inp (simOf (f u).2) = s_inp (simOf u)) -> callAt f up t (i :: p) = Some rt -> inputs rt.2 = inputs t.
Proof.
case: t => // m l hf h /=; case e : (ohead _) => [c|] //; case e1 : callAt => [rc|] // [<-].
have [d [k [n ec]]] := flat_child hf e.
rewrite [(_, _).2]/= (inputs_set _ _ e).
have -> : s_inp (simOf rc.2) = s_inp (simOf c).
  by case: p e1 => [[<-]|j p]; rewrite ?h // ec.
have [e2 e3] := ohead_nth (Single 0 true n) e.
have <- : nth (INone C) (inputs (Comp m l)) i = s_inp (simOf c) by rewrite /= (nth_map (Single 0 true n)) // e2.
by rewrite set_nth_self //= size_map.
Qed.

Lemma flat_callAt_deep (R : Type) (f : sys C -> R * sys C) up t i j p : flat (shapeOf t) -> callAt f up t (i :: j :: p) = None.
Proof.
case: t => // m l hf /=; case e : (ohead _) => [c|] //.
by have [d [k [n ->]]] := flat_child hf e.
Qed.

Lemma inputs_clear b t : inputs (clear b t) = inputs t.
Proof.
case: t => //= m l; elim: l (0%N) => //= c l IH i; rewrite IH; congr (_ :: _).
by rewrite clear_root; case: ifP.
Qed.

Definition wrote (o : op C) (ins : seq (inp C)) : seq (inp C) :=
  if o is OSet [:: j] w then (if accepted w && (j < size ins)%N then set_nth (INone C) ins j w else ins) else ins.

Lemma getState_inp t : s_inp (simOf (getState t).2) = s_inp (simOf t).
Proof.
rewrite /getState; case: ifP => // _.
have := create_noMax t (s_inp (simOf t)) (s_max (simOf t)).
by case: create => -[s|ex] b /= /(congr1 (@simOf C)); rewrite !simOf_noMax => -[_ <-]; case: (b).
Qed.

Lemma inputs_getState t : inputs (getState t).2 = inputs t.
Proof.
rewrite /getState; case: ifP => // _.
have := create_noMax t (s_inp (simOf t)) (s_max (simOf t)).
by case: create => -[s|ex] b /= /(congr1 inputs); rewrite !inputs_noMax => <-; case: (b).
Qed.

Lemma inputs_step t o : flat (shapeOf t) -> (if o is OSet [::] _ then False else True) ->
  inputs (step t o) = wrote o (inputs t).
Proof.
move=> hf ho; case: o ho => [p w|p|p d flag|b] ho.
- rewrite /= /setAt; case: p ho => // i [|j p] _; last by rewrite flat_callAt_deep.
  case: t hf => // m l hf; rewrite [callAt _ _ _ _]/=.
  case e : (ohead _) => [c|]; last first.
    rewrite /= size_map; suff -> : (i < size l)%N = false by rewrite andbF.
    by elim: (l) (i) e => [|a k IH] [|n] //=; apply: IH.
  have [d [k [n ec]]] := flat_child hf e.
  rewrite [after _ _]/= (inputs_set _ _ e) ec /= simSet_inp.
  have [e2 e3] := ohead_nth (Single 0 true n) e.
  rewrite size_map e3 andbT; case: ifP => // _.
  have <- : nth (INone C) (inputs (Comp m l)) i = s_inp n by rewrite /= (nth_map (Single 0 true n)) // e2 ec.
  by rewrite set_nth_self //= size_map.
- rewrite /= /getAt; case: p ho => [|i p] _; first by rewrite /= inputs_getState.
  by case e : callAt => [rt|] //=; apply: inputs_call hf _ e; apply: getState_inp.
- have [-> //|[rt e ->]] := step_dim t p d flag; rewrite inputs_clear /=.
  case: p e {ho} => [[<-]|i p e]; first by case: t hf.
  by apply: inputs_call hf _ e => u; rewrite setDim_sim.
- by rewrite /= inputs_clear.
Qed.

Lemma flat_step t o : flat (shapeOf t) -> flat (shapeOf (step t o)).
Proof.
case: o => [p w|p|p d flag|b] hp.
- rewrite /= /setAt; case e : callAt => [rt|] //=.
  by rewrite (shape_callAt _ e) // => u; apply: shape_setState.
- rewrite /= /getAt; case e : callAt => [rt|] //=.
  by rewrite (shape_callAt _ e) // => u; apply: shape_getState.
- have [->//|[rt e ->]] := step_dim t p d flag.
  rewrite shape_clear; case: p e => [[<-]|i [|j p]]; first by case: t hp.
    case: t hp => // m l hp; rewrite [callAt _ _ _ _]/=; case e : (ohead _) => [c|] // [<-].
    have [d0 [k [n ec]]] := flat_child hp e.
    have [k' [d' [n' ec']]] : exists d' k' n', (setDim c d flag).2 = Single d' k' n'.
      by rewrite ec /=; case: ifP => _; do 3 eexists.
    move: hp; rewrite [(_, _).2]/= ec' /=.
    by elim: l i e => [|a l IHl] [|i] //= => [_ /andP[_ ->]//|e /andP[-> h]]; apply: IHl.
  by rewrite flat_callAt_deep.
- by rewrite /= shape_clear.
Qed.

Definition followInv t : Prop :=
  [/\ s_inp (simOf t) = INone C,
      forall ps, parts (shapeOf t) (ISeq (inputs t)) = Some ps -> s_val (simOf t) = None \/ s_val (simOf t) = stateOf ps
    & has isNone (inputs t) -> s_val (simOf t) = None].

Lemma create_none t mx : (exists m l, t = Comp m l) -> s_inp (simOf t) = INone C ->
  create t (INone C) mx = create t (ISeq (inputs t)) mx.
Proof. by move=> [m [l ->]] h; rewrite !create_comp // -[simOf _]/m in h *; rewrite h. Qed.

Lemma eachCreate_missing vs l i : all (fun t => if t is Single _ _ _ then true else false) l ->
  drop i vs = [seq s_inp (simOf t) | t <- l] -> has isNone (drop i vs) ->
  exists e, (eachCreate (ISeq vs) l i).1 = Err e.
Proof.
elim: l i => [|c l IH] i hs e; first by rewrite e.
have hi : (i < size vs)%N.
  by rewrite ltnNge; apply/negP => h; move: e; rewrite drop_oversize.
move: e hs; rewrite (drop_nth (INone C)) //= hi => -[e1 e2] /andP[hc hl] /orP[hn|hn].
  case: c e1 hc => // d k m e1 _; rewrite e1 /= in hn *.
  have -> : s_inp m = INone C by case: (s_inp m) hn.
  by exists Py.ValueError.
case: (getMax _) => [x|ex]; last by exists ex.
case: (create _ _ _) => -[s|ex] c' /=; last by exists ex.
by have [ex ->] := IH i.+1 hl e2 hn; exists ex.
Qed.

Lemma create_missing t mx : flat (shapeOf t) -> has isNone (inputs t) -> 
  exists e, (create t (ISeq (inputs t)) mx).1 = Err e.
Proof.
case: t => // m l hf h; rewrite create_comp //.
have [|||e ee] := @eachCreate_missing (inputs (Comp m l)) l 0; rewrite ?drop0 //.
  by move: hf; rewrite /= all_map; apply: sub_all => -[].
by move: ee; rewrite [let w := _ in _]/= => -> ; exists e.
Qed.

Lemma inputs_size t o : flat (shapeOf t) -> (if o is OSet [::] _ then False else True) ->
  size (inputs (step t o)) = size (inputs t).
Proof.
move=> hf ho; rewrite inputs_step // /wrote; case: o ho => // -[|j [|//]] // w _.
by case: ifP => // /andP[_ h]; rewrite size_set_nth; apply/maxn_idPr.
Qed.

Lemma followInv_step t o : flat (shapeOf t) -> proper (shapeOf t) ->
  (if o is OSet [::] _ then False else True) -> followInv t -> followInv (step t o).
Proof.
move=> hf hp ho [h1 h2 h3].
have [m [l et]] : exists m l, t = Comp m l by case: (t) hf => // m l _; exists m, l.
have hs := inputs_step hf ho.
case: o ho hs => [p w|p|p d flag|b] ho hs.
- case: p ho hs => // i p _ hs; move: hs; rewrite /= /setAt.
  case: p => [|j p]; last by rewrite flat_callAt_deep.
  case e : callAt => [rt|] //= _.
  have es : simOf rt.2 = putVal None (simOf t).
    by move: e; rewrite et /=; case: (ohead _) => // c [<-].
  by rewrite /followInv es /=; split=> // ps _; left.
- case: p ho hs => [|i p] _; rewrite [step _ _]/= /getAt; last first.
    case e : callAt => [rt|] //= hs.
    have sh := shape_callAt shape_getState e.
    by case: (callAt_root e) => es; rewrite /followInv es sh hs.
  move=> hs; rewrite /followInv shape_getState hs [wrote _ _]/=.
  have [e1 e2] := getState_sim hp; rewrite e1 {e1}; split=> // [ps hps|hn].
    case: e2 => [->|[r e ->]]; first exact: h2.
    right; move: e; rewrite h1 create_none //; last by exists m, l.
    by rewrite (createE hp hps); [case | rewrite et].
  case: e2 => [->|[r e _]]; first exact: h3.
  move: e; rewrite h1 create_none //; last by exists m, l.
  by have [ex ->] := create_missing (s_max (simOf t)) hf hn.
- have [-> //|[rt e es]] := step_dim t p d flag.
  have e0 : simOf (step t (ODim C p d flag)) = putVal None (simOf t).
    by rewrite es clear_root /= (callAt_sim_id _ e) // => u; apply: setDim_sim.
  by rewrite /followInv e0; split=> // ps _; left.
- rewrite /followInv hs [wrote _ _]/= [step _ _]/= shape_clear clear_root.
  by case: ifP => _; split=> //= ps _; left.
Qed.

(** ** Properties kept by every state *)
Section Quality.
Variable Q : nat -> mat C -> Prop.
Hypothesis Qrows : forall n M, Q n M -> rows M = n.
Hypothesis Qsuper : forall n e b M, superPos n e b = Ok M -> Q n M.
Hypothesis Qkron : forall m n A B, Q m A -> Q n B -> Q (m * n)%N (kron A B).

Let arr v : Prop := arrays (fun M => Q (rows M) M) v.

Fixpoint good t : Prop :=
  let own := (forall M, s_val (simOf t) = Some M -> Q (rows M) M) /\ arr (s_inp (simOf t)) in
  match t with
  | Single _ _ _ => own
  | Comp _ l => own /\ (fix each (l : seq (sys C)) : Prop := if l is c :: l' then good c /\ each l' else True) l
  end.
Definition goodOwn (m : sim C) : Prop := (forall M, s_val m = Some M -> Q (rows M) M) /\ arr (s_inp m).

Lemma goodE t : good t <-> goodOwn (simOf t) /\ (if t is Comp _ l then forall c, List.In c l -> good c else True).
Proof.
case: t => [d c m|m l] /=; first by split => [|[]].
suff -> : (fix each (l : seq (sys C)) : Prop := if l is c :: l' then good c /\ each l' else True) l
   <-> (forall c, List.In c l -> good c) by [].
elim: l => //= c l IH; split.
  by move=> [hc /IH h] a [<-|] //; apply: h.
by move=> h; split; [apply: h; left | apply/IH => a ha; apply: h; right].
Qed.

Lemma arr_seq vs : arr (ISeq vs) <-> forall w, List.In w vs -> arr w.
Proof.
rewrite /arr /=; elim: vs => //= c l IH; split.
  by move=> [hc /IH h] a [<-|] //; apply: h.
by move=> h; split; [apply: h; left | apply/IH => a ha; apply: h; right].
Qed.

Lemma good_noMax t : good (noMax t) <-> good t.
Proof.
elim/sys_nested: t => [d c m|m l IH]; first by [].
rewrite noMax_comp !goodE /=; have <- : goodOwn m <-> goodOwn (Sim (s_val m) (s_inp m) None) by [].
suff -> : (forall c, List.In c [seq noMax i | i <- l] -> good c) <-> (forall c, List.In c l -> good c) by [].
split=> h c hc; first by apply/IH => //; apply: h; apply: List.in_map.
by move/List.in_map_iff: hc => [a [<- ha]]; apply/IH => //; apply: h.
Qed.

Lemma good_create t v mx : good t -> good (create t v mx).2.
Proof. by move=> h; rewrite -good_noMax create_noMax good_noMax. Qed.

Fixpoint quality (l : seq (sys C)) (ss : seq (option (mat C))) : Prop :=
  match l, ss with
  | c :: l', s :: ss' => (if s is Some M then Q (dimension c) M else True) /\ quality l' ss'
  | [::], [::] => True
  | _, _ => False
  end.

Lemma quality_tens l ss : ss <> [::] -> all isSome ss -> quality l ss ->
  Q (foldr muln 1%N (map (@dimension C) l)) (tens (pmap id ss)).
Proof.
elim: l ss => [|c l IH] [|[M|] ss] //= _ ha [h1 h2].
case: ss ha h2 => [|s ss] ha h2; first by case: l h2 {IH} => //= _; rewrite kronm1 muln1.
by apply: Qkron => //; apply: IH.
Qed.

Lemma arr_item w i a : arr w -> item w i = Ok a -> arr a.
Proof.
case: w => // vs /arr_seq h /=; case: ifP => // hi [<-]; apply: h.
by elim: vs i hi => //= b vs IH [|i] hi; [left | right; apply: IH].
Qed.

Lemma create_quality t v mx M : good t -> arr v -> (create t v mx).1 = Ok (Some M) -> Q (dimension t) M.
Proof.
elim/sys_nested: t v mx M => [d c m|m l IH] v mx M hg hv.
  have hs x e b : (do M <- superPos d e b; Ok (Some M)) = Ok (Some x) -> Q d x.
    by case es : superPos => [y|] //= -[<-]; apply: Qsuper es.
  have hw w : (create (Single d c m) w mx).1 = Ok (Some M) -> isArr w \/ Q d M.
    case: w => [|n|vs|dd|N|] /=; try (by left); try (case: (s_inp m) => [|n|vs|dd|N|]); case: mx => // x;
      by case: ifP => // _ /hs; right.
  move=> h; case: (hw v h) => // ea; case: v ea hv h => // N _ hN /=.
  by case: eqP => // <- [<-].
case ea : (isArr v).
  by case: v ea hv => // N _ hN; rewrite [create _ _ _]/=; case: eqP => // e [<-]; rewrite (_ : dimension (Comp m l) = rows N) //; exact: esym e.
move/goodE: (hg) => [[_ hi] hk].
rewrite create_comp ?ea //; set w := childInputs _ _.
have hw : arr w.
  have hks : arr (ISeq [seq s_inp (simOf c) | c <- l]).
    by apply/arr_seq => x /List.in_map_iff[c [<- hc]]; have /goodE[[]] := hk c hc.
  rewrite /w /childInputs; case: (v) hv => //; case: (s_inp m) hi => //.
rewrite -[(let w := _ in _).1]/(do ss <- (eachCreate w l 0).1; tensorAll ss).
case er : (eachCreate w l 0).1 => [ss|] //=.
have {er} hq : quality l ss.
  clearbody w; move: er; elim: l (0%N) ss IH hk {hg ea hv hi} => [|c l IHl] i ss IH hk /=; first by move=> [<-].
  case ei : item => [a|] //; case: (getMax a) => // x.
  have := IH c (or_introl erefl) a (Some x).
  case: create => -[s|] c' //= hc.
  case er : (eachCreate w l i.+1).1 => [ss'|] //= [<-]; split.
    by case: s hc => // N; apply=> //; [apply: hk; left | apply: arr_item hw ei].
  by apply: IHl er => [t ht|t ht]; [apply: IH; right | apply: hk; right].
rewrite /tensorAll; case: ifP => // ha.
case et : tensorProd => [N|] //= [<-].
have ne : ss <> [::] by move=> e; rewrite e in et.
move: et; rewrite tensorProd_mats; last exact: pmap_ne.
by move=> [<-]; apply: quality_tens.
Qed.

Lemma good_withSim t f : (goodOwn (simOf t) -> goodOwn (f (simOf t))) -> good t -> good (withSim t f).
Proof. by move=> h; rewrite !goodE; case: t h => [d c m|m l] /= h [h1 h2]; split=> //; apply: h. Qed.

Lemma good_store t t0 v mx s : dimension t = dimension t0 -> good t -> good t0 -> arr v ->
  (create t0 v mx).1 = Ok s -> good (withSim t (putVal s)).
Proof.
move=> ed ht h0 hv e; apply: good_withSim ht => -[_ hi]; split=> //= M es; rewrite es in e.
have hq := create_quality h0 hv e; by rewrite (Qrows hq).
Qed.

Lemma dimension_shape t t0 : shapeOf t = shapeOf t0 -> dimension t = dimension t0.
Proof. by rewrite !dimensionE => ->. Qed.

Lemma good_simSet t v : good t -> arr v -> good (simSet t v).2.
Proof.
move=> ht hv; rewrite /simSet; case: (getMax v) => // x; set t0 := withSim _ _.
have h0 : good t0 by apply: good_withSim ht => -[h1 _]; split.
have h1 := good_create v (Some x) h0; have sh := shape_create t0 v (Some x).
have hs := @good_store (create t0 v (Some x)).2 t0 v (Some x).
by case: create h1 sh hs => -[s|ex] b //= h1 sh hs; apply: hs => //; apply: dimension_shape.
Qed.

Lemma good_getState t : good t -> good (getState t).2.
Proof.
move=> ht; rewrite /getState; case: ifP => // _.
set v := s_inp _; set mx := s_max _.
have hv : arr v by case/goodE: ht => -[].
have h1 := good_create v mx ht; have sh := shape_create t v mx.
have hs := @good_store (create t v mx).2 t v mx.
by case: create h1 sh hs => -[s|ex] b //= h1 sh hs; apply: hs => //; apply: dimension_shape.
Qed.

Lemma good_setState t v : good t -> arr v -> good (setState t v).2.
Proof.
elim/sys_nested: t v => [d c m|m l IH] v ht hv; first by apply: good_simSet.
case: v hv => // [vs|M] hv; last by apply: good_simSet.
rewrite setState_comp; case: ifP => // _.
case/goodE: ht => ho hk.
have {IH hk} hl : forall c, List.In c (eachSet l vs).2 -> good c.
  move/arr_seq: hv; elim: l vs IH hk {ho} => [|c l IHl] [|w vs] //= IH hk hv.
  have hc : good (setState c w).2 by apply: IH; [left | apply: hk; left | apply: hv; left].
  have {}IHl := IHl vs (fun t h => IH t (or_intror h)) (fun t h => hk t (or_intror h)) (fun w h => hv w (or_intror h)).
  case: (setState c w) hc => -[[]|ex] c' /= hc a [<-|ha] //; first exact: IHl.
  by apply: hk; right.
set m' := (match l with [::] => _ | _ :: _ => _ end).
have hg : good (Comp m' (eachSet l vs).2).
  by apply/goodE; split=> //=; rewrite /m'; case: (l) => //=; case: ho.
by case: (eachSet l vs) hg => -[[]|ex] l' /= hg //; apply: good_simSet.
Qed.

Lemma good_callAt (R : Type) (f : sys C -> R * sys C) up t p rt : (forall u, good u -> good (f u).2) ->
  (forall m, goodOwn m -> goodOwn (up m)) -> good t -> callAt f up t p = Some rt -> good rt.2.
Proof.
move=> hf hu; elim: p t rt => [|i p IH] t rt ht /=; first by move=> [<-]; apply: hf.
case: t ht => // m l /goodE[ho hk]; case e : (ohead _) => [c|] //; case e1 : callAt => [rc|] // [<-].
have hin : List.In c l by elim: (l) (i) e => [|a k IHl] [|n] //= => [[->]|/IHl]; [left | right].
have hc := IH _ _ (hk c hin) e1.
apply/goodE; split; first by case: (p) => /=; [apply: hu|].
move=> /= a; elim: l i e hk {hin e1 ho} => [|b l IHl] [|i] //= e hk.
  by case=> [<-|ha] //; apply: hk; right.
by case=> [<-|]; [apply: hk; left | apply: IHl => // x hx; apply: hk; right].
Qed.

Lemma good_clear b t : good t -> good (clear b t).
Proof.
elim/sys_nested: t b => [d c m|m l IH] b /goodE[ho hk]; apply/goodE.
  by split=> //=; case: ifP => // _; case: ho.
split; first by rewrite clear_root; case: ifP => // _; case: ho.
rewrite /=; elim: l (0%N) IH hk {ho} => //= c l IHl i IH hk a [<-|].
  by apply: IH; [left | apply: hk; left].
by apply: IHl => [t ht|t ht]; [apply: IH; right | apply: hk; right].
Qed.

Lemma good_step t o : good t -> (if o is OSet _ v then arr v else True) -> good (step t o).
Proof.
move=> ht; case: o => [p w|p|p d flag|b] hv.
- rewrite /= /setAt; case e : callAt => [rt|] //=.
  by apply: good_callAt ht e => [u hu|m [_ hm]]; [apply: good_setState | split].
- rewrite /= /getAt; case e : callAt => [rt|] //=.
  by apply: good_callAt ht e => // u; apply: good_getState.
- have [-> //|[rt e ->]] := step_dim t p d flag; apply: good_clear.
  apply: good_callAt ht e => // u; rewrite !goodE => -[h1 h2].
  by rewrite setDim_sim; split=> //; case: u h1 h2 => [d0 c m|m l] //= _ _; case: ifP.
- exact: good_clear.
Qed.

Lemma good_run t os : good t -> (forall o, List.In o os -> if o is OSet _ v then arr v else True) -> good (run t os).
Proof.
rewrite /run; elim: os t => //= o os IH t ht h; apply: IH => [|a ha]; last by apply: h; right.
by apply: good_step => //; apply: h; left.
Qed.

Lemma good_unset t : unset t -> good t.
Proof.
elim/sys_nested: t => [d c m|m l IH]; first by case: m => -[] // [].
rewrite [unset _]/= => /andP[hm hl]; apply/goodE; split; first by case: m hm => -[] // [].
elim: l IH hl => //= c l IHl IH /andP[hc hl] a [<-|]; first by apply: IH => //; left.
by apply: IHl => // t ht; apply: IH; right.
Qed.

Lemma reads_quality t p M : good t -> reads t p (Some M) ->
  exists2 u, subAt t p = Some u & Q (dimension u) M.
Proof.
move=> ht [t' e]; case es : (subAt t p) => [u|]; last by move: e; rewrite /getAt callAt_none.
exists u => //.
have hu : good u.
  elim: p t ht es {e} => [|i p IH] t ht /=; first by move=> [<-].
  case: t ht => // m l /goodE[_ hk]; case e : (ohead _) => [c|] //; apply: IH; apply: hk.
  by elim: (l) (i) e => [|a k IHl] [|n] //= => [[->]|/IHl]; [left | right].
have [t2 [e2 _]] := callAt_sub (@getState C) id es.
move: e; rewrite /getAt e2 => -[e _]; move: e.
rewrite /getState; case: ifP => [_|/negbT h].
  have := @create_quality u (s_inp (simOf u)) (s_max (simOf u)) M hu.
  have hv : arr (s_inp (simOf u)) by case/goodE: hu => -[].
  by case: create => -[s|ex] b //= h [e]; apply: h => //; rewrite e.
move=> [e]; rewrite e negbK in h; case/goodE: hu => -[hs _] _.
by move/eqP: h => <-; apply: hs.
Qed.


End Quality.

(** ** Nested systems whose single systems alone are given inputs *)
Fixpoint agree t (f : seq nat -> inp C) {struct t} : Prop :=
  match t with
  | Single _ _ m => s_inp m = f [::]
  | Comp m l =>
      s_inp m = INone C /\
      (fix each (l : seq (sys C)) (i : nat) : Prop :=
         match l with [::] => True | c :: l' => agree c (fun p => f (i :: p)) /\ each l' i.+1 end) l 0%N
  end.
Definition eachAgree (f : seq nat -> inp C) := fix each (l : seq (sys C)) (i : nat) : Prop :=
  match l with [::] => True | c :: l' => agree c (fun p => f (i :: p)) /\ each l' i.+1 end.
Lemma agree_comp m l f : agree (Comp m l) f = (s_inp m = INone C /\ eachAgree f l 0).
Proof. by []. Qed.

Lemma agree_ext t f g : f =1 g -> agree t f -> agree t g.
Proof.
elim/sys_nested: t f g => [d c m|m l IH] f g e; first by rewrite /= e.
rewrite !agree_comp => -[-> h]; split=> //; elim: l (0%N) IH h => //= c l IHl i IH [h1 h2]; split.
  by apply: IH h1; [left | move=> p; apply: e].
by apply: IHl h2 => t ht; apply: IH; right.
Qed.

Lemma agree_noMax t f : agree (noMax t) f <-> agree t f.
Proof.
elim/sys_nested: t f => [d c m|m l IH] f; first by [].
rewrite noMax_comp !agree_comp /=.
suff -> : eachAgree f [seq noMax i | i <- l] 0 <-> eachAgree f l 0 by [].
elim: l (0%N) IH => //= c l IHl i IH; rewrite IH ?IHl //; last by left.
by move=> t ht; apply: IH; right.
Qed.

Lemma agree_withSim t g f : s_inp (g (simOf t)) = s_inp (simOf t) -> agree t f -> agree (withSim t g) f.
Proof. by case: t => [d c m|m l] /= ->. Qed.

Lemma agree_getState t f : agree t f -> agree (getState t).2 f.
Proof.
move=> h; rewrite /getState; case: ifP => // _.
have := create_noMax t (s_inp (simOf t)) (s_max (simOf t)).
case: create => -[s|ex] b /= e; last by rewrite -agree_noMax e agree_noMax.
by apply: agree_withSim => //; rewrite -agree_noMax e agree_noMax.
Qed.

Lemma agree_clear b t f : agree t f -> agree (clear b t) f.
Proof.
elim/sys_nested: t b f => [d c m|m l IH] b f; first by rewrite /=; case: ifP.
rewrite agree_comp => -[e h] /=; split; first by case: ifP.
elim: l (0%N) IH h => //= c l IHl i IH [h1 h2]; split; first by apply: IH => //; left.
by apply: IHl => // t ht; apply: IH; right.
Qed.

Lemma agree_setDim t d flag f : agree t f -> agree (setDim t d flag).2 f.
Proof. by case: t => //= d0 c m h; case: ifP. Qed.

Lemma eachAgree_set g (f f' : seq nat -> inp C) l i j c c' : 
  (forall k p, (k == i + j)%N = false -> f (k :: p) = f' (k :: p)) ->
  ohead (drop j l) = Some c -> (agree c (fun p => f ((i + j)%N :: p)) -> agree c' (fun p => f' ((i + j)%N :: p))) ->
  eachAgree f l i -> eachAgree f' (set_nth g l j c') i.
Proof.
elim: l i j => [|a l IH] i [|j] //= hf.
  move=> [->]; rewrite addn0 in hf * => h [h1 h2]; split; first exact: h.
  have H : forall k, (i < k)%N -> eachAgree f l k -> eachAgree f' l k; last exact: H h2.
  elim: (l) => // b l' IHl k hk [g1 g2]; split; last by apply: IHl g2; apply: leqW.
  by apply: agree_ext g1 => q; apply: hf; apply: gtn_eqF.
have ij : (i + j.+1 = i.+1 + j)%N by rewrite addnS.
rewrite ij in hf * => e h [h1 h2]; split; last by apply: IH h2.
by apply: agree_ext h1 => p; apply: hf; apply/ltn_eqF; rewrite addSn ltnS leq_addr.
Qed.

Lemma agree_callAt (R : Type) (fn : sys C -> R * sys C) up t p rt f : (forall m, s_inp (up m) = s_inp m) ->
  (forall u g, agree u g -> agree (fn u).2 g) -> agree t f -> callAt fn up t p = Some rt -> agree rt.2 f.
Proof.
move=> hu hf; elim: p t rt f => [|i p IH] t rt f h /=; first by move=> [<-]; apply: hf.
case: t h => // m l; rewrite agree_comp => -[e h]; case eo : (ohead _) => [c|] //; case e1 : callAt => [rc|] // [<-].
rewrite agree_comp; split; first by case: (p); rewrite ?hu.
by apply: (eachAgree_set c _ eo) h => // h; apply: IH h e1.
Qed.

Lemma agree_set t p w rt f : (forall m l, subAt t p <> Some (Comp m l)) -> agree t f ->
  setAt t p w = Some rt -> agree rt.2 (fun q => if (p == q) && accepted w then w else f q).
Proof.
rewrite /setAt; elim: p t rt f => [|i p IH] t rt f hs h.
  move=> [<-]; case: t hs h => [d c m|m l] hs h; last by case: (hs m l).
  have := simSet_inp (Single d c m) w; rewrite [setState _ _]/=.
  have := shape_simSet (Single d c m) w; case: (simSet _ _) => r [d' c' m'|m' l'] //= _ ->.
  by case: ifP.
case: t hs h => // m l hs; rewrite agree_comp [callAt _ _ _ _]/= => -[e h].
case eo : (ohead _) => [c|] //; case e1 : callAt => [rc|] // [<-].
rewrite [(_, _).2]/= agree_comp; split; first by case: (p).
apply: (eachAgree_set c _ eo) h => [k q hk|h]; first by rewrite eqseq_cons eq_sym hk.
have := IH c rc _ _ h e1; rewrite add0n => hh.
apply: agree_ext (hh _) => [q|m' l' es]; first by rewrite eqseq_cons eqxx.
by apply: (hs m' l'); rewrite /= eo.
Qed.

(** Kinds of systems never change. *)
Fixpoint kind (s : shape) : shape := match s with SSingle _ _ => SSingle 0 true | SComp l => SComp (map kind l) end.

Lemma subAt_single t t' p : kind (shapeOf t) = kind (shapeOf t') -> (exists d c m, subAt t p = Some (Single d c m)) ->
  exists d c m, subAt t' p = Some (Single d c m).
Proof.
elim: p t t' => [|i p IH] t t' e /=.
  by move=> [d [c [m [et]]]]; case: t' e => [d' c' m'|m' l']; rewrite et // => _; exists d', c', m'.
case: t e => [d c m|m l]; first by move=> _ [? [? []]].
case: t' => [d c m'|m' l'] // [e] h.
elim: l l' i e h => [|a l IHl] [|a' l'] [|i] //=; try by move=> ? [? [? []]].
  by move=> [e _] h; apply: IH h.
by move=> [_ e] h; apply: IHl h.
Qed.

Lemma kind_callDim t p d flag rt : callAt (fun s => setDim s d flag) id t p = Some rt ->
  kind (shapeOf rt.2) = kind (shapeOf t).
Proof.
elim: p t rt => [|i p IH] t rt /=.
  by move=> [<-]; case: t => [d0 c m|m l] //=; case: ifP.
case: t => // m l; case e : (ohead _) => [c|] //; case e1 : callAt => [rc|] // [<-].
rewrite !shapeOf_comp /=; congr SComp; have := IH _ _ e1.
by elim: l i e {e1} => [|a l IHl] [|i] //= => [[->] ->//|e h]; rewrite IHl.
Qed.

Lemma kind_step t o : kind (shapeOf (step t o)) = kind (shapeOf t).
Proof.
case: o => [p w|p|p d flag|b].
- rewrite /= /setAt; case e : callAt => [rt|] //=.
  by rewrite (shape_callAt _ e) // => u; apply: shape_setState.
- rewrite /= /getAt; case e : callAt => [rt|] //=.
  by rewrite (shape_callAt _ e) // => u; apply: shape_getState.
- have [->//|[rt e ->]] := step_dim t p d flag.
  by rewrite shape_clear; apply: kind_callDim e.
- by rewrite /= shape_clear.
Qed.

Lemma agree_step t o f : (if o is OSet p _ then exists d c m, subAt t p = Some (Single d c m) else True) -> agree t f ->
  agree (step t o) (fun q => if o is OSet p w then (if (p == q) && accepted w then w else f q) else f q).
Proof.
case: o => [p w|p|p d flag|b] hs h.
- rewrite [step _ _]/=; case e : setAt => [rt|]; first by apply: agree_set h e => m l; case: hs => d [c [n ->]].
  case: hs => d [c [m es]]; move: e; rewrite /setAt.
  by have [t' [-> _]] := callAt_sub (fun s => setState s w) (putVal None) es.
- rewrite [step _ _]/= /getAt; case e : callAt => [rt|] //=.
  by apply: agree_callAt h e => // u g; apply: agree_getState.
- have [->//|[rt e ->]] := step_dim t p d flag.
  by apply: agree_clear; apply: agree_callAt h e => // u g; apply: agree_setDim.
- exact: agree_clear.
Qed.

Lemma agree_run t os : unset t -> onlySingles t os -> agree (run t os) (latest os).
Proof.
move=> hu; elim/last_ind: os => [|os o IH] hs.
  rewrite /run /=; elim/sys_nested: t hu {hs} => [d c [[] //[]//]|m l IH]; rewrite [unset _]/= => // /andP[hm hl].
  rewrite agree_comp; split; first by case: m hm => -[] // [].
  elim: l (0%N) IH hl => // c l IHl i IH /andP[hc hl]; split; first by apply: (IH c) => //; left.
  by apply: IHl => // t ht; apply: IH; right.
have hs' : onlySingles t os by move=> p v h; apply: (hs p v); rewrite -cats1; apply/List.in_or_app; left.
have ek : kind (shapeOf t) = kind (shapeOf (run t os)).
  by rewrite /run; elim: (os) (t) => //= a k IHk u; rewrite -IHk kind_step.
rewrite /run -cats1 foldl_cat /= -/(run t os).
apply: agree_ext (agree_step _ (IH hs')) => [q|].
  by rewrite /latest foldl_cat /=; case: o {hs}.
case: o hs => // p v hs; apply: subAt_single ek _.
by apply: (hs p v); rewrite -cats1; apply/List.in_or_app; right; left.
Qed.

Definition eachInput (f : seq nat -> inp C) := fix each (l : seq shape) (i : nat) : seq (inp C) :=
  match l with [::] => [::] | c :: l' => inputFor c (fun p => f (i :: p)) :: each l' i.+1 end.
Lemma inputFor_comp ss f : inputFor (SComp ss) f = ISeq (eachInput f ss 0).
Proof. by []. Qed.

Lemma agree_flat t f : flat (shapeOf t) -> agree t f -> inputFor (shapeOf t) f = ISeq (inputs t).
Proof.
case: t => // m l hf; rewrite agree_comp shapeOf_comp inputFor_comp => -[_ h]; congr ISeq.
move: hf h; rewrite /=; elim: l (0%N) => //= c l IH i /andP[hc hl] [h1 h2].
by rewrite IH //; congr (_ :: _); case: c hc h1.
Qed.

(** Creating the state from the inputs of the single systems. *)
Lemma create_agree t f mx ps : proper (shapeOf t) -> agree t f -> parts (shapeOf t) (inputFor (shapeOf t) f) = Some ps ->
  (exists m l, t = Comp m l) -> (create t (INone C) mx).1 = Ok (stateOf ps).
Proof.
elim/sys_nested: t f mx ps => [d c m|m l IH] f mx ps hp h; first by move=> _ [? []].
move: h; rewrite agree_comp shapeOf_comp inputFor_comp parts_comp //.
move=> [e h]; case: ifP => // _ ep _.
rewrite create_comp // e -[(let w := _ in _).1]/(do ss <- (eachCreate (ISeq [seq s_inp (simOf c) | c <- l]) l 0).1; tensorAll ss).
have [hl hpl] : (0 < size l)%N /\ all proper (map (@shapeOf C) l) by move: hp => /= /andP[]; rewrite size_map.
have {hp e} [pss [epss sp ee]] : exists pss, [/\ ps = flatten pss, size pss = size l &
   (eachCreate (ISeq [seq s_inp (simOf c) | c <- l]) l 0).1 = Ok (map stateOf pss)].
  set vs := [seq s_inp (simOf c) | c <- l]; have ed : drop 0 vs = [seq s_inp (simOf c) | c <- l] by rewrite drop0.
  clearbody vs; elim: l (0%N) ps IH h hpl ep ed {hl hp e} => [|c l IHl] i ps IH h hpl /=.
    by move=> [<-]; exists [::].
  move: h hpl => [h1 h2] /= /andP[hc hpl]; case e1 : parts => [a|] //; case e2 : eachPart => [b|] // [<-] ed.
  have hi : (i < size vs)%N by rewrite ltnNge; apply/negP => hh; move: ed; rewrite drop_oversize.
  move: ed; rewrite (drop_nth (INone C)) // hi => -[ei ed]; rewrite ei.
  have [pss [eb sp ep]] := IHl i.+1 b (fun t ht => IH t (or_intror ht)) h2 hpl e2 ed.
  have [x gx ec] : exists2 x, getMax (s_inp (simOf c)) = Ok x &
     (create c (s_inp (simOf c)) (Some x)).1 = Ok (stateOf a).
    case: c IH h1 hc e1 {ei} => [d k m'|m' l'] IH h1 hc e1.
      have eq1 : f [:: i] = s_inp m' by rewrite -[f _]/(f (i :: [::])) -h1.
      rewrite [inputFor _ _]/= eq1 in e1.
      have [x gx] := parts_getMax hc e1.
      by exists x => //; apply: createE.
    have e0 : s_inp m' = INone C by move: h1; rewrite agree_comp => -[].
    exists 1%N; first by rewrite /= e0.
    rewrite [simOf _]/= e0; apply: (IH _ (or_introl erefl)) e1 _ => //; by exists m', l'.
  by rewrite gx ec; exists (a :: pss); rewrite /= eb sp ep.
rewrite ee /= tensorAllE ?epss //.
by move: hl; rewrite -sp; case: (pss).
Qed.

Lemma getState_cleared t r : s_val (simOf t) = None -> s_inp (simOf t) = INone C ->
  (create t (INone C) (s_max (simOf t))).1 = Ok r -> (getState t).1 = Ok r.
Proof. by rewrite /getState => -> ->; case: create => a b /= ->. Qed.

End Init.
