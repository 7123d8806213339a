(** Proofs about the coupling terms of the older composite systems. *)
From mathcomp Require Import all_ssreflect all_algebra.
From Verif Require Py.
From Verif Require Import MatModel MatLib OperModel MatSpec MatProofs CField OperProofs GateProofs CoupModel CoupSpec CoupProofs.
From Verif Require Import OldCoupModel OldCoupSpec.
Set Implicit Arguments.
Unset Strict Implicit.
Unset Printing Implicit Defensive.
Import Order.TTheory GRing.Theory Num.Theory.
Local Open Scope ring_scope.

Section Terms.
Variable O : Type.
Implicit Types (d : dict O) (t : term O) (gs : seq (group O)).

Definition keyed d : Prop := map fst d = iota 0 (size d).

Lemma put_new d k t : k \notin map fst d -> put d k t = rcons d (k, t).
Proof.
elim: d => [|[k' t'] d IH] //=; rewrite inE negb_or eq_sym => /andP[/negbTE -> h].
by rewrite IH.
Qed.
Lemma record_keyed d a b : keyed d -> record d a b = rcons d (size d, (map (@idOf O) a, b)) /\ keyed (record d a b).
Proof.
move=> h; rewrite /record put_new ?h ?mem_iota ?ltnn ?andbF //; split=> //.
by rewrite /keyed map_rcons size_rcons h -cats1 -addn1 iotaD add0n.
Qed.

Lemma more_ok a os rest d : keyed d -> all (@goodOps O) os -> (if rest is r :: _ then ~~ goodOps r && (1 < size r)%N else true) ->
  exists d', [/\ more a (os ++ rest) d = (d', Ok rest), keyed d' & map snd d' = map snd d ++ [seq (map (@idOf O) a, o) | o <- os]].
Proof.
elim: os d => [|o os IH] d hk /=.
  move=> _; case: rest => [|r rest] hr; exists d; split=> //=; rewrite ?cats0 //.
  by move: hr; case: r => [|y [|z r]] //= /andP[/negbTE ->].
case: o => [|y [|z o]] //= /andP[hz hos] hr; rewrite hz.
have [e k'] := record_keyed a [:: y, z & o] hk.
have [d' [h1 h2 h3]] := IH _ k' hos hr; exists d'; split=> //.
by rewrite h3 e map_rcons cat_rcons.
Qed.

Lemma argsOf_head gs : all (@goodGroup O) gs ->
  (if argsOf gs is r :: _ then ~~ goodOps r && (1 < size r)%N else true).
Proof.
case: gs => [|[a os] gs] //= /andP[/and4P[h1 h2 _ _] _].
by case: a h1 h2 => [|[i|i|o] [|y a]] //=; rewrite negb_or => _ /andP[/negbTE ->].
Qed.

Lemma loop_ok gs fuel d : keyed d -> all (@goodGroup O) gs -> (size gs < fuel)%N ->
  exists d', [/\ loop fuel (argsOf gs) d = Some (d', Ok tt), keyed d' & map snd d' = map snd d ++ termsOf gs].
Proof.
elim: gs fuel d => [|[a os] gs IH] [|fuel] d hk //.
  by move=> _ _; exists d; split=> //; rewrite cats0.
move=> /= /andP[hg hgs] hf; have hh := argsOf_head hgs.
case/and4P: hg => /= h1 h2 h3 h4; case: os h3 h4 => [|o os] //= _ /andP[ho hos].
rewrite /argsOf /= -/(argsOf gs).
case: a h1 h2 => [|[i|i|w] [|y a]] //= _ h2; rewrite (negbTE h2).
case: o ho => [|x [|z o]] //= hz; rewrite hz.
have [e k1] := record_keyed [:: ISys i, y & a] [:: x, z & o] hk.
have [d1 [e1 k2 e2]] := more_ok [:: ISys i, y & a] k1 hos hh.
rewrite e1; have [d' [e3 k3 e4]] := IH fuel d1 k2 hgs hf.
by exists d'; split=> //; rewrite e4 e2 e map_rcons /termsOf /= cat_rcons -catA.
Qed.

Lemma addTerm_ok C (c : coup C O) gs fuel : keyed (c_dict c) -> all (@goodGroup O) gs -> (size gs < fuel)%N ->
  exists d', [/\ addTerm fuel c (argsOf gs) = Some (Coup d' (c_freq c) None, Ok tt), keyed d' &
    map snd d' = map snd (c_dict c) ++ termsOf gs].
Proof. by move=> hk hg hf; have [d' [e k m]] := loop_ok hk hg hf; exists d'; rewrite /addTerm e. Qed.

Lemma loop_endless fuel i x a y z b rest d : ~~ has (@isOp O) (x :: a) -> ~~ isOp z ->
  loop fuel ([:: ISys i, x & a] :: [:: y, z & b] :: rest) d = None.
Proof.
move=> hx hz; elim: fuel => [|fuel IH] //=; move: (hx) => /= h; rewrite (negbTE h) (negbTE hz).
by move: h; rewrite negb_or /= => /andP[/negbTE -> _]; exact: IH.
Qed.
End Terms.

Section Mat.
Variables (C : numClosedFieldType) (O : Type) (opMat : O -> nat -> result (mat C)) (ok : O -> nat -> bool).
Variable opEnt : O -> nat -> nat -> nat -> C.
Variables (ds : seq nat) (ind : nat -> nat).
Hypothesis pos : all (fun d => 0 < d)%N ds.
Hypothesis gives : givesEnts opEnt opMat ok.

Definition hasElems (E : seq nat -> seq nat -> C) (M : mat C) : Prop :=
  square (prodn ds) M /\ forall u v, isIdx ds u -> isIdx ds v -> ent M (enc ds u) (enc ds v) = E u v.

Lemma embed_ok i o : (i < size ds)%N -> ok o (nth 0%N ds i) -> exists A,
  [/\ embed opMat ds i (IOp o) = Ok (tens (mkseq (one ds i A) (size ds))), rows A = nth 0%N ds i, cols A = nth 0%N ds i &
   forall k l, (k < nth 0%N ds i)%N -> (l < nth 0%N ds i)%N -> ent A k l = opEnt o (nth 0%N ds i) k l].
Proof.
move=> hi ho; have [A [e r c hA]] := gives ho; exists A; split=> //.
rewrite /embed e /= compositeOpE.
have h1 : (0 < prodn (take i ds))%N by apply/prodn_gt0/all_take_gt0.
have h2 : (0 < prodn (drop i.+1 ds))%N by apply/prodn_gt0/all_drop_gt0.
by rewrite !foldr_muln !maxn1 // comp_fac.
Qed.

Lemma two_swap c q (A B : mat C) : c != q -> mkseq (two ds c q A B) (size ds) = mkseq (two ds q c B A) (size ds).
Proof.
move=> ne; apply: eq_map => k; rewrite /two /one; have [->|//] := eqVneq k c.
by rewrite (negbTE ne).
Qed.

#[local] Arguments embed : simpl never.
Lemma termMat_ok (t : term O) : twoBody ok ds (firstTwo t) ->
  exists M, termMat opMat ds ind t = Ok M /\ hasElems (elem opEnt ds (firstTwo t)) M.
Proof.
case: t => [[|i [|j ss]] [|[?|?|a] [|[?|?|b] os]]] //=; rewrite /firstTwo /= ?take0 //.
move=> /and5P[ne hi hj ha hb].
have [A [eA rA cA hA]] := embed_ok hi ha; have [B [eB rB cB hB]] := embed_ok hj hb.
rewrite /termMat /= eA /= eB /= /coupOrdering /sorted /=.
have ne' : j != i by rewrite eq_sym.
have fin : hasElems (elem opEnt ds ([:: i; j], [:: IOp a; IOp b])) (tens (mkseq (two ds i j A B) (size ds))).
  split; first exact: square_fac (fits_two rA cA rB cB).
  move=> u v hu hv; rewrite ent_two // /elem /factors /= !big_cons big_nil mulr1; congr (_%:R * _).
    by rewrite /agree; congr nat_of_bool; apply: eq_all => k; rewrite !inE orbA.
  by rewrite hA ?hB ?isIdx_nth.
case: (leqP (ind i) (ind j)) => _ /=; rewrite mul_fac //.
- by eexists; split; first by [].
- by rewrite two_swap //; eexists; split; first by [].
Qed.

Lemma construct_ok (d : dict O) : d <> [::] -> all (fun p => twoBody ok ds (firstTwo p.2)) d ->
  exists M, construct opMat ds ind d = Ok (Some M) /\
    hasElems (fun u v => \sum_(t <- map snd d) elem opEnt ds (firstTwo t) u v) M.
Proof.
move=> hn hd.
have [Ms [e1 e2 e3 e4]] : exists Ms, [/\ allOk (map (fun p => termMat opMat ds ind p.2) d) = Ok Ms, size Ms = size d,
    all (fun M => (rows M == prodn ds) && (cols M == prodn ds)) Ms &
    forall u v, isIdx ds u -> isIdx ds v -> \sum_(M <- Ms) ent M (enc ds u) (enc ds v) = \sum_(t <- map snd d) elem opEnt ds (firstTwo t) u v].
  elim: d {hn} hd => [|[k t] d IH] /=; first by move=> _; exists [::]; split=> // u v _ _; rewrite !big_nil.
  move=> /andP[/termMat_ok[M [eM [[r c] hM]]] /IH[Ms [e1 e2 e3 e4]]].
  exists (M :: Ms); rewrite eM /= e1 /= r c !eqxx /= e2; split=> // u v hu hv.
  by rewrite !big_cons e4 // hM.
have hMs : Ms <> [::] by move=> e; move: e2; rewrite e; case: (d) hn.
have [H [h1 h2 h3]] := sumMatsE hMs e3.
exists H; rewrite /construct e1 /=; case: Ms hMs h1 {e1 e2 e3} e4 h3 => // M Ms _ h1 e4 h3; rewrite h1; split=> //.
by split=> // u v hu hv; rewrite h3 e4.
Qed.

(** ** Histories *)
Definition inv (T : seq (term O)) (g : option C) (c : coup C O) : Prop :=
  [/\ keyed (c_dict c), map snd (c_dict c) = T, c_freq c = g &
      c_mat c = None \/ exists m, c_mat c = Some m /\ construct opMat ds ind (c_dict c) = Ok m].

Lemma total_ok T g c : inv T (Some g) c -> all (fun t => twoBody ok ds (firstTwo t)) T ->
  exists c', inv T (Some g) c' /\
    match T with
    | [::] => totalHam opMat ds ind c = Ok (c', None)
    | _ => exists M, totalHam opMat ds ind c = Ok (c', Some M) /\
                     hasElems (fun u v => g * \sum_(t <- T) elem opEnt ds (firstTwo t) u v) M
    end.
Proof.
move=> [k e f hm] hT.
have E : totalHam opMat ds ind c = do m <- construct opMat ds ind (c_dict c);
    Ok (Coup (c_dict c) (c_freq c) (Some m), omap (scalem g) m).
  by rewrite /totalHam f; case: hm => [->|[m [-> ->]]].
have hd : all (fun p => twoBody ok ds (firstTwo p.2)) (c_dict c).
  by rewrite -(all_map snd (fun t => twoBody ok ds (firstTwo t))) e.
case: T e hT => [|t T] e hT.
- have e0 : c_dict c = [::] by case: (c_dict c) e.
  rewrite E e0 /=; eexists; split; last by [].
  by rewrite /inv /=; split=> //; right; exists None.
- have hn : c_dict c <> [::] by move=> e0; rewrite e0 in e.
  have [M [h1 [[r0 c0] h2]]] := construct_ok hn hd; rewrite E h1 /=; exists (Coup (c_dict c) (c_freq c) (Some (Some M))); split.
    by split=> //=; right; exists (Some M).
  exists (scalem g M); split=> //; split; first by split; rewrite ?rows_scalem ?cols_scalem.
  by move=> u v hu hv; rewrite ent_scalem h2 // e.
Qed.

Lemma twoBody_first (t : term O) : twoBody ok ds t -> firstTwo t = t.
Proof. by case: t => [[|i [|j [|? ?]]] [|[?|?|a] [|[?|?|b] [|? ?]]]]. Qed.

Lemma run_ok (l : seq (op C O)) : all (goodOp ok ds) l ->
  exists c, run opMat ds ind l = Some c /\ inv (written l) (strength l) c /\ all (twoBody ok ds) (written l).
Proof.
elim/last_ind: l => [|l o IH].
  by move=> _; exists newCoup; split=> //; split=> //; split=> //; left.
rewrite all_rcons => /andP[ho /IH[c [e [[k m f hm] hw]]]].
rewrite /run -cats1 foldl_cat /= -/(run opMat ds ind l) e /=.
have W : written (l ++ [:: o]) = written l ++ (if o is Add gs then termsOf gs else [::]).
  by rewrite /written map_cat flatten_cat /= cats0.
have S : strength (l ++ [:: o]) = if o is Strength g then Some g else strength l by rewrite /strength foldl_cat.
rewrite W S; case: o ho {W S} => [gs|g|] /=.
- move=> /andP[hg ht]; have [d' [e1 k1 m1]] := addTerm_ok k hg (ltnSn _).
  rewrite e1; eexists; split; first by []; split; last by rewrite all_cat hw.
  by split=> //=; [rewrite m1 m|left].
- by move=> _; rewrite cats0; eexists; split; first by []; split=> //; split.
- move=> _; rewrite cats0 f; case g0: (strength l) => [g|].
    have hT : all (fun t => twoBody ok ds (firstTwo t)) (written l).
      by apply: sub_all hw => t h; rewrite (twoBody_first h).
    have [|c' [i1 i2]] := @total_ok (written l) g c _ hT; first by split=> //; rewrite f.
    exists c'; split; last by [].
    by case: (written l) i2 => [->|t T [M [-> _]]].
  have [c' ex] : exists c', totalHam opMat ds ind c = Err c'.
    rewrite /totalHam f g0; case: (match _ with Some m => Ok m | None => construct _ _ _ _ end) => [m'|e'] /=; by eexists.
  by rewrite ex; exists c; split=> //; split=> //; split=> //; rewrite f.
Qed.
End Mat.
