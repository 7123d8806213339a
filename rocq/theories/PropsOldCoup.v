(** C93: the coupling terms of the older composite systems. *)
From mathcomp Require Import all_ssreflect all_algebra.
From mathcomp Require Import algC.
From Verif Require Py.
From Verif Require Import MatModel MatLib OperModel MatSpec MatProofs CField OperProofs CoupModel CoupSpec CoupProofs.
From Verif Require Import OldCoupModel OldCoupSpec OldCoupProofs.
Set Implicit Arguments.
Unset Strict Implicit.
Unset Printing Implicit Defensive.
Import Order.TTheory GRing.Theory Num.Theory.
Local Open Scope ring_scope.

(** C93: addTerm with lists of systems, each followed by lists of operators, adds
    one term for each list of operators, in their order, after the terms that are
    there; it ends, and the matrix is made anew at the next reading. *)
Theorem C93_terms (C : numClosedFieldType) (O : Type) (c : coup C O) (gs : seq (group O)) (fuel : nat) :
  map fst (c_dict c) = iota 0 (size (c_dict c)) -> all (@goodGroup O) gs -> (size gs < fuel)%N ->
  exists c', [/\ addTerm fuel c (argsOf gs) = Some (c', Ok tt), c_freq c' = c_freq c, c_mat c' = None,
    map fst (c_dict c') = iota 0 (size (c_dict c')) & map snd (c_dict c') = map snd (c_dict c) ++ termsOf gs].
Proof. by move=> hk hg hf; have [d' [e k m]] := addTerm_ok hk hg hf; exists (Coup d' (c_freq c) None). Qed.

(** C93: for terms of two systems: after any history of added terms, changes of
    the strength and readings, the coupling Hamiltonian is the last strength times
    the sum over all terms added, of the products of the two operators, each acting
    on its own system; whatever the sorting of the systems. *)
Theorem C93_history (C : numClosedFieldType) (O : Type) (opMat : O -> nat -> result (mat C)) (ok : O -> nat -> bool)
    (opEnt : O -> nat -> nat -> nat -> C) (ds : seq nat) (ind : nat -> nat) (l : seq (op C O)) (g : C) :
  all (fun d => 0 < d)%N ds -> givesEnts opEnt opMat ok -> all (goodOp ok ds) l -> strength l = Some g ->
  exists c, run opMat ds ind l = Some c /\
    exists c', match written l with
    | [::] => totalHam opMat ds ind c = Ok (c', None)
    | _ => exists M, [/\ totalHam opMat ds ind c = Ok (c', Some M), square (prodn ds) M &
        forall u v, isIdx ds u -> isIdx ds v ->
          ent M (enc ds u) (enc ds v) = g * \sum_(t <- written l) elem opEnt ds t u v]
    end.
Proof.
move=> hp hg hl hs; have [c [e [i hw]]] := run_ok ind hp hg hl; exists c; split=> //.
rewrite hs in i; have hw' : all (fun t => twoBody ok ds (firstTwo t)) (written l).
  by apply: sub_all hw => t h; rewrite (twoBody_first h).
have [c' [_ h]] := total_ok hp hg i hw'; exists c'.
have E u v : \sum_(t <- written l) elem opEnt ds (firstTwo t) u v = \sum_(t <- written l) elem opEnt ds t u v.
  elim: (written l) hw => [|t T IH] /=; first by rewrite !big_nil.
  by move=> /andP[/twoBody_first e1 /IH e2]; rewrite !big_cons e1 e2.
case: (written l) h E => [|t T] h E //; have [M [h1 [h2 h3]]] := h; exists M; split=> // u v hu hv.
by rewrite h3 // E.
Qed.

(** C93: from the third on, systems and operators of a term are ignored. *)
Theorem C93_first_two (C : numClosedFieldType) (O : Type) (opMat : O -> nat -> result (mat C)) (ok : O -> nat -> bool)
    (opEnt : O -> nat -> nat -> nat -> C) (ds : seq nat) (ind : nat -> nat) (d : dict O) :
  all (fun d => 0 < d)%N ds -> givesEnts opEnt opMat ok -> d <> [::] ->
  all (fun p => twoBody ok ds (take 2 p.2.1, take 2 p.2.2)) d ->
  exists M, [/\ construct opMat ds ind d = Ok (Some M), square (prodn ds) M &
    forall u v, isIdx ds u -> isIdx ds v ->
      ent M (enc ds u) (enc ds v) = \sum_(p <- d) elem opEnt ds (take 2 p.2.1, take 2 p.2.2) u v].
Proof.
move=> hp hg hn hd; have [M [h1 [h2 h3]]] := construct_ok ind hp hg hn hd.
by exists M; split=> // u v hu hv; rewrite h3 // big_map.
Qed.

(** The operators of the library. *)
Lemma oldMatE (C : numClosedFieldType) : givesEnts (@oEnt C) (oldMat C) oOk.
Proof.
move=> o d ho; have [A [e r c hA]] := operMatE C ho; exists A; split=> //.
move: ho e => /andP[/andP[hd hp] _]; rewrite /operMat /oldMat (gtn_eqF hd).
by case: o hp {hA} => //= ->.
Qed.

(** C93: so a term of three systems is not the product of its three operators. *)
Theorem C93_three_refuted (C : numClosedFieldType) : exists (t : term oper) (M : mat C) u,
  [/\ t = ([:: 0; 1; 2]%N, [:: IOp OSigmaz; IOp OSigmaz; IOp OSigmaz]),
      construct (oldMat C) [:: 2; 2; 2]%N id [:: (0%N, t)] = Ok (Some M),
      elem (@oEnt C) [:: 2; 2; 2]%N t u u = -1 &
      ent M (enc [:: 2; 2; 2]%N u) (enc [:: 2; 2; 2]%N u) = 1].
Proof.
set t : term oper := (_, [:: IOp OSigmaz; IOp OSigmaz; IOp OSigmaz]).
have [|||//|M [h1 _ h2]] := @C93_first_two C oper (oldMat C) oOk (@oEnt C) [:: 2; 2; 2]%N id [:: (0%N, t)] => //.
  exact: oldMatE.
exists t, M, [:: 0; 0; 1]%N; split=> //.
  by rewrite /elem /factors /= !big_cons big_nil !mulr1 !mul1r.
by rewrite h2 // big_seq1 /elem /factors /= !big_cons big_nil !mulr1.
Qed.

(** C93: two lists of systems one after the other: addTerm never ends. *)
Theorem C93_endless (C : numClosedFieldType) (O : Type) (fuel : nat) (c : coup C O) i x a y z b rest :
  ~~ has (@isOp O) (x :: a) -> ~~ isOp z ->
  addTerm fuel c ([:: ISys i, x & a] :: [:: y, z & b] :: rest) = None.
Proof. by move=> h1 h2; rewrite /addTerm loop_endless. Qed.

(** C93: if addTerm raises, the terms added until then stay, and the matrix from
    before is still used. *)
Theorem C93_stale (C : numClosedFieldType) (O : Type) (fuel : nat) (c c' : coup C O) args e :
  addTerm fuel c args = Some (c', Err e) -> c_mat c' = c_mat c /\ c_freq c' = c_freq c.
Proof. by rewrite /addTerm; case: (loop _ _ _) => [[d [[]|e']]|] // [<- _]. Qed.
Theorem C93_stale_refuted (C : numClosedFieldType) : exists (c c' : coup C oper) args,
  addTerm 9 c args = Some (c', Err Py.ValueError) /\ size (c_dict c') = (size (c_dict c)).+1 /\
  exists M, totalHam (oldMat C) [:: 2; 2]%N id c = Ok (c, Some M) /\ totalHam (oldMat C) [:: 2; 2]%N id c' = Ok (c', Some M).
Proof.
pose c : coup C oper := Coup [:: (0%N, ([:: 0; 1]%N, pairOfOps OSigmaz OSigmaz))] (Some 1) (Some (Some (idm C 4))).
exists c; eexists; exists [:: pairOfSys 0 1; pairOfOps OSigmax OSigmax; [:: IOp OSigmax; ISys 0]].
by split; [reflexivity|split=> //; eexists; split; reflexivity].
Qed.

(** C93: removing a system from a coupling that has a term with it raises a
    RuntimeError, after the first such term is dropped; otherwise nothing
    happens. *)
Theorem C93_remove (O : Type) (d : dict O) (q : nat) : map fst d = iota 0 (size d) ->
  remove d q = if has (fun p => q \in p.2.1) d
               then Runtime (take (find (fun p => q \in p.2.1) d) d ++ drop (find (fun p => q \in p.2.1) d).+1 d)
               else Untouched O.
Proof.
move=> hk; rewrite /remove; set P := fun p : nat * term O => q \in p.2.1.
have G (a b : dict O) : d = a ++ b -> ~~ has P a ->
    removeFrom d b (size a) q = if has P d then Runtime (take (find P d) d ++ drop (find P d).+1 d) else Untouched O.
  elim: b a => [|[k t] b IH] a e ha /=; first by rewrite e cats0 (negbTE ha).
  case hq: (q \in t.1); last first.
    by rewrite -(IH (rcons a (k, t))) ?size_rcons ?cat_rcons // -cats1 has_cat negb_or ha /P /= hq.
  have f : find P d = size a by rewrite e find_cat (negbTE ha) /= /P /= hq addn0.
  have -> : has P d by rewrite e has_cat /P /= hq orbT.
  have lt : (size a < size d)%N by rewrite e size_cat /= addnS ltnS leq_addr.
  rewrite hk mem_iota /= add0n lt f; congr Runtime.
  have hkk : map fst a = iota 0 (size a) /\ map fst ((k, t) :: b) = iota (size a) (size b).+1.
    move: hk; rewrite e map_cat size_cat iotaD add0n /= => /eqP; rewrite eqseq_cat ?size_map ?size_iota //.
    by case/andP => /eqP -> /eqP ->.
  case: hkk => ka [kk kb]; rewrite e filter_cat /= kk eqxx /=.
  rewrite take_size_cat // -cat_rcons drop_size_cat ?size_rcons //; congr (_ ++ _).
    apply/all_filterP; rewrite -(all_map fst (fun m => m != size a)) ka; apply/allP => m.
    by rewrite mem_iota add0n => /andP[_ h]; rewrite ltn_eqF.
  apply/all_filterP; rewrite -(all_map fst (fun m => m != size a)) kb; apply/allP => m.
  by rewrite mem_iota => /andP[h _]; rewrite gtn_eqF.
by rewrite -(G [::] d).
Qed.

(** C93: after that a new term replaces an old one. *)
Theorem C93_lost_refuted (C : numClosedFieldType) : exists (d d' : dict oper) (gs : seq (group oper)) (c' : coup C oper),
  [/\ all (@goodGroup oper) gs, size d = 2%N, remove d 0 = Runtime d' /\ map snd d' = [:: ([:: 1; 2]%N, pairOfOps OSigmaz OSigmaz)] &
      addTerm 9 (Coup d' None None) (argsOf gs) = Some (c', Ok tt) /\ map snd (c_dict c') = termsOf gs].
Proof.
exists [:: (0%N, ([:: 0; 1]%N, pairOfOps OSigmax OSigmax)); (1%N, ([:: 1; 2]%N, pairOfOps OSigmaz OSigmaz))]; eexists.
exists [:: (pairOfSys 1 3, [:: pairOfOps OSigmax OSigmaz])]; eexists.
by split=> //; split; reflexivity.
Qed.

(** C93: JC, Rabi and Dicke of a cavity and a spin: the Hamiltonian is the one of
    the newer classes (C85). *)
Definition shapeFor (w : coupling) (z : bool) : option shape :=
  match w with
  | CJC => Some (if z then Exchange else Swap)
  | CRabi => if z then Some FlipX else None
  | CDicke => if z then Some FlipJ else None
  end.
Theorem C93_named (C : numClosedFieldType) (w : coupling) (z : oper) (g : C) (ds : seq nat) (ind : nat -> nat) (c q : nat) :
  all (fun d => 1 < d)%N ds -> c != q -> (c < size ds)%N -> (q < size ds)%N ->
  (if w is CRabi then nth 0%N ds q == 2%N else true) ->
  match shapeFor w (zOper z) with
  | Some sh => exists k k' M,
      [/\ oldCall w z g c q = Some (k, Ok tt), totalHam (oldMat C) ds ind k = Ok (k', Some M), square (prodn ds) M &
       forall u v, isIdx ds u -> isIdx ds v -> ent M (enc ds u) (enc ds v) =
         g * ((agree ds [:: c; q] u v)%:R *
              shapeEnt C sh (nth 0%N ds q) (nth 0%N u c) (nth 0%N v c) (nth 0%N u q) (nth 0%N v q))]
  | None => exists k, oldCall w z g c q = Some (k, Err Py.UnboundLocalError)
  end.
Proof.
move=> hd ne hc hq hr.
have hp : all (fun d => 0 < d)%N ds by apply: sub_all hd => d; apply: ltnW.
have dc : (1 < nth 0%N ds c)%N by move/(all_nthP 0%N): hd; apply.
have dq : (1 < nth 0%N ds q)%N by move/(all_nthP 0%N): hd; apply.
have K (a b a' b' : oper) (k : coup C oper) : oOk a (nth 0%N ds c) -> oOk a' (nth 0%N ds c) -> oOk b (nth 0%N ds q) -> oOk b' (nth 0%N ds q) ->
    map fst (c_dict k) = [:: 0; 1]%N -> map snd (c_dict k) = [:: ([:: c; q], pairOfOps a b); ([:: c; q], pairOfOps a' b')] ->
    c_freq k = Some g -> c_mat k = None ->
    exists k' M, [/\ totalHam (oldMat C) ds ind k = Ok (k', Some M), square (prodn ds) M &
      forall u v, isIdx ds u -> isIdx ds v -> ent M (enc ds u) (enc ds v) =
        g * ((agree ds [:: c; q] u v)%:R *
          (oEnt C a (nth 0%N ds c) (nth 0%N u c) (nth 0%N v c) * oEnt C b (nth 0%N ds q) (nth 0%N u q) (nth 0%N v q) +
           oEnt C a' (nth 0%N ds c) (nth 0%N u c) (nth 0%N v c) * oEnt C b' (nth 0%N ds q) (nth 0%N u q) (nth 0%N v q)))].
  move=> ha ha' hb hb' e1 e2 e3 e4.
  have i : inv (oldMat C) ds ind [:: ([:: c; q], pairOfOps a b); ([:: c; q], pairOfOps a' b')] (Some g) k.
    split=> //; last by left.
    by rewrite /keyed e1; have -> : size (c_dict k) = 2%N by rewrite -(size_map fst) e1.
  have [|k' [_ [M [h1 [h2 h3]]]]] := total_ok hp (@oldMatE C) i.
    by rewrite /= ne hc hq ha hb ha' hb'.
  exists k', M; split=> // u v hu hv; rewrite h3 // !big_cons big_nil addr0 /elem /factors /= !big_cons !big_nil !mulr1.
  by rewrite mulrDr.
rewrite /oldCall /oldJC /oldRabi /oldDicke /shapeFor; case: w hr => [_|hr|_]; case: (zOper z) => /=.

all: try by eexists.
- pose k : coup C oper := Coup [:: (0%N, ([:: c; q], pairOfOps ODestroy OJp)); (1%N, ([:: c; q], pairOfOps OCreate OJm))] (Some g) None.
  have [||||//|//|//|//|k' [M [h1 h2 h3]]] := @K ODestroy OJp OCreate OJm k; rewrite /oOk ?dc ?dq //.
  by exists k, k', M; split.
- pose k : coup C oper := Coup [:: (0%N, ([:: c; q], pairOfOps ODestroy OCreate)); (1%N, ([:: c; q], pairOfOps OCreate ODestroy))] (Some g) None.
  have [||||//|//|//|//|k' [M [h1 h2 h3]]] := @K ODestroy OCreate OCreate ODestroy k; rewrite /oOk ?dc ?dq //.
  by exists k, k', M; split.
- pose k : coup C oper := Coup [:: (0%N, ([:: c; q], pairOfOps ODestroy OSigmax)); (1%N, ([:: c; q], pairOfOps OCreate OSigmax))] (Some g) None.
  have [||||//|//|//|//|k' [M [h1 h2 h3]]] := @K ODestroy OSigmax OCreate OSigmax k; rewrite /oOk ?dc ?dq ?hr //.
  exists k, k', M; split=> //.
  by move=> u v hu hv; rewrite h3 // -mulrDl.
- pose k : coup C oper := Coup [:: (0%N, ([:: c; q], pairOfOps ODestroy OJx)); (1%N, ([:: c; q], pairOfOps OCreate OJx))] (Some g) None.
  have [||||//|//|//|//|k' [M [h1 h2 h3]]] := @K ODestroy OJx OCreate OJx k; rewrite /oOk ?dc ?dq //.
  exists k, k', M; split=> //.
  by move=> u v hu hv; rewrite h3 // -mulrDl.
Qed.

(** ** Cases that meet the hypotheses *)
Definition ex_gs : seq (group oper) :=
  [:: (pairOfSys 0 2, [:: pairOfOps ODestroy OJp; pairOfOps OCreate OJm]); (pairOfSys 1 2, [:: pairOfOps OJz OJz])].
Definition ex_l (C : numClosedFieldType) : seq (op C oper) :=
  [:: Strength 2%:R; Read; Add ex_gs; Read; Add [:: (pairOfSys 2 0, [:: pairOfOps OSigmaz ONumber])]; Strength 3%:R; Read].
Example C93_ex_hyp (C : numClosedFieldType) : [/\ all (@goodGroup oper) ex_gs, all (goodOp oOk [:: 3; 4; 2]%N) (ex_l C),
  all (fun d => 0 < d)%N [:: 3; 4; 2]%N, givesEnts (@oEnt C) (oldMat C) oOk & strength (ex_l C) = Some 3%:R].
Proof. by split; [| | |exact: oldMatE|reflexivity]. Qed.
Example C93_ex_terms : [seq t.1 | t <- termsOf ex_gs] = [:: [:: 0; 2]; [:: 0; 2]; [:: 1; 2]]%N /\ size (argsOf ex_gs) = 5%N.
Proof. by []. Qed.
Example C93_ex (C : numClosedFieldType) : exists c, run (oldMat C) [:: 3; 4; 2]%N (fun _ => 0%N) (ex_l C) = Some c.
Proof.
have [h1 h2 h3 h4 h5] := C93_ex_hyp C.
by have [c [h _]] := C93_history (fun _ => 0%N) h3 h4 h2 h5; exists c.
Qed.
Example C93_ex_named : all (fun d => 1 < d)%N [:: 2; 5; 3]%N /\ 1%N != 0%N :> nat.
Proof. by []. Qed.
Example C93_ex_remove : map fst [:: (0%N, ([:: 0; 1]%N, pairOfOps OJz OJz)); (1%N, ([:: 1; 2]%N, pairOfOps OJz OJz))] = iota 0 2.
Proof. by []. Qed.

Print Assumptions C93_terms.
Print Assumptions C93_history.
Print Assumptions C93_first_two.
Print Assumptions C93_three_refuted.
Print Assumptions C93_endless.
Print Assumptions C93_stale.
Print Assumptions C93_stale_refuted.
Print Assumptions C93_remove.
Print Assumptions C93_lost_refuted.
Print Assumptions C93_named.
