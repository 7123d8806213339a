(** C84: dissipators, their baths and the rates the protocols keep (environment.py). *)
From mathcomp Require Import all_ssreflect all_algebra all_field.
From Verif Require Py.
From Verif Require Import MatModel OperModel MatProofs PropsMat EnvModel EnvSpec EnvProofs.
Set Implicit Arguments.
Unset Strict Implicit.
Unset Printing Implicit Defensive.
Import GRing.Theory Num.Theory.
Local Open Scope ring_scope.

Section C84.
Variable C : numClosedFieldType.
Variable nB : C -> C -> result C.
Implicit Type s : st C.

(** After any history, reading the thermal occupation of a bath gives the one of its frequency and temperature as
    they are now. *)
Theorem C84_nbar s b : reachable nB s -> (nBar nB b s).2 = nB (b_freq (baths s b)) (b_temp (baths s b)).
Proof. by move=> /reachable_fresh; apply: nBar_value. Qed.
(** And reading a rate gives the one of what is set now, and changes the rate of no dissipator and no protocol. *)
Theorem C84_rate s d : reachable nB s -> (jRate nB d s).2 = rateNow nB d s.
Proof. by move=> /reachable_fresh; apply: jRate_value. Qed.
Theorem C84_rateReads s d : (forall e, rateNow nB e (jRate nB d s).1 = rateNow nB e s) /\
  (forall p, p_dis (pros (jRate nB d s).1 p) = p_dis (pros s p)).
Proof.
rewrite jRate_state; have [h1 [_ h2]] := nBar_core nB (d_bath (diss s d)) s; split=> // e.
have [a1 a2 a3 _ _] := coreE (h1 e); rewrite /rateNow a1 a2 a3.
by have [-> -> _ _] := nBar_baths nB (d_bath (diss s d)) s (d_bath (diss s e)).
Qed.

(** What is set now is what was assigned last: the assigned rate, type, temperature, frequency or bath is the one
    in the rate of every dissipator it belongs to, and the rates of the others are what they were. *)
Theorem C84_assigned s d e b v :
  let n f t := nB f t in let B := baths s (d_bath (diss s e)) in
  [/\ rateNow nB e (setRate d v s) =
        (if e == d then do x <- n (b_freq B) (b_temp B); Ok (v * (x + d_type (diss s e))) else rateNow nB e s),
      rateNow nB e (setType d v s) =
        (if e == d then do x <- n (b_freq B) (b_temp B); Ok (d_rate (diss s e) * (x + v)) else rateNow nB e s),
      rateNow nB e (setTemp b v s) =
        (if d_bath (diss s e) == b then do x <- n (b_freq B) v; Ok (d_rate (diss s e) * (x + d_type (diss s e)))
         else rateNow nB e s),
      rateNow nB e (setFreq b v s) =
        (if d_bath (diss s e) == b then do x <- n v (b_temp B); Ok (d_rate (diss s e) * (x + d_type (diss s e)))
         else rateNow nB e s) &
      rateNow nB e (attach b d s) =
        (if e == d then do x <- n (b_freq (baths s b)) (b_temp (baths s b)); Ok (d_rate (diss s e) * (x + d_type (diss s e)))
         else rateNow nB e s)].
Proof.
have tell ds s1 : rateNow nB e (tellAll ds s1) = rateNow nB e s1.
  have [h1 _ h2 _] := tellAll_alike ds s1; have [a1 a2 a3 _ _] := coreE (h2 e); by rewrite /rateNow a1 a2 a3 h1.
split.
- rewrite /setRate; case: eqP => [->|_] /=; first by rewrite /rateNow; case: eqP => [->|].
  by rewrite /rateNow /= /upd; case: eqP => [->|].
- by rewrite /setType /rateNow /= /upd; case: eqP => [->|].
- rewrite /setTemp; case: eqP => [->|_] /=; first by rewrite /rateNow; case: eqP => [->|].
  by rewrite tell /rateNow /= /upd; case: eqP => [->|].
- rewrite /setFreq; case: eqP => [->|_] /=; first by rewrite /rateNow; case: eqP => [->|].
  by rewrite tell /rateNow /= /upd; case: eqP => [->|].
- rewrite /attach /rateNow /= /upd; case: (e =P d) => [->|_] /=; first by rewrite eqxx.
  by case: eqP => [->|].
Qed.

(** Setting the temperature of a dissipator sets the one of the bath it has now, for all dissipators on that bath. *)
Theorem C84_ownTemperature s d e t : let B := baths s (d_bath (diss s e)) in
  rateNow nB e (run nB s [:: SetDTemp d t]) =
    if d_bath (diss s e) == d_bath (diss s d) then do x <- nB (b_freq B) t; Ok (d_rate (diss s e) * (x + d_type (diss s e)))
    else rateNow nB e s.
Proof. by have [_ _ h _ _] := C84_assigned s d e (d_bath (diss s d)) t; apply: h. Qed.

(** A protocol a dissipator is added to gets the rate of that moment; the rates of the others, and the other
    protocols, are what they were. *)
Theorem C84_handed s d p r : reachable nB s -> rateNow nB d s = Ok r ->
  (addTo nB d p s).2 = Ok tt /\
  forall q e, rateIn q e (addTo nB d p s).1 = if (q == p) && (e == d) then Some r else rateIn q e s.
Proof.
move=> hs hr; have hj := C84_rate d hs; rewrite hr in hj; split; first by rewrite /addTo hj.
move=> q e; rewrite /rateIn addTo_dis hj; have [->|_] := eqVneq q p => //=; exact: rset_get.
Qed.
(** An error in the thermal occupation leaves the protocols as they were. *)
Theorem C84_notHanded s d p x : reachable nB s -> rateNow nB d s = Err x ->
  (addTo nB d p s).2 = Err x /\ forall q, p_dis (pros (addTo nB d p s).1 q) = p_dis (pros s q).
Proof.
by move=> hs hr; have hj := C84_rate d hs; rewrite hr in hj; split=> [|q]; rewrite ?addTo_dis ?hj // /addTo hj.
Qed.
(** Giving a dissipator its system adds it to the free evolution of the system. *)
Theorem C84_system s d y r : reachable nB s -> rateNow nB d s = Ok r ->
  (setSystem nB d y s).2 = Ok tt /\ rateIn (s_free (syss s y)) d (setSystem nB d y s).1 = Some r.
Proof.
move=> hs hr; rewrite /setSystem; set s2 := setS _ _ _.
have f2 : fresh nB s2 by apply: (fresh_baths (s := s)) (reachable_fresh hs).
have hj : (jRate nB d s2).2 = Ok r by rewrite jRate_value // /rateNow /s2 /= /upd eqxx /=.
split; first by rewrite /addTo hj.
by rewrite /rateIn addTo_dis hj eqxx rset_get eqxx.
Qed.

(** What a protocol keeps is a copy: whatever is done, short of adding a dissipator to it again (or giving one a
    system it is the free evolution of), its dissipators and their rates stay what they were. *)
Theorem C84_kept dims free (os1 os2 : seq (op C)) p : ~~ has (handsTo free p) os2 ->
  p_dis (pros (run nB (start C dims free) (os1 ++ os2)) p) = p_dis (pros (run nB (start C dims free) os1) p).
Proof.
rewrite /run foldl_cat -/(run nB _ _) -/(run nB _ _).
have : forall y, s_free (syss (run nB (start C dims free) os1) y) = free y.
  by elim/last_ind: os1 => // os o IH y; rewrite /run -cats1 foldl_cat /= step_free; apply: IH.
move: (run nB _ os1) => s; elim: os2 s => //= o os IH s hf; rewrite negb_or => /andP[ho hos].
rewrite IH // => [|y]; last by rewrite step_free.
apply: step_dis => [y hy|]; last by case: o ho.
by case: o ho => //= d z /negP h; apply/negP => /eqP e; apply: h; rewrite e -hf hy.
Qed.

(** The keywords in the order system, operator, rate leave the rate zero in the free evolution of the system, while
    the dissipator itself answers with the rate that was set. *)
Theorem C84_constructor s d y m r n : reachable nB s -> diss s d = newDis C d ->
  nB (b_freq (baths s (true, d))) (b_temp (baths s (true, d))) = Ok n ->
  let s' := run nB s [:: SetSystem C d y; SetOp d m; SetRate d r] in
  rateIn (s_free (syss s y)) d s' = Some 0 /\ rateNow nB d s' = Ok (r * (n + 1)).
Proof.
move=> hs hd hn; rewrite /run /foldl /step.
have e0 : rateNow nB d s = Ok 0 by rewrite /rateNow hd /= hn /= mul0r.
have [_ h1] := C84_system y hs e0.
set s1 := (setSystem nB d y s).1 in h1 *.
have hs1 : sameRate d s s1 by apply: sameRate_system.
set s2 := (setOp d m s1).1; have hs2 : sameRate d s s2 by apply: sameRate_trans hs1 (sameRate_op _ _ _ _).
split.
  by rewrite (rateIn_rate nB) (rateIn_op nB).
have [g1 g2 g3 g4 _] := setRate_par d r s2; have [b1 _ b3 b4] := hs2.
rewrite /rateNow g1 g2 g3 g4 b1 b3 hd /=; have [-> ->] := b4 (true, d).
by rewrite hn.
Qed.
(** With the rate first, the free evolution gets it. *)
Theorem C84_constructorRateFirst s d y m r n : reachable nB s -> diss s d = newDis C d ->
  nB (b_freq (baths s (true, d))) (b_temp (baths s (true, d))) = Ok n ->
  let s' := run nB s [:: SetRate d r; SetSystem C d y; SetOp d m] in
  rateIn (s_free (syss s y)) d s' = Some (r * (n + 1)) /\ rateNow nB d s' = Ok (r * (n + 1)).
Proof.
move=> hs hd hn; rewrite /run /foldl /step.
set s0 := setRate d r s; have hs0 : reachable nB s0.
  have [dims [free [os e]]] := hs.
  by exists dims, free, (rcons os (SetRate d r)); rewrite /run -cats1 foldl_cat -/(run nB _ os) -e.
have [g1 g2 g3 g4 g5] := setRate_par d r s.
have e0 : rateNow nB d s0 = Ok (r * (n + 1)).
  by rewrite /rateNow /s0 g1 g2 g3 g4 hd /= hn.
have [_ h1] := C84_system y hs0 e0.
rewrite -(g5 y) -/s0; split.
  by rewrite (rateIn_op nB).
rewrite -e0; apply: sameRate_now; exact: sameRate_trans (sameRate_system _ _ _ _ _) (sameRate_op _ _ _ _).
Qed.

(** The operator before the system is an AttributeError; another operator of the same shape, a ValueError that
    changes nothing. *)
Theorem C84_opFirst s d m : d_op (diss s d) = None -> d_sys (diss s d) = None -> (setOp d m s).2 = Err Py.AttributeError.
Proof.
move=> h1 h2; rewrite /setOp /neOp h1 /= /upd eqxx /=; rewrite /makeMat /= /upd eqxx /= h2 //.
Qed.
Theorem C84_opTwice s d m o : d_op (diss s d) = Some o -> rows m = rows o -> cols m = cols o -> (1 < rows m)%N ->
  setOp d m s = (s, Err Py.ValueError).
Proof. by move=> h hr hc h1; rewrite /setOp /neOp h hr hc !eqxx /=; rewrite hr in h1; case: (rows o) h1 => [|[]]. Qed.
(** The first operator after the system is extended with the dimensions around it. *)
Theorem C84_opSet s d y m : d_op (diss s d) = None -> d_mat (diss s d) = None -> d_sys (diss s d) = Some y ->
  (setOp d m s).2 = Ok tt /\
  exists2 A, compositeOp m (s_before (syss s y)) (s_after (syss s y)) = Ok A & d_mat (diss (setOp d m s).1 d) = Some A.
Proof.
move=> h1 h3 h2; rewrite /setOp /neOp h1 /= /upd eqxx /=; rewrite /makeMat /= /upd eqxx /= h2 compositeOpE /= h3 /=.
by split=> //; eexists; first by []; rewrite /upd eqxx.
Qed.

(** A collapse operator is the operator extended with the dimensions of now, or missing, whatever is done after its
    system was given once. *)
Theorem C84_collapse s d y (os : seq (op C)) : d_mat (diss s d) = None -> all (plain d) os ->
  rightMat d (run nB s (SetSystem C d y :: os)).
Proof.
move=> h1 h2; apply: (proj1 (okMat_run nB (s := (setSystem nB d y s).1) h2 _)).
rewrite /setSystem; apply: okMat_addTo; split; first by rewrite /rightMat /= /upd eqxx /= h1.
by rewrite /known /= {1}/upd eqxx /= /upd eqxx /= keyAdd_in eqxx.
Qed.
(** It is missing after the dimensions around the system changed, or its matrices were deleted; the operator cannot
    be given again (C84_opTwice), asking for the matrix brings it back. *)
Theorem C84_lost s d y b a : d_sys (diss s d) = Some y -> known d s ->
  d_mat (diss (setDims y b a s) d) = None /\ d_mat (diss (delMat y s) d) = None /\
  d_op (diss (setDims y b a s) d) = d_op (diss s d).
Proof.
move=> h1; rewrite /known h1 => hk.
have [_ _ ha _] := tellAll_alike (s_bound (syss s y)) (delMat y (setS s y (Sys b a (s_bound (syss s y)) (s_free (syss s y))))).
have [_ _ _ e1 [e2 _ _]] := coreE (ha d).
by rewrite /setDims e2 e1 /= /upd eqxx /= hk.
Qed.
Theorem C84_back s d y m : d_sys (diss s d) = Some y -> d_mat (diss s d) = None -> d_op (diss s d) = Some m ->
  (makeMat d s).2 = Ok tt /\
  exists2 A, compositeOp m (s_before (syss s y)) (s_after (syss s y)) = Ok A & d_mat (diss (makeMat d s).1 d) = Some A.
Proof.
move=> h1 h3 h2; rewrite /makeMat h1 h2 compositeOpE h3 /=; split=> //; eexists; first by []; by rewrite /upd eqxx.
Qed.
(** Asking for it while it is there is a ValueError that changes nothing. *)
Theorem C84_again s d y A : d_sys (diss s d) = Some y -> rightMat d s -> d_mat (diss s d) = Some A -> (1 < rows A)%N ->
  makeMat d s = (s, Err Py.ValueError).
Proof.
move=> h1; rewrite /rightMat => h2 h3; rewrite h3 in h2; case: h2 => m [z [e1]]; rewrite h1 => -[<-] hA h4.
rewrite /makeMat e1 h1 hA h3 /= !eqxx /=; by case: (rows A) h4 => [|[]].
Qed.

(** Giving the same number as operator again changes nothing. *)
Theorem C84_sameNumber s d y m : d_op (diss s d) = None -> d_mat (diss s d) = None -> d_sys (diss s d) = Some y ->
  rows m = 1%N -> cols m = 1%N -> setOp d m (setOp d m s).1 = ((setOp d m s).1, Ok tt).
Proof.
move=> h1 h3 h2 hr hc.
have [A hA] : exists A, compositeOp m (s_before (syss s y)) (s_after (syss s y)) = Ok A by rewrite compositeOpE; eexists.
have -> : (setOp d m s).1 = setD (tellPros (d_bound (diss s d)) (tellPros (d_bound (diss s d)) (setD s d (Dis (d_type (diss s d)) (d_rate (diss s d)) (d_bath (diss s d)) (Some m) (d_mat (diss s d)) true (d_sys (diss s d)) (d_bound (diss s d)))))) d
   (Dis (d_type (diss s d)) (d_rate (diss s d)) (d_bath (diss s d)) (Some m) (Some A) false (Some y) (d_bound (diss s d))).
  by rewrite /setOp /neOp h1 /= /upd eqxx /=; rewrite /makeMat /= /upd eqxx /= h2 hA /= h3.
set s1 := setD _ d _.
have e : diss s1 d = Dis (d_type (diss s d)) (d_rate (diss s d)) (d_bath (diss s d)) (Some m) (Some A) false (Some y) (d_bound (diss s d)).
  by rewrite /s1 /= /upd eqxx.
rewrite /setOp.
have -> : neOp m (d_op (diss s1 d)) = Ok false by rewrite e /neOp /= hr hc !eqxx.
by rewrite e.
Qed.
(** What a protocol hands to the solver: for every dissipator in it, in the same order, the operator extended with
    the dimensions of now, or nothing, and the rate it was given. *)
Theorem C84_handsOver s p i : (i < size (p_dis (pros s p)))%N -> let e := nth (0%N, 0) (p_dis (pros s p)) i in
  [/\ size (collapseOps p s) = size (p_dis (pros s p)), size (decayRates p s) = size (p_dis (pros s p)),
      nth 0 (decayRates p s) i = e.2
    & forall A, rightMat e.1 s -> nth None (collapseOps p s) i = Some A ->
        exists m y, [/\ d_op (diss s e.1) = Some m, d_sys (diss s e.1) = Some y
                     & compositeOp m (s_before (syss s y)) (s_after (syss s y)) = Ok A]].
Proof.
move=> hi e; rewrite /collapseOps /decayRates !size_map; split=> //; first by rewrite (nth_map (0%N, 0)).
by move=> A; rewrite (nth_map (0%N, 0)) // -/e /rightMat => h hA; rewrite hA in h.
Qed.

(** A protocol that has a dissipator is told when its rate, or the temperature or the frequency of a bath it was
    attached to, changes. *)
Theorem C84_toldRate s d p r : reachable nB s -> rateIn p d s <> None -> r != d_rate (diss s d) ->
  p_upd (pros (setRate d r s) p).
Proof.
move=> /reachable_linked [h1 _] /rateIn_mem[e he ed] hr; have hp := h1 _ _ he; rewrite ed in hp.
by rewrite /setRate hr /= hp.
Qed.
Theorem C84_toldBath s d p b t : reachable nB s -> rateIn p d s <> None -> d_bath (diss s d) = (false, b) ->
  (t != b_temp (baths s (false, b)) -> p_upd (pros (setTemp (false, b) t s) p)) /\
  (t != b_freq (baths s (false, b)) -> p_upd (pros (setFreq (false, b) t s) p)).
Proof.
move=> /reachable_linked [h1 h2] /rateIn_mem[e he ed] hb; have hp := h1 _ _ he; rewrite ed in hp.
case: (h2 d); rewrite hb => // hd.
by split=> ht; rewrite /setTemp /setFreq ht; apply: (tellAll_tells hd).
Qed.

(** A bath keeps only the dissipator attached last, but the earlier ones keep the bath and are still told. *)
Theorem C84_lastOnly s b d e : d != e ->
  let s' := attach b e (attach b d s) in
  [/\ b_subs (baths s' b) = [:: e], d_bath (diss s' d) = b, d_bath (diss s' e) = b & d \in b_bound (baths s' b)].
Proof.
by move=> hde; split; rewrite /= /upd ?eqxx ?(negbTE hde) /= ?eqxx ?(negbTE hde) /= ?keyAdd_in ?eqxx ?orbT.
Qed.

(** Rates are never negative when no negative rate or type was set. *)
Theorem C84_nonneg dims free (os : seq (op C)) p d r : (forall w t n, nB w t = Ok n -> 0 <= n) ->
  (forall i, (i < size os)%N -> nonneg (nth (DelMat C 0) os i)) ->
  let s := run nB (start C dims free) os in
  (rateIn p d s = Some r -> 0 <= r) /\ (rateNow nB d s = Ok r -> 0 <= r).
Proof.
move=> hn hos s; have hp : posi s.
  apply: posi_run => //; split=> //= ? /=; by rewrite ?lerr ?ler01.
split=> [/rateIn_some|]; first exact: (proj2 hp).
have [h1 h2] := proj1 hp d; rewrite /rateNow; case e : (nB _ _) => [n|] //= [<-].
by apply: mulr_ge0 => //; apply: addr_ge0 => //; apply: hn e.
Qed.

Lemma ownBath d y s : reachable nB s -> diss s d = newDis C d -> nB (b_freq (baths s (true, d))) (b_temp (baths s (true, d))) = Ok 0 ->
  [/\ rateIn (s_free (syss s y)) d (setSystem nB d y s).1 = Some 0, d_bath (diss (setSystem nB d y s).1 d) = (true, d),
      b_temp (baths (setSystem nB d y s).1 (true, d)) = b_temp (baths s (true, d)) &
      b_bound (baths (setSystem nB d y s).1 (true, d)) = b_bound (baths s (true, d))].
Proof.
move=> hs hd hn; have e0 : rateNow nB d s = Ok 0 by rewrite /rateNow hd /= hn /= mul0r.
have [_ ->] := C84_system y hs e0; have [_ _ -> h] := sameRate_system nB d d y s; have [-> _] := h (true, d).
rewrite hd; split=> //; rewrite /setSystem addTo_baths jRate_state; set s2 := setS _ _ _.
by have [_ _ -> _] := nBar_baths nB (d_bath (diss s2 d)) s2 (true, d).
Qed.
Lemma pdis_create s p q : p_dis (pros (create q s) p) = p_dis (pros s p).
Proof. by rewrite /create /= /upd; case: eqP => [->|]. Qed.
Lemma diss_create s q : diss (create q s) = diss s. Proof. by []. Qed.
Lemma baths_create s q : baths (create q s) = baths s. Proof. by []. Qed.
Lemma untold s b p t : b_bound (baths s b) = [::] -> ~~ p_upd (pros (setTemp b t (create p s)) p).
Proof. by move=> h; rewrite /setTemp baths_create h; case: ifP => _; rewrite /create /= /upd eqxx. Qed.
Lemma stale d y z m s : diss s d = newDis C d -> rightMat d (run nB s [:: SetSystem C d y; SetOp d m; SetSystem C d z]) ->
  (maxn (s_before (syss s y)) 1 * (rows m * maxn (s_after (syss s y)) 1) = maxn (s_before (syss s z)) 1 * (rows m * maxn (s_after (syss s z)) 1))%N.
Proof.
move=> hd; rewrite /run /foldl /step; have [a1 a2 a3 a4] := setSystem_frame nB d y s; rewrite hd in a1 a2.
move: a1 a2 a3 a4; move: (setSystem nB d y s).1 => s1 a1 a2 a3 a4.
have [c1 c2 c3] := setOp_new m a2 a1 a3; move: c1 c2 c3; move: (setOp d m s1).1 => s2 c1 c2 c3.
have [b1 b2 b3 b4] := setSystem_frame nB d z s2.
rewrite /rightMat b1 b2 b3 c1 c2 => -[m' [y' [[<-] [<-]]]].
by have [-> ->] := b4 z; rewrite !c3; have [-> ->] := a4 z; have [-> ->] := a4 y; rewrite compositeOpE => -[->].
Qed.
End C84.

(** ** Cases *)
(** An occupation that is zero without temperature, and an error without frequency. *)
Definition exNB (w t : AC) : result AC := if t == 0 then Ok 0 else if w == 0 then Err Py.ValueError else Ok (t / w).
Definition exDims (y : nat) : nat * nat := (if y == 6%N then (1, 1) else (2, 3))%N.
Definition exFree (y : nat) : nat := y.
Definition exOs : seq (op AC) := [:: SetSystem AC 0 5; SetOp 0 exOp; SetRate 0 2%:R; SetTemp (false, 1%N) 3%:R; Attach AC (false, 1%N) 0; AddTo AC 0 7].
Definition exS := run exNB (start AC exDims exFree) exOs.
Lemma exReach os : reachable exNB (run exNB (start AC exDims exFree) os). Proof. by exists exDims, exFree, os. Qed.
Lemma exNB0 : exNB 1 0 = Ok 0. Proof. by rewrite /exNB eqxx. Qed.
Lemma two0 : (2%:R : AC) != 0. Proof. by rewrite pnatr_eq0. Qed.
Lemma three0 : (3%:R : AC) != 0. Proof. by rewrite pnatr_eq0. Qed.

(** The free evolution does not follow the dissipator: the keywords as in the tutorial. *)
Theorem C84_follows_refuted : ~ (forall (s : st AC) p d r, reachable exNB s -> rateIn p d s = Some r -> rateNow exNB d s = Ok r).
Proof.
move=> h; have [] := C84_constructor (s := start AC exDims exFree) (d := 0) 5 exOp 2%:R (exReach [::]) erefl exNB0.
rewrite /= => h1 h2; move: (h _ _ _ _ (exReach [:: SetSystem AC 0 5; SetOp 0 exOp; SetRate 0 2%:R]) h1).
by rewrite h2 add0r mulr1 => -[] /eqP; rewrite (negbTE two0).
Qed.
(** A change of the temperature of the bath a dissipator is made with is told to no protocol. *)
Theorem C84_toldOwn_refuted : exists s : st AC, [/\ reachable exNB s, rateIn 5 0 s <> None, 3%:R != b_temp (baths s (d_bath (diss s 0%N))) &
  ~~ p_upd (pros (setTemp (d_bath (diss s 0%N)) 3%:R s) 5)].
Proof.
have [e1 e2 e3 e4] := ownBath (s := start AC exDims exFree) (d := 0%N) 5 (exReach [::]) erefl exNB0.
exists (run exNB (start AC exDims exFree) [:: SetSystem AC 0 5; Create AC 5]); split; first exact: exReach.
- by rewrite /run /foldl /step /rateIn pdis_create -/(rateIn _ _ _) e1.
- by rewrite /run /foldl /step diss_create baths_create e2 e3 three0.
- by rewrite /run /foldl /step diss_create e2; apply: untold; rewrite e4.
Qed.
(** Giving a dissipator another system leaves the matrix of the first. *)
Theorem C84_collapse_refuted : ~ (forall s : st AC, reachable exNB s -> rightMat 0 s).
Proof.
move=> h; by have /eqP := stale (s := start AC exDims exFree) (nB := exNB) (d := 0%N) (y := 5%N) (z := 6%N) (m := exOp) erefl (h _ (exReach _)).
Qed.

(** A dissipator on a bath with a temperature, in a protocol. *)
Definition exT : seq (op AC) := [:: SetTemp (false, 1%N) 3%:R; Attach AC (false, 1%N) 0; SetRate 0 2%:R].
Example C84_ex1 : rateNow exNB 0 (run exNB (start AC exDims exFree) exT) = Ok (2%:R * (3%:R / 1 + 1)).
Proof.
rewrite /exT /run /foldl /step; set s2 := attach _ _ _.
have [g1 g2 g3 g4 _] := setRate_par 0 2%:R s2; rewrite /rateNow g1 g2 g3 g4 /s2 /setTemp /= three0 /=.
by rewrite /exNB (negbTE three0) oner_eq0.
Qed.
Example C84_ex2 : let s := run exNB (start AC exDims exFree) (exT ++ [:: AddTo AC 0 7]) in
  [/\ reachable exNB s, rateIn 7 0 s <> None, d_bath (diss s 0%N) = (false, 1%N), 5%:R != d_rate (diss s 0%N) & 5%:R != b_temp (baths s (false, 1%N))].
Proof.
move=> s; have [_ hr] := C84_handed 7 (exReach exT) C84_ex1.
have es : s = (addTo exNB 0 7 (run exNB (start AC exDims exFree) exT)).1 by rewrite /s /run foldl_cat.
have [_ r1 r2 r3] := sameRate_addTo exNB 0 0 7 (run exNB (start AC exDims exFree) exT).
have [r4 _] := r3 (false, 1%N); rewrite -es in hr r1 r2 r4.
have [g1 g2 g3 g4 _] := setRate_par 0 2%:R (attach (false, 1%N) 0 (setTemp (false, 1%N) 3%:R (start AC exDims exFree))).
split; first exact: exReach.
- by rewrite hr.
- by rewrite r2 g3.
- by rewrite r1 g2 eqr_nat.
- by rewrite r4 g4 /setTemp /= three0 /= eqr_nat.
Qed.
Example C84_ex3 : all (plain 0) [:: SetOp 0 exOp; SetDims AC 5 4 4; MakeMat AC 0] /\ ~~ has (handsTo exFree 7) exOs = false /\
  ~~ has (handsTo exFree 5) [:: SetRate 0 (4%:R : AC); SetDTemp 0 1; AddTo AC 0 7; SetSystem AC 1 6].
Proof. by []. Qed.

Print Assumptions C84_nbar.
Print Assumptions C84_rate.
Print Assumptions C84_rateReads.
Print Assumptions C84_ownTemperature.
Print Assumptions C84_handed.
Print Assumptions C84_sameNumber.
Print Assumptions C84_handsOver.
Print Assumptions C84_notHanded.
Print Assumptions C84_system.
Print Assumptions C84_kept.
Print Assumptions C84_constructor.
Print Assumptions C84_constructorRateFirst.
Print Assumptions C84_opFirst.
Print Assumptions C84_opTwice.
Print Assumptions C84_opSet.
Print Assumptions C84_collapse.
Print Assumptions C84_lost.
Print Assumptions C84_back.
Print Assumptions C84_again.
Print Assumptions C84_toldRate.
Print Assumptions C84_toldBath.
Print Assumptions C84_lastOnly.
Print Assumptions C84_nonneg.
Print Assumptions C84_follows_refuted.
Print Assumptions C84_toldOwn_refuted.
Print Assumptions C84_collapse_refuted.
