(** Lemmas for EnvModel.v. *)
From mathcomp Require Import all_ssreflect all_algebra.
From Verif Require Py.
From Verif Require Import MatModel OperModel MatLib MatSpec MatProofs EnvModel EnvSpec.
Set Implicit Arguments.
Unset Strict Implicit.
Unset Printing Implicit Defensive.
Import GRing.Theory Num.Theory.
Local Open Scope ring_scope.

Section Lemmas.
Variable C : numClosedFieldType.
Variable nB : C -> C -> result C.
Implicit Types (s : st C) (d p y : nat) (b : bathId).

(** ** What is told changes flags only *)
Definition core (x : dis C) := (d_type x, d_rate x, d_bath x, d_op x, d_mat x, d_sys x, d_bound x).
(** The same but for flags. *)
Definition alike s s' : Prop :=
  [/\ forall b, baths s' b = baths s b, forall y, syss s' y = syss s y,
      forall d, core (diss s' d) = core (diss s d) & forall p, p_dis (pros s' p) = p_dis (pros s p)].
Lemma alike_refl s : alike s s. Proof. by []. Qed.
Lemma alike_trans s2 s1 s3 : alike s1 s2 -> alike s2 s3 -> alike s1 s3.
Proof.
move=> [a1 a2 a3 a4] [b1 b2 b3 b4]; split=> x; by rewrite ?b1 ?b2 ?b3 ?b4.
Qed.
Lemma tellPros_alike ps s : alike s (tellPros ps s).
Proof. by split=> // p /=; case: ifP. Qed.
Lemma tellDis_alike s d : alike s (tellDis s d).
Proof.
split=> //= [e|p]; last by case: ifP.
by rewrite /upd; case: eqP => [->|].
Qed.
Lemma tellAll_alike ds s : alike s (tellAll ds s).
Proof.
rewrite /tellAll; elim: ds s => [|d ds IH] s; first exact: alike_refl.
by apply: alike_trans (IH _); apply: tellDis_alike.
Qed.

(** ** Baths *)
Definition fresh s : Prop := forall b, ~~ b_upd (baths s b) -> nB (b_freq (baths s b)) (b_temp (baths s b)) = Ok (b_nbar (baths s b)).

Definition rest (x : dis C) := (d_type x, d_rate x, d_bath x, (d_op x, d_sys x, d_bound x)).
Lemma makeMat_frame e s : [/\ forall b, baths (makeMat e s).1 b = baths s b, forall y, syss (makeMat e s).1 y = syss s y,
  forall p, p_dis (pros (makeMat e s).1 p) = p_dis (pros s p), forall d, rest (diss (makeMat e s).1 d) = rest (diss s d) &
  forall d, d != e -> d_mat (diss (makeMat e s).1 d) = d_mat (diss s d)].
Proof.
rewrite /makeMat; case eo : (d_op _) => [m|] //; case es : (d_sys _) => [y|] //; rewrite ?compositeOpE.
case: neOp => [ne|x] //=; split=> //; first by case: (ne).
- by case: (ne).
- by case: (ne) => //= p; case: ifP.
- by case: (ne) => d /=; rewrite /upd; case: eqP => [->|] //; rewrite /rest eo es.
- by case: (ne) => d /negbTE hd /=; rewrite /upd hd.
Qed.
Lemma restE (x x' : dis C) : rest x = rest x' -> [/\ d_type x = d_type x', d_rate x = d_rate x', d_bath x = d_bath x', d_op x = d_op x' &
  d_sys x = d_sys x' /\ d_bound x = d_bound x'].
Proof. by case: x => a1 a2 a3 a4 a5 a6 a7 a8; case: x' => c1 c2 c3 c4 c5 c6 c7 c8 [-> -> -> -> -> ->]. Qed.
Lemma tellAll_setB ds s b x : forall c, baths (tellAll ds (setB s b x)) c = if c == b then x else baths s c.
Proof. by move=> c; have [-> _ _ _] := tellAll_alike ds (setB s b x). Qed.

(** What reading nBar leaves of the bath. *)
Lemma nBar_baths b s : forall c, [/\ b_temp (baths (nBar nB b s).1 c) = b_temp (baths s c), b_freq (baths (nBar nB b s).1 c) = b_freq (baths s c),
   b_bound (baths (nBar nB b s).1 c) = b_bound (baths s c) & b_subs (baths (nBar nB b s).1 c) = b_subs (baths s c)].
Proof.
move=> c; rewrite /nBar; case: ifP => // _; case: (nB _ _) => [n|e] //.
rewrite /= /upd; case: eqP => [->|_] /=; rewrite /setNbar; case: ifP => //= _; rewrite ?tellAll_setB ?eqxx //.
by case: eqP => [->|].
Qed.
Lemma nBar_core b s : (forall d, core (diss (nBar nB b s).1 d) = core (diss s d)) /\
  (forall y, syss (nBar nB b s).1 y = syss s y) /\ (forall p, p_dis (pros (nBar nB b s).1 p) = p_dis (pros s p)).
Proof.
rewrite /nBar; case: ifP => // _; case: (nB _ _) => [n|e] //=; rewrite /setNbar; case: ifP => _ //=.
by have [_ h1 h2 h3] := tellAll_alike (b_bound (baths s b)) (setB s b (Bath (b_temp (baths s b)) (b_freq (baths s b)) n true (b_bound (baths s b)) (b_subs (baths s b)))).
Qed.
Lemma nBar_value b s : fresh s -> (nBar nB b s).2 = nB (b_freq (baths s b)) (b_temp (baths s b)).
Proof.
move=> h; rewrite /nBar; case: ifPn => hu; last by rewrite h.
case: (nB _ _) => [n|e] //=; rewrite /upd eqxx /= /setNbar; case: eqP => [->|_] //=.
by rewrite tellAll_setB eqxx.
Qed.
Lemma nBar_fresh b s : fresh s -> fresh (nBar nB b s).1.
Proof.
move=> h c; have [-> -> _ _] := nBar_baths b s c.
rewrite /nBar; case: ifPn => hu; last exact: h.
case e : (nB _ _) => [n|x] /=; last exact: h.
rewrite /upd; case: eqP => [->|/eqP hc] /=.
  by rewrite e /setNbar; case: eqP => [->|_] //=; rewrite tellAll_setB eqxx.
by rewrite /setNbar; case: ifP => _; rewrite ?tellAll_setB ?(negbTE hc); apply: h.
Qed.

Lemma fresh_baths s s' : (forall b, baths s' b = baths s b) -> fresh s -> fresh s'.
Proof. by move=> e h b; rewrite !e; apply: h. Qed.

Lemma jRate_state d s : (jRate nB d s).1 = (nBar nB (d_bath (diss s d)) s).1.
Proof. by rewrite /jRate; case: (nBar _ _ _).2. Qed.
Lemma jRate_value d s : fresh s -> (jRate nB d s).2 = rateNow nB d s.
Proof. by move=> h; rewrite /jRate /rateNow nBar_value //; case: (nB _ _). Qed.

Lemma addTo_baths d p s : forall c, baths (addTo nB d p s).1 c = baths (jRate nB d s).1 c.
Proof. by move=> c; rewrite /addTo; case: (jRate _ _ _).2. Qed.

Lemma makeMat_baths d s : forall c, baths (makeMat d s).1 c = baths s c.
Proof. by case: (makeMat_frame d s). Qed.
Lemma setOp_baths d m s : forall c, baths (setOp d m s).1 c = baths s c.
Proof.
move=> c; rewrite /setOp; case: neOp => [ne|e] //.
set s1 := if ne then _ else _; have e1 : baths s1 c = baths s c by rewrite /s1; case: (ne).
by case: ifP => _ //; rewrite makeMat_baths.
Qed.

Lemma setB_fresh s b x ds : fresh s -> (b_upd x \/ nB (b_freq x) (b_temp x) = Ok (b_nbar x)) -> fresh (tellAll ds (setB s b x)).
Proof.
move=> h hx c; rewrite tellAll_setB; case: eqP => _; last exact: h.
by case: hx => [->|->].
Qed.
Lemma fresh_step s o : fresh s -> fresh (step nB s o).
Proof.
move=> h; case: o => [b t|b w|b|d t|d r|d t|d|d p|d y|b d|d m|d|y|y b a|p]; rewrite /step.
- by rewrite /setTemp; case: ifP => // _; apply: setB_fresh => //; left.
- by rewrite /setFreq; case: ifP => // _; apply: setB_fresh => //; left.
- exact: nBar_fresh.
- by rewrite /setTemp; case: ifP => // _; apply: setB_fresh => //; left.
- by rewrite /setRate; case: ifP.
- by [].
- by rewrite jRate_state; apply: nBar_fresh.
- by apply: fresh_baths (addTo_baths d p s) _; rewrite jRate_state; apply: nBar_fresh.
- rewrite /setSystem; set s2 := setS _ _ _.
  by apply: fresh_baths (addTo_baths d _ s2) _; rewrite jRate_state; apply: nBar_fresh; apply: fresh_baths h.
- move=> c; have -> : baths (attach b d s) c = (if c == b then Bath (b_temp (baths s b)) (b_freq (baths s b)) (b_nbar (baths s b)) (b_upd (baths s b)) (keyAdd d (b_bound (baths s b))) [:: d] else baths s c) by [].
  by case: (c == b) => /=; apply: h.
- by apply: fresh_baths (setOp_baths d m s) h.
- by apply: fresh_baths (makeMat_baths d s) h.
- by [].
- rewrite /setDims; set s1 := delMat _ _; have [e _ _ _] := tellAll_alike (s_bound (syss s y)) s1.
  exact: fresh_baths e h.
- by [].
Qed.
Lemma fresh_run s os : fresh s -> fresh (run nB s os).
Proof. by elim: os s => //= o os IH s h; apply: IH; apply: fresh_step. Qed.
Lemma fresh_start dims free : fresh (start C dims free). Proof. by []. Qed.
Lemma reachable_fresh s : reachable nB s -> fresh s.
Proof. by move=> [dims [free [os ->]]]; apply: fresh_run; apply: fresh_start. Qed.

(** ** Rates that protocols keep *)
Lemma addTo_dis d p s q : p_dis (pros (addTo nB d p s).1 q) =
  if (jRate nB d s).2 is Ok r then (if q == p then rset (p_dis (pros s p)) d r else p_dis (pros s q)) else p_dis (pros s q).
Proof.
have [_ [_ h]] := nBar_core (d_bath (diss s d)) s.
rewrite /addTo; case e : (jRate nB d s).2 => [r|x] /=; last by rewrite jRate_state h.
by rewrite /upd; case: (q == p) => /=; rewrite jRate_state h.
Qed.
Lemma addTo_free d p s y : s_free (syss (addTo nB d p s).1 y) = s_free (syss s y).
Proof.
have [_ [h _]] := nBar_core (d_bath (diss s d)) s.
by rewrite /addTo; case: (jRate nB d s).2 => [r|x] /=; rewrite jRate_state h.
Qed.
Lemma setSystem_dis d y s q : q != s_free (syss s y) -> p_dis (pros (setSystem nB d y s).1 q) = p_dis (pros s q).
Proof. by move=> hq; rewrite /setSystem addTo_dis; case: (jRate _ _ _).2 => // r; rewrite (negbTE hq). Qed.

Lemma step_free s o y : s_free (syss (step nB s o) y) = s_free (syss s y).
Proof.
have ta ds s1 : s_free (syss (tellAll ds s1) y) = s_free (syss s1 y) by have [_ -> _ _] := tellAll_alike ds s1.
have nb b : s_free (syss (nBar nB b s).1 y) = s_free (syss s y) by have [_ [-> _]] := nBar_core b s.
case: o => [b t|b w|b|d t|d r|d t|d|d p|d z|b d|d m|d|z|z b a|p] //; rewrite /step.
- by rewrite /setTemp; case: ifP => // _; rewrite ta.
- by rewrite /setFreq; case: ifP => // _; rewrite ta.
- exact: nb.
- by rewrite /setTemp; case: ifP => // _; rewrite ta.
- by rewrite /setRate; case: ifP.
- by rewrite jRate_state.
- exact: addTo_free.
- by rewrite /setSystem addTo_free /= /upd; case: eqP => [->|].
- rewrite /setOp; case: neOp => [ne|e] //.
  set s1 := if ne then _ else _; have e1 : syss s1 y = syss s y by rewrite /s1; case: (ne).
  by case: ifP => _; rewrite ?e1 //; have [_ -> _ _ _] := makeMat_frame d s1; rewrite e1.
- by have [_ -> _ _ _] := makeMat_frame d s.
- by rewrite /setDims ta /= /upd; case: eqP => [->|].
Qed.

Lemma step_dis s o p : (forall y, s_free (syss s y) = p -> ~~ (if o is SetSystem _ z then z == y else false)) ->
  ~~ (if o is AddTo _ q then q == p else false) -> p_dis (pros (step nB s o) p) = p_dis (pros s p).
Proof.
have ta ds s1 : p_dis (pros (tellAll ds s1) p) = p_dis (pros s1 p) by have [_ _ _ ->] := tellAll_alike ds s1.
have nb b : p_dis (pros (nBar nB b s).1 p) = p_dis (pros s p) by have [_ [_ ->]] := nBar_core b s.
case: o => [b t|b w|b|d t|d r|d t|d|d q|d z|b d|d m|d|z|z b a|q] //; rewrite /step.
- by move=> _ _; rewrite /setTemp; case: ifP => // _; rewrite ta.
- by move=> _ _; rewrite /setFreq; case: ifP => // _; rewrite ta.
- by move=> _ _; apply: nb.
- by move=> _ _; rewrite /setTemp; case: ifP => // _; rewrite ta.
- by move=> _ _; rewrite /setRate; case: ifP => //= _; case: ifP.
- by move=> _ _; rewrite jRate_state.
- by move=> _ hq; rewrite addTo_dis; case: (jRate _ _ _).2 => // r; rewrite eq_sym (negbTE hq).
- by move=> hz _; rewrite setSystem_dis //; apply/eqP => e; have := hz z (esym e); rewrite eqxx.
- move=> _ _; rewrite /setOp; case: neOp => [ne|e] //.
  set s1 := if ne then _ else _; have e1 : p_dis (pros s1 p) = p_dis (pros s p) by rewrite /s1; case: (ne) => //=; case: ifP.
  by case: ifP => _; rewrite ?e1 //; have [_ _ -> _ _] := makeMat_frame d s1; rewrite e1.
- by move=> _ _; have [_ _ -> _ _] := makeMat_frame d s.
- by move=> _ _; rewrite /setDims ta.
- by move=> _ _; rewrite /create /= /upd; case: eqP => [->|].
Qed.

(** ** Collapse operators *)
Lemma coreE (x x' : dis C) : core x = core x' -> [/\ d_type x = d_type x', d_rate x = d_rate x', d_bath x = d_bath x', d_op x = d_op x' &
  [/\ d_mat x = d_mat x', d_sys x = d_sys x' & d_bound x = d_bound x']].
Proof. by case: x => a1 a2 a3 a4 a5 a6 a7 a8; case: x' => c1 c2 c3 c4 c5 c6 c7 c8 /= [-> -> -> -> -> -> ->]. Qed.
Definition okMat d s := rightMat d s /\ known d s.
Lemma okMat_core d s s' : core (diss s' d) = core (diss s d) -> (forall y, syss s' y = syss s y) -> okMat d s -> okMat d s'.
Proof.
move=> /coreE[_ _ _ e1 [e2 e3 _]] e [h1 h2]; split.
  move: h1; rewrite /rightMat e2; case: (d_mat _) => // A [m [y [a1 a2 a3]]]; exists m, y.
  by rewrite e1 e3 e.
by move: h2; rewrite /known e3; case: (d_sys _) => // y; rewrite e.
Qed.
Lemma okMat_dis d s s' : diss s' d = diss s d -> (forall y, syss s' y = syss s y) -> okMat d s -> okMat d s'.
Proof. by move=> e; apply: okMat_core; rewrite e. Qed.
(** Everything of the dissipator that matters here. *)
Lemma okMat_part d s s' : d_op (diss s' d) = d_op (diss s d) -> d_mat (diss s' d) = d_mat (diss s d) -> d_sys (diss s' d) = d_sys (diss s d) ->
  (forall y, syss s' y = syss s y) -> okMat d s -> okMat d s'.
Proof.
move=> e1 e2 e3 e [h1 h2]; split.
  by move: h1; rewrite /rightMat e2; case: (d_mat _) => // A [m [y [a1 a2 a3]]]; exists m, y; rewrite e1 e3 e.
by move: h2; rewrite /known e3; case: (d_sys _) => // y; rewrite e.
Qed.
Lemma okMat_make d e s : okMat d s -> okMat d (makeMat e s).1.
Proof.
move=> h; have [_ f2 _ f4 f5] := makeMat_frame e s; have [_ _ _ r1 [r2 _]] := restE (f4 d).
have [ed|ne] := eqVneq d e; last by apply: okMat_part h => //; apply: f5.
case: h => h1 h2; split; last by move: h2; rewrite /known r2; case: (d_sys _) => // y; rewrite f2.
subst e; move: h1; rewrite /rightMat r1 r2 /makeMat; case eo : (d_op _) => [m|]; case es : (d_sys _) => [y|] h1 //.
rewrite compositeOpE; case en : neOp => [nq|x] //=; rewrite /upd eqxx /=.
case: nq en => [_|en]; first by exists m, y; rewrite compositeOpE.
move: h1; case em : (d_mat _) => [A|] // [m' [y' [[<-] [<-] h]]]; by exists m, y.
Qed.
Lemma okMat_makeNew d m y s : known d s -> d_op (diss s d) = Some m -> d_sys (diss s d) = Some y ->
  (d_mat (diss s d) = None \/ exists o B, [/\ d_mat (diss s d) = Some B, compositeOp o (s_before (syss s y)) (s_after (syss s y)) = Ok B &
    (rows m != rows o) || (cols m != cols o)]) -> okMat d (makeMat d s).1.
Proof.
move=> h2 eo es h; have [_ f2 _ f4 f5] := makeMat_frame d s; have [_ _ _ r1 [r2 _]] := restE (f4 d).
split; last by move: h2; rewrite /known r2; case: (d_sys _) => // z; rewrite f2.
rewrite /rightMat r1 r2 /makeMat eo es compositeOpE.
have -> : forall A, A = kron (idm C (maxn (s_before (syss s y)) 1)) (kron m (idm C (maxn (s_after (syss s y)) 1))) -> neOp A (d_mat (diss s d)) = Ok true.
  move=> A ->; case: h => [->|[o [B [-> ]]]] //; rewrite compositeOpE => -[<-] /=.
  by rewrite !eqn_mul2l !eqn_mul2r; case: (s_before _) => [|?]; case: (s_after _) => [|?] => /= ->.
- by rewrite /= /upd eqxx /=; exists m, y; rewrite compositeOpE; case: (syss _ _).
- by [].
Qed.
Lemma ok_nosys d s : rightMat d s -> d_sys (diss s d) = None -> d_mat (diss s d) = None.
Proof. by rewrite /rightMat; case: (d_mat _) => // A [m [y [_ -> _]]]. Qed.

Lemma keyAdd_in (x z : nat) l : (x \in keyAdd z l) = (x == z) || (x \in l).
Proof. by rewrite /keyAdd; case: ifP => h; rewrite ?mem_rcons ?inE //; case: eqP => // ->; rewrite h. Qed.

Lemma okMat_sysBound d s y x : s_before x = s_before (syss s y) -> s_after x = s_after (syss s y) ->
  {subset s_bound (syss s y) <= s_bound x} -> okMat d s -> okMat d (setS s y x).
Proof.
move=> e1 e2 e3 [h1 h2]; split.
  move: h1; rewrite /rightMat /=; case: (d_mat _) => // A [m [z [a1 a2 a3]]]; exists m, z; split=> //.
  by rewrite /upd; case: eqP => [ez|] //; rewrite e1 e2 -ez.
by move: h2; rewrite /known /=; case: (d_sys _) => // z; rewrite /upd; case: eqP => [->|] //; apply: e3.
Qed.
Lemma okMat_addTo d e p s : okMat d s -> okMat d (addTo nB e p s).1.
Proof.
move=> h; rewrite /addTo; have h1 : okMat d (jRate nB e s).1.
  have [a1 [a2 _]] := nBar_core (d_bath (diss s e)) s.
  by rewrite jRate_state; apply: okMat_core (a1 d) a2 h.
case: (jRate nB e s).2 => [r|x] //.
by apply: okMat_part h1 => //=; rewrite /upd; case: eqP => [->|].
Qed.
Lemma okMat_step d s o : plain d o -> okMat d s -> okMat d (step nB s o).
Proof.
have ta ds s1 : okMat d s1 -> okMat d (tellAll ds s1) by move=> h1; have [_ a1 a2 _] := tellAll_alike ds s1; apply: okMat_core (a2 d) a1 h1.
have nb b : okMat d s -> okMat d (nBar nB b s).1 by move=> h1; have [a1 [a2 _]] := nBar_core b s; apply: okMat_core (a1 d) a2 h1.
have tp ps s1 : okMat d s1 -> okMat d (tellPros ps s1) by apply: okMat_part.
have sd e x : d_op x = d_op (diss s e) -> d_mat x = d_mat (diss s e) -> d_sys x = d_sys (diss s e) -> okMat d s -> okMat d (setD s e x).
  by move=> e1 e2 e3; apply: okMat_part => //=; rewrite /upd; case: eqP => [->|].
case: o => [b t|b w|b|e t|e r|e t|e|e q|e z|b e|e m|e|z|z b a|q] ho h; rewrite /step.
- by rewrite /setTemp; case: ifP => // _; apply: ta.
- by rewrite /setFreq; case: ifP => // _; apply: ta.
- exact: nb.
- by rewrite /setTemp; case: ifP => // _; apply: ta.
- by rewrite /setRate; case: ifP => // _; apply: tp; apply: sd.
- exact: sd.
- by rewrite jRate_state; apply: nb.
- exact: okMat_addTo.
- apply: okMat_addTo; apply: okMat_sysBound => //=; first by move=> x hx; rewrite keyAdd_in hx orbT.
  by apply: okMat_part h => //=; rewrite /upd; move: ho; rewrite /plain eq_sym => /negbTE ->.
- by apply: okMat_part h => //=; rewrite /upd; case: eqP => [->|].
- rewrite /setOp; case en : neOp => [ne|x] //; set s1 := if ne then _ else _.
  case: ifPn => hu; last first.
    have -> // : s1 = s by move: hu; rewrite /s1; case: (ne) => //=; rewrite /upd eqxx.
  case: ne en @s1 hu => en s1 hu; last exact: okMat_make.
  have [ed|hne] := eqVneq e d; last first.
    by apply: okMat_make; apply: tp; apply: okMat_part h => //=; rewrite /upd eq_sym (negbTE hne).
  subst e; case: h => h1 h2.
  have k1 : known d s1 by move: h2; rewrite /s1 /known /= /upd eqxx.
  case es : (d_sys (diss s d)) => [y|]; last first.
    have -> : (makeMat d s1).1 = s1 by rewrite /makeMat /s1 /= /upd eqxx /= es.
    split=> //; rewrite /rightMat /s1 /= /upd eqxx /=.
    by rewrite (ok_nosys h1 es).
  apply: (okMat_makeNew (m := m) (y := y)) => //; rewrite /s1 /= /upd ?eqxx //=.
  move: h1 en; rewrite /rightMat; case em : (d_mat _) => [A|]; last by left.
  move=> [m' [y' [eo]]]; rewrite es => -[<-] hA; rewrite /neOp eo; case: ifP => [hs _|hs]; first by right; exists m', A.
  by move: ho; rewrite /plain eqxx /= => ho; case: ifP => // /andP[/eqP h1]; rewrite h1 in ho.
- exact: okMat_make.
- case: h => h1 h2; split.
    move: h1; rewrite /rightMat /delMat /=; case: ifP => //= hb.
  by move: h2; rewrite /known /delMat /=; case: ifP.
- rewrite /setDims; apply: ta; case: h => h1 h2; split.
    rewrite /rightMat /delMat /= /upd eqxx /=; case: ifP => //= hb.
    move: h1; rewrite /rightMat; case: (d_mat _) => // A [m [y [a1 a2 a3]]]; exists m, y; split=> //.
    by case: eqP => [ez|] //; move: h2; rewrite /known a2 ez hb.
  move: h2; rewrite /known /delMat /= /upd eqxx /=; case: ifP => hb /=; case: (d_sys _) => // y; by case: eqP => [->|].
- by apply: okMat_part h.
Qed.
Lemma okMat_run d s os : all (plain d) os -> okMat d s -> okMat d (run nB s os).
Proof.
elim: os s => //= o os IH s /andP[h1 h2] h; apply: IH => //; exact: okMat_step.
Qed.

(** ** Rates are not negative *)
Definition posi s : Prop := (forall d, 0 <= d_rate (diss s d) /\ 0 <= d_type (diss s d)) /\
  (forall p e, e \in p_dis (pros s p) -> 0 <= e.2).
Hypothesis nBpos : forall w t n, nB w t = Ok n -> 0 <= n.
Lemma posi_core s s' : (forall d, core (diss s' d) = core (diss s d)) -> (forall p, p_dis (pros s' p) = p_dis (pros s p)) -> posi s -> posi s'.
Proof.
move=> e1 e2 [h1 h2]; split=> [d|p e]; last by rewrite e2; apply: h2.
by have [-> -> _ _ _] := coreE (e1 d); apply: h1.
Qed.
Lemma posi_part s s' : (forall d, d_rate (diss s' d) = d_rate (diss s d)) -> (forall d, d_type (diss s' d) = d_type (diss s d)) ->
  (forall p, p_dis (pros s' p) = p_dis (pros s p)) -> posi s -> posi s'.
Proof.
move=> e1 e2 e3 [h1 h2]; split=> [d|p e]; last by rewrite e3; apply: h2.
by rewrite e1 e2; apply: h1.
Qed.
Lemma posi_addTo d p s : fresh s -> posi s -> posi (addTo nB d p s).1.
Proof.
move=> hf h; have [a1 [_ a2]] := nBar_core (d_bath (diss s d)) s.
have h1 : posi (jRate nB d s).1 by rewrite jRate_state; apply: posi_core h.
have hv := jRate_value d hf.
rewrite /addTo; case e : (jRate nB d s).2 => [r|x] //; split.
  by move=> q /=; rewrite /upd; case: (q == d) => /=; apply: (proj1 h1).
move=> q x /=; rewrite /upd; case: eqP => [_|_] /=; last exact: (proj2 h1).
have hr : 0 <= r.
  move: hv; rewrite e /rateNow; case en : (nB _ _) => [n|] //= [->].
  by have [b1 b2] := proj1 h d; apply: mulr_ge0 => //; apply: addr_ge0 => //; apply: nBpos en.
rewrite /rset; case: ifP => _.
  by move=> /mapP[z hz ->]; case: eqP => //= _; apply: (proj2 h1) hz.
by rewrite mem_rcons inE => /orP[/eqP->|] //; apply: (proj2 h1).
Qed.
Lemma posi_step s o : nonneg o -> fresh s -> posi s -> posi (step nB s o).
Proof.
move=> ho hf h.
have ta ds s1 : posi s1 -> posi (tellAll ds s1) by move=> h1; have [_ _ a2 a3] := tellAll_alike ds s1; apply: posi_core a2 a3 h1.
have nb b : posi (nBar nB b s).1 by have [a1 [_ a2]] := nBar_core b s; apply: posi_core a1 a2 h.
have tp ps s1 : posi s1 -> posi (tellPros ps s1) by apply: posi_part => // p /=; case: ifP.
have mm e s1 : posi s1 -> posi (makeMat e s1).1.
  by have [_ _ f3 f4 _] := makeMat_frame e s1; apply: posi_part => // x; case: (restE (f4 x)).
case: o ho => [b t|b w|b|e t|e r|e t|e|e q|e z|b e|e m|e|z|z b a|q] ho; rewrite /step.
- by rewrite /setTemp; case: ifP => // _; apply: ta.
- by rewrite /setFreq; case: ifP => // _; apply: ta.
- exact: nb.
- by rewrite /setTemp; case: ifP => // _; apply: ta.
- rewrite /setRate; case: ifP => // _; apply: tp; case: h => h1 h2; split=> //= d.
  by rewrite /upd; case: eqP => //= _; split=> //; case: (h1 e).
- case: h => h1 h2; split=> //= d.
  by rewrite /upd; case: eqP => //= _; split=> //; case: (h1 e).
- by rewrite jRate_state; apply: nb.
- exact: posi_addTo.
- apply: posi_addTo => //; apply: posi_part h => //= d; by rewrite /upd; case: eqP => [->|].
- by apply: posi_part h => //= d; rewrite /upd; case: eqP => [->|].
- rewrite /setOp; case: neOp => [ne|x] //.
  set s1 := if ne then _ else _; have h1 : posi s1.
    rewrite /s1; case: (ne) => //; apply: tp; apply: posi_part h => //= d; by rewrite /upd; case: eqP => [->|].
  by case: ifP => _ //; apply: mm.
- exact: mm.
- by apply: posi_part h => //= d; case: ifP.
- by rewrite /setDims; apply: ta; apply: posi_part h => //= d; case: ifP.
- by apply: posi_part h => //= p; rewrite /upd; case: eqP => [->|].
Qed.
Lemma posi_run s os : (forall i, (i < size os)%N -> nonneg (nth (DelMat C 0) os i)) -> fresh s -> posi s -> posi (run nB s os).
Proof.
elim: os s => //= o os IH s ho hf h; apply: IH; first by move=> i hi; apply: (ho i.+1).
  exact: fresh_step.
by apply: posi_step => //; apply: (ho 0%N).
Qed.

(** ** Who is told *)
Definition linked s : Prop := (forall p e, e \in p_dis (pros s p) -> p \in d_bound (diss s e.1)) /\
  (forall d, d_bath (diss s d) = (true, d) \/ d \in b_bound (baths s (d_bath (diss s d)))).
Lemma linked_mono s s' : (forall d, {subset d_bound (diss s d) <= d_bound (diss s' d)}) -> (forall d, d_bath (diss s' d) = d_bath (diss s d)) ->
  (forall b, b_bound (baths s' b) = b_bound (baths s b)) -> (forall p, p_dis (pros s' p) = p_dis (pros s p)) -> linked s -> linked s'.
Proof.
move=> e1 e2 e3 e4 [h1 h2]; split=> [p e|d]; first by rewrite e4 => /h1 /e1.
by rewrite e2 e3; apply: h2.
Qed.
Lemma linked_eq s s' : (forall d, d_bound (diss s' d) = d_bound (diss s d)) -> (forall d, d_bath (diss s' d) = d_bath (diss s d)) ->
  (forall b, b_bound (baths s' b) = b_bound (baths s b)) -> (forall p, p_dis (pros s' p) = p_dis (pros s p)) -> linked s -> linked s'.
Proof. by move=> e1; apply: linked_mono => d x; rewrite e1. Qed.
Lemma linked_alike s s' : alike s s' -> linked s -> linked s'.
Proof.
move=> [a1 _ a3 a4]; apply: linked_eq => // [d|d|b]; last by rewrite a1.
- by have [_ _ _ _ [_ _ ->]] := coreE (a3 d).
- by have [_ _ -> _ _] := coreE (a3 d).
Qed.
Lemma linked_nBar b s : linked s -> linked (nBar nB b s).1.
Proof.
have [a1 [_ a2]] := nBar_core b s; apply: linked_eq => // [d|d|c].
- by have [_ _ _ _ [_ _ ->]] := coreE (a1 d).
- by have [_ _ -> _ _] := coreE (a1 d).
- by have [_ _ -> _] := nBar_baths b s c.
Qed.
Lemma linked_addTo d p s : linked s -> linked (addTo nB d p s).1.
Proof.
move=> h; have h1 : linked (jRate nB d s).1 by rewrite jRate_state; apply: linked_nBar.
rewrite /addTo; case: (jRate nB d s).2 => [r|x] //; case: h1 => a1 a2; split.
  move=> q e /=.
  have H z : z \in (if q == p then rset (p_dis (pros (jRate nB d s).1 p)) d r else p_dis (pros (jRate nB d s).1 q)) -> (q = p /\ z.1 = d) \/ z \in p_dis (pros (jRate nB d s).1 q).
    case: eqP => [->|_]; last by right.
    rewrite /rset; case: ifP => _.
      by move=> /mapP[x hx ->]; case: eqP => _; [left|right].
    by rewrite mem_rcons inE => /orP[/eqP ->|]; [left|right].
  have -> : p_dis (upd (pros (jRate nB d s).1) p (Pro (rset (p_dis (pros (jRate nB d s).1 p)) d r) (p_upd (pros (jRate nB d s).1 p))) q) =
     if q == p then rset (p_dis (pros (jRate nB d s).1 p)) d r else p_dis (pros (jRate nB d s).1 q) by rewrite /upd; case: (q == p).
  move=> /H[[-> ->]|hz]; rewrite /upd; first by rewrite eqxx /= keyAdd_in eqxx.
  have := a1 _ _ hz; case: eqP => [->|_] //= hq; by rewrite keyAdd_in hq orbT.
by move=> e /=; rewrite /upd; case: eqP => [->|_] /=; apply: a2.
Qed.
Lemma linked_step s o : linked s -> linked (step nB s o).
Proof.
move=> h.
have ta ds s1 : linked s1 -> linked (tellAll ds s1) by apply: linked_alike; apply: tellAll_alike.
have tp ps s1 : linked s1 -> linked (tellPros ps s1) by apply: linked_alike; apply: tellPros_alike.
have sb b x : b_bound x = b_bound (baths s b) -> linked (setB s b x).
  move=> e; apply: linked_eq h => // c /=; rewrite /upd; case: ifP => // /eqP ->; exact: e.
have mm e s1 : linked s1 -> linked (makeMat e s1).1.
  have [f1 _ f3 f4 _] := makeMat_frame e s1; by apply: linked_eq => // x; rewrite ?f1 //; case: (restE (f4 x)) => // _ _ _ _ [].
case: o => [b t|b w|b|e t|e r|e t|e|e q|e z|b e|e m|e|z|z b a|q]; rewrite /step.
- by rewrite /setTemp; case: ifP => // _; apply: ta; apply: sb.
- by rewrite /setFreq; case: ifP => // _; apply: ta; apply: sb.
- exact: linked_nBar.
- by rewrite /setTemp; case: ifP => // _; apply: ta; apply: sb.
- by rewrite /setRate; case: ifP => // _; apply: tp; apply: linked_eq h => //= d; rewrite /upd; case: eqP => [->|].
- by apply: linked_eq h => //= d; rewrite /upd; case: eqP => [->|].
- by rewrite jRate_state; apply: linked_nBar.
- exact: linked_addTo.
- by apply: linked_addTo; apply: linked_eq h => //= d; rewrite /upd; case: eqP => [->|].
- case: h => h1 h2; split=> [p x|d].
    by move=> /h1; rewrite /= /upd; case: eqP => [->|].
  rewrite /attach /=; have -> : d_bath (upd (diss s) e (Dis (d_type (diss s e)) (d_rate (diss s e)) b (d_op (diss s e)) (d_mat (diss s e)) (d_upd (diss s e)) (d_sys (diss s e)) (d_bound (diss s e))) d)
     = if d == e then b else d_bath (diss s d) by rewrite /upd; case: (d == e).
  have hb c : {subset b_bound (baths s c) <= b_bound (upd (baths s) b (Bath (b_temp (baths s b)) (b_freq (baths s b)) (b_nbar (baths s b)) (b_upd (baths s b)) (keyAdd e (b_bound (baths s b))) [:: e]) c)}.
    by move=> x hx; rewrite /upd; have [ec|_] := eqVneq c b; rewrite //= keyAdd_in -ec hx orbT.
  case: eqP => [->|_]; first by right; rewrite /upd eqxx /= keyAdd_in eqxx.
  by case: (h2 d) => [|hd]; [left | right; apply: hb].
- rewrite /setOp; case: neOp => [ne|x] //.
  set s1 := if ne then _ else _; have h1 : linked s1.
    by rewrite /s1; case: (ne) => //; apply: tp; apply: linked_eq h => //= d; rewrite /upd; case: eqP => [->|].
  by case: ifP => _ //; apply: mm.
- exact: mm.
- by apply: linked_eq h => //= d; case: ifP.
- by rewrite /setDims; apply: ta; apply: linked_eq h => //= d; case: ifP.
- by apply: linked_eq h => //= p; rewrite /upd; case: eqP => [->|].
Qed.
Lemma linked_run s os : linked s -> linked (run nB s os).
Proof. by elim: os s => //= o os IH s h; apply: IH; apply: linked_step. Qed.
Lemma reachable_linked s : reachable nB s -> linked s.
Proof. by move=> [dims [free [os ->]]]; apply: linked_run; split=> // d; left. Qed.

Lemma tellDis_keeps s d p : p_upd (pros s p) -> p_upd (pros (tellDis s d) p).
Proof. by move=> h /=; case: ifP. Qed.
Lemma tellAll_keeps ds s p : p_upd (pros s p) -> p_upd (pros (tellAll ds s) p).
Proof. by rewrite /tellAll; elim: ds s => //= d ds IH s h; apply: IH; apply: tellDis_keeps. Qed.
Lemma tellAll_tells ds s d p : d \in ds -> p \in d_bound (diss s d) -> p_upd (pros (tellAll ds s) p).
Proof.
rewrite /tellAll; elim: ds s => //= e ds IH s; rewrite inE => /orP[/eqP <-|hd] hp.
  by apply: tellAll_keeps; rewrite /= hp.
apply: IH => //; have [_ _ a _] := tellDis_alike s e; by have [_ _ _ _ [_ _ ->]] := coreE (a d).
Qed.
Lemma map_get (l : seq (nat * C)) d r e : omap snd (ohead [seq x <- [seq if x.1 == d then (d, r) else x | x <- l] | x.1 == e]) =
  if (e == d) && (d \in map fst l) then Some r else omap snd (ohead [seq x <- l | x.1 == e]).
Proof.
elim: l => [|[k v] l IH]; first by rewrite /= andbF.
rewrite /= inE; have [->|nk] := eqVneq k d => /=.
  rewrite andbT (eq_sym e d); have [_|ne] := eqVneq d e => //=.
  by rewrite IH (eq_sym e d) (negbTE ne).
have [<-|ne] := eqVneq k e => /=; first by rewrite (negbTE nk).
by rewrite IH.
Qed.
Lemma rset_get l d (r : C) e : omap snd (ohead [seq x <- rset l d r | x.1 == e]) =
  if e == d then Some r else omap snd (ohead [seq x <- l | x.1 == e]).
Proof.
rewrite /rset; case: ifP => hd; first by rewrite map_get hd andbT.
rewrite -cats1 filter_cat /= (eq_sym d e); have [->|_] := eqVneq e d; last by rewrite cats0.
rewrite (_ : [seq x <- l | x.1 == d] = [::]) //; apply/eqP; rewrite -(negbK (_ == _)) -has_filter; apply/negP=> /hasP[x hx /eqP ex].
by move/negP: hd; apply; rewrite -ex; apply: map_f.
Qed.

(** ** What a rate depends on *)
Definition sameRate (d : nat) s s' : Prop :=
  [/\ d_type (diss s' d) = d_type (diss s d), d_rate (diss s' d) = d_rate (diss s d), d_bath (diss s' d) = d_bath (diss s d) &
      forall b, b_temp (baths s' b) = b_temp (baths s b) /\ b_freq (baths s' b) = b_freq (baths s b)].
Lemma sameRate_trans d s2 s1 s3 : sameRate d s1 s2 -> sameRate d s2 s3 -> sameRate d s1 s3.
Proof. by move=> [e1 e2 e3 h] [f1 f2 f3 h']; split; rewrite ?f1 ?f2 ?f3 // => b; have [-> ->] := h' b. Qed.
Lemma sameRate_now d s s' : sameRate d s s' -> rateNow nB d s' = rateNow nB d s.
Proof. by move=> [h1 h2 h3 h4]; rewrite /rateNow h1 h2 h3; have [-> ->] := h4 (d_bath (diss s d)). Qed.
Lemma sameRate_alike d s s' : alike s s' -> sameRate d s s'.
Proof. by move=> [h1 _ h2 _]; have [e1 e2 e3 _ _] := coreE (h2 d); split=> // b; rewrite h1. Qed.
Lemma sameRate_nBar d b s : sameRate d s (nBar nB b s).1.
Proof.
have [h1 _] := nBar_core b s; have [e1 e2 e3 _ _] := coreE (h1 d); split=> // c.
by have [-> -> _ _] := nBar_baths b s c.
Qed.
Lemma sameRate_addTo d e p s : sameRate d s (addTo nB e p s).1.
Proof.
have h : sameRate d s (jRate nB e s).1 by rewrite jRate_state; apply: sameRate_nBar.
rewrite /addTo; case: (jRate nB e s).2 => [r|x] //; apply: sameRate_trans h _.
by split=> //=; rewrite /upd; case: eqP => [->|].
Qed.
Lemma sameRate_system d e y s : sameRate d s (setSystem nB e y s).1.
Proof.
rewrite /setSystem; apply: sameRate_trans (sameRate_addTo _ _ _ _).
by split=> //=; rewrite /upd; case: eqP => [->|].
Qed.
Lemma sameRate_make d e s : sameRate d s (makeMat e s).1.
Proof. by have [f1 _ _ f4 _] := makeMat_frame e s; have [h1 h2 h3 _ _] := restE (f4 d); split=> // b; rewrite f1. Qed.
Lemma sameRate_op d e m s : sameRate d s (setOp e m s).1.
Proof.
rewrite /setOp; case: neOp => [ne|x] //; set s1 := if ne then _ else _.
have h : sameRate d s s1.
  rewrite /s1; case: (ne) => //; apply: (sameRate_trans (s2 := setD s e (Dis (d_type (diss s e)) (d_rate (diss s e)) (d_bath (diss s e)) (Some m) (d_mat (diss s e)) true (d_sys (diss s e)) (d_bound (diss s e))))).
    by split=> //=; rewrite /upd; case: eqP => [->|].
  by apply: sameRate_alike; apply: tellPros_alike.
by case: ifP => _ //; apply: sameRate_trans h (sameRate_make _ _ _).
Qed.
Lemma setRate_par d r s : [/\ d_type (diss (setRate d r s) d) = d_type (diss s d), d_rate (diss (setRate d r s) d) = r,
  d_bath (diss (setRate d r s) d) = d_bath (diss s d), forall b, baths (setRate d r s) b = baths s b & forall y, syss (setRate d r s) y = syss s y].
Proof. by rewrite /setRate; case: eqP => [->|_] //=; rewrite /upd eqxx. Qed.
Lemma rateIn_mem p d s : rateIn p d s <> None -> exists2 e, e \in p_dis (pros s p) & e.1 = d.
Proof.
rewrite /rateIn => h; have : has (fun e => e.1 == d) (p_dis (pros s p)).
  by rewrite has_filter; apply/eqP => e; apply: h; rewrite e.
by move=> /hasP[e he /eqP ee]; exists e.
Qed.
Lemma rateIn_some p d r s : rateIn p d s = Some r -> (d, r) \in p_dis (pros s p).
Proof.
rewrite /rateIn; case e : [seq _ <- _ | _] => [|x l] //= [<-].
have : x \in [seq e <- p_dis (pros s p) | e.1 == d] by rewrite e mem_head.
by rewrite mem_filter => /andP[/eqP <-]; case: x {e}.
Qed.
Lemma setSystem_frame d y s : [/\ d_mat (diss (setSystem nB d y s).1 d) = d_mat (diss s d), d_op (diss (setSystem nB d y s).1 d) = d_op (diss s d),
  d_sys (diss (setSystem nB d y s).1 d) = Some y &
  forall z, s_before (syss (setSystem nB d y s).1 z) = s_before (syss s z) /\ s_after (syss (setSystem nB d y s).1 z) = s_after (syss s z)].
Proof.
rewrite /setSystem; set s2 := setS _ _ _; rewrite /addTo.
have [a1 [a2 _]] := nBar_core (d_bath (diss s2 d)) s2; rewrite -jRate_state in a1 a2.
have [_ _ _ b1 [b2 b3 _]] := coreE (a1 d).
have sys2 z : s_before (syss s2 z) = s_before (syss s z) /\ s_after (syss s2 z) = s_after (syss s z).
  by rewrite /s2 /= /upd; case: eqP => [->|].
case: (jRate nB d s2).2 => [r|x] /=; rewrite /upd ?eqxx /= b1 b2 b3; split=> //; rewrite /s2 /= /upd ?eqxx //= => z; rewrite a2; exact: sys2.
Qed.
Lemma setOp_new d m y s : d_op (diss s d) = None -> d_mat (diss s d) = None -> d_sys (diss s d) = Some y ->
  let s' := (setOp d m s).1 in
  [/\ d_mat (diss s' d) = Some (kron (idm C (maxn (s_before (syss s y)) 1)) (kron m (idm C (maxn (s_after (syss s y)) 1)))),
      d_op (diss s' d) = Some m & forall z, syss s' z = syss s z].
Proof.
by move=> h1 h2 h3; rewrite /setOp /neOp h1 /= /upd eqxx /= /makeMat /= /upd eqxx /= h3 compositeOpE h2 /= /upd eqxx.
Qed.
Lemma rateIn_op p e d m s : rateIn p e (setOp d m s).1 = rateIn p e s.
Proof. by have h := @step_dis s (SetOp d m) p (fun _ _ => isT) isT; rewrite /step in h; rewrite /rateIn h. Qed.
Lemma rateIn_rate p e d r s : rateIn p e (setRate d r s) = rateIn p e s.
Proof. by have h := @step_dis s (SetRate d r) p (fun _ _ => isT) isT; rewrite /step in h; rewrite /rateIn h. Qed.
End Lemmas.
