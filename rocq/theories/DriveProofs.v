(** Proofs about drives and pulses. *)
From mathcomp Require Import all_ssreflect all_algebra.
From Verif Require Py.
From Verif Require Import DriveModel DriveSpec.
Set Implicit Arguments. Unset Strict Implicit. Unset Printing Implicit Defensive.
Import Order.TTheory GRing.Theory Num.Theory.
Local Open Scope ring_scope.
Import Py(result, Ok, Err, TypeError, ZeroDivisionError, KeyError).

Section P.
Variable R : realFieldType.
Variable pi : R.
Implicit Types (p : pulse R) (d : drive R) (a b s t : R) (g : R -> R).

Lemma Ok_inj A (x y : A) : Ok x = Ok y -> x = y. Proof. by case. Qed.

(** A pulse whose window is (a, b) and whose function returns g. *)
Definition like p a b g := [/\ t0 p = Some a, t1 p = Some b
  & exists2 f, func p = Some f & forall t, inside a b t -> f t = Ok (g t)].

Lemma applyE p a b g t : like p a b g -> applyPulse p t = Ok (value a b (scale p) g t).
Proof.
case=> E0 E1 [f Ef Hf]. rewrite /applyPulse /value /inside E0 E1 Ef /=.
case: ltP => // Hb; rewrite /= ?andbT ?andbF //.
case: ltP => //= Ha. by rewrite Hf // /inside Ha Hb.
Qed.

Lemma midpoint_cons g x y l : midpoint g (x :: y :: l) = g ((y + x) / 2%:R) * (y - x) + midpoint g (y :: l).
Proof. by rewrite /midpoint /= big_ord_recl /=. Qed.

Lemma integrateE p a b g acc pts : like p a b g ->
  integrate p acc pts = Ok (acc + midpoint (value a b (scale p) g) pts).
Proof.
move=> H. elim: pts acc => [|x [|y l] IH] acc; try by rewrite /midpoint big_ord0 addr0.
rewrite midpoint_cons addrA -IH /= (applyE _ H). by [].
Qed.

Lemma midpointZ g c pts : midpoint (fun t => c * g t) pts = c * midpoint g pts.
Proof. rewrite /midpoint mulr_sumr. by apply: eq_bigr => i _; rewrite mulrA. Qed.

Lemma value_scale a b s g t : value a b s g t = s * value a b 1 g t.
Proof. by rewrite /value; case: inside; rewrite ?mul1r ?mulr0. Qed.

Lemma midpoint_scale a b s g pts : midpoint (value a b s g) pts = s * midpoint (value a b 1 g) pts.
Proof. by rewrite -midpointZ; apply: eq_bigr => i _; rewrite value_scale. Qed.

Lemma eq_midpoint g h pts : (forall i, (i.+1 < size pts)%N -> g ((pts`_i.+1 + pts`_i) / 2%:R) = h ((pts`_i.+1 + pts`_i) / 2%:R)) ->
  midpoint g pts = midpoint h pts.
Proof.
move=> H; apply: eq_bigr => i _; rewrite H //.
by case: pts i {H} => [|x l] [i /= Hi] //; rewrite ltnS.
Qed.

Lemma mono_le a b pts i j : increasing a b pts -> (i <= j)%N -> (j < size pts)%N -> pts`_i <= pts`_j.
Proof.
case=> _ _ _ H. elim: j => [|j IH]; first by rewrite leqn0 => /eqP ->.
rewrite leq_eqVlt => /orP[/eqP -> //|]. rewrite ltnS => Hij Hj.
exact: le_trans (IH Hij (ltnW Hj)) (ltW (H _ Hj)).
Qed.

Lemma mid_inside a b pts i : increasing a b pts -> (i.+1 < size pts)%N -> inside a b ((pts`_i.+1 + pts`_i) / 2%:R).
Proof.
move=> I Hi. case: (I) => Hs Ha Hb H. have Hlt := H _ Hi.
have P2 : (0 : R) < 2%:R by rewrite ltr0n.
have L : a <= pts`_i by rewrite -Ha; apply: mono_le I _ (ltnW Hi).
have U : pts`_i.+1 <= b by rewrite -Hb; apply: mono_le I _ _; rewrite ?prednK // -ltnS prednK.
rewrite /inside; apply/andP; split.
- rewrite ltr_pdivl_mulr // mulr_natr mulr2n. by rewrite ltr_le_add // (le_lt_trans L).
- rewrite ltr_pdivr_mulr // mulr_natr mulr2n. by rewrite ler_lt_add // (lt_le_trans Hlt).
Qed.

Lemma telescope (F : R -> R) pts : (0 < size pts)%N ->
  \sum_(i < (size pts).-1) (F pts`_i.+1 - F pts`_i) = F pts`_(size pts).-1 - F pts`_0.
Proof.
elim: pts => [//|x [|y l] IH] _; first by rewrite /= big_ord0 subrr.
rewrite /= big_ord_recl /=. have := IH isT => /= ->. by rewrite addrC addrA subrK.
Qed.

Lemma midpoint_affine c s pts : (0 < size pts)%N ->
  midpoint (fun t => c + s * t) pts =
  c * (pts`_(size pts).-1 - pts`_0) + s * (pts`_(size pts).-1 ^+ 2 - pts`_0 ^+ 2) / 2%:R.
Proof.
move=> H. have N2 : (2%:R : R) != 0 by rewrite pnatr_eq0.
have -> : midpoint (fun t => c + s * t) pts =
  \sum_(i < (size pts).-1) ((c * pts`_i.+1 + s * pts`_i.+1 ^+ 2 / 2%:R) - (c * pts`_i + s * pts`_i ^+ 2 / 2%:R)).
  apply: eq_bigr => i _. set u := pts`_i.+1; set v := pts`_i.
  rewrite mulrDl mulrBr opprD addrACA; congr (_ + _).
  by rewrite -mulrBl -[s * u ^+ 2 - _]mulrBr subr_sqr [(u - v) * _]mulrC !mulrA mulrAC.
rewrite (telescope (fun x => c * x + s * x ^+ 2 / 2%:R)) //.
by rewrite !mulrBr mulrBl opprD addrACA.
Qed.

Lemma sumPulsesE (val : nat * pulse R -> R) l c t : (forall x, List.In x l -> applyPulse x.2 t = Ok (val x)) ->
  sumPulses l c t = Ok (c + \sum_(x <- l) val x).
Proof.
elim: l c => [|[n p] l IH] c H /=; first by rewrite big_nil addr0.
rewrite (H (n, p)); last by left. rewrite /= IH ?big_cons ?addrA // => x Hx; apply: H; by right.
Qed.

Lemma sumPulses_ok l c t v : sumPulses l c t = Ok v -> forall x, List.In x l -> exists w, applyPulse x.2 t = Ok w.
Proof.
elim: l c => [//|[n p] l IH] c /=. case E : (applyPulse p t) => [w|e] //= H x [<-|Hx]; first by exists w.
exact: IH H _ Hx.
Qed.

Lemma shapeE app ts vs : shape app ts = Ok vs <-> List.Forall2 (fun t v => app t = Ok v) ts vs.
Proof.
split.
- elim: ts vs => [|t ts IH] vs /=; first by move/(@Ok_inj _ _ _) => <-; constructor.
  case E : (app t) => [v|e] //=. case E' : (shape app ts) => [w|e] //= /(@Ok_inj _ _ _) <-.
  by constructor => //; apply: IH.
- by elim=> {ts vs} [//|t v ts vs Hv _ IH] /=; rewrite Hv /= IH.
Qed.

(** The flag is never reset. *)
Lemma act_flag x d : dflag d -> dflag (act pi x d).
Proof.
case: x => [r a b f n|n c|n|ts] H /=.
- rewrite /addPulse; case: r => [th|] //=. by case: (DriveModel.bind _ _).
- rewrite /setPulse; case: changeAt => l bb /=. by rewrite H orbT.
- by rewrite /removePulse; case: ifP.
- rewrite /totalShape. case: ifP => //= _. by case: shape.
Qed.
Lemma acts_flag xs d : dflag d -> dflag (acts pi xs d).
Proof. elim: xs d => [//|x xs IH] d H. exact: IH (act_flag _ H). Qed.
End P.
