(** C81: parity, displacement and squeezing with the matrix exponential itself. *)
From Coq Require Import Reals.
From mathcomp Require Import all_ssreflect all_algebra.
From mathcomp Require Import complex.
From Verif Require Py.
From Verif Require Import RC ExpSeries ExpMatrix ExpmSpec ExpmProofs ExpScalar ExpKron.
From Verif Require Import MatModel OperModel ParModel StateModel EvolModel HamModel MatLib MatSpec MatProofs CField OperProofs GateProofs StateSpec StateProofs ExpmInst EvolSpec EvolProofs LindProofs.
From Verif Require Import PropsOper PropsClosed.
Set Implicit Arguments.
Unset Strict Implicit.
Unset Printing Implicit Defensive.
Import Order.TTheory GRing.Theory Num.Theory.
Local Open Scope ring_scope.

Local Notation C := RC.
Local Notation cexp := ExpScalar.cexp.

(** ** Exponentials of diagonal and of similar matrices *)

Lemma expm_sim expm n (A P Q E : mat C) : matrixExponential expm ->
  square n A -> square n P -> square n Q -> mulm P Q = idm C n -> mulm Q P = idm C n ->
  expm A = Ok E -> expm (mulm (mulm P A) Q) = Ok (mulm (mulm P E) Q).
Proof.
move=> hE /square_Mat[a ->] /square_Mat[p ->] /square_Mat[q ->].
rewrite (mulm_Mat p q) (mulm_Mat q p) !idm_Mat => /(@Mat_inj _ _ _ _ _) h1 /(@Mat_inj _ _ _ _ _) h2.
rewrite (expm_Mat _ hE) => -[<-].
rewrite (mulm_Mat p a) (mulm_Mat (p *m a) q) (mulm_Mat p (gexp a)) (mulm_Mat (p *m gexp a) q).
by rewrite (expm_Mat _ hE) (gexp_similar _ h1 h2).
Qed.

Lemma expm_dg expm d f : matrixExponential expm -> expm (dgm d f) = Ok (dgm d (fun i => cexp (f i))).
Proof.
move=> hE; have /square_Mat[D eD] : square d (dgm d f) by split.
rewrite eD (expm_Mat _ hE); congr Ok.
have hI (l : 'I_d) : D *m delta_mx l (0 : 'I_1) = f l *: delta_mx l 0.
  apply/matrixP => p q; rewrite !mxE (bigD1 l) //= big1 ?addr0; last first.
    by move=> r hr; rewrite !mxE (negbTE hr) /= mulr0.
  rewrite !mxE eqxx (ord1 q) eqxx /= mulr1 andbT.
  have -> : D p l = ent (Mat D) p l by rewrite (ent_in _ (ltn_ord p) (ltn_ord l)); congr (D _ _); apply: val_inj.
  rewrite -eD ent_mk //= -val_eqE /=; case: eqP => [->|_]; last by rewrite mulr0.
  by rewrite mulr1.
apply: mat_ext => // i j hi hj; rewrite ent_dgm hi andbT (ent_in _ hi hj).
have := gexp_eig (hI (Ordinal hj)) => /matrixP/(_ (Ordinal hi) 0).
rewrite mxE (bigD1 (Ordinal hj)) //= big1 ?addr0; last first.
  by move=> r hr; rewrite !mxE (negbTE hr) /= mulr0.
rewrite !mxE !eqxx /= mulr1 andbT -val_eqE /= => ->.
by case: eqP => [->|_]; rewrite ?mulr1 ?mulr0.
Qed.

Lemma sub_Mat n (A B : 'M[C]_n) : subm (Mat A) (Mat B) = Mat (A - B).
Proof. by apply: mat_ext => // i j hi hj; rewrite ent_subm // !(ent_in _ hi hj) !mxE. Qed.
Lemma adjmxD n (A B : 'M[C]_n) : adjmx (A + B) = adjmx A + adjmx B.
Proof. by apply/matrixP => i j; rewrite !mxE rmorphD. Qed.
Lemma adjmxB n (A B : 'M[C]_n) : adjmx (A - B) = adjmx A - adjmx B.
Proof. by apply/matrixP => i j; rewrite !mxE rmorphB. Qed.

(** The ladder operators as mathcomp matrices. *)
Lemma ladder d : exists X Y : 'M[C]_d, [/\ dnm d (rt C) = Mat X, upm d (rt C) = Mat Y, adjmx X = Y & adjmx Y = X].
Proof.
have /square_Mat[X eX] : square d (dnm d (rt C)) by split.
have /square_Mat[Y eY] : square d (upm d (rt C)) by split.
exists X, Y; split=> //.
  by apply: (@Mat_inj C); rewrite -hc_Mat -eX -eY create_hc hcK.
by apply: (@Mat_inj C); rewrite -hc_Mat -eX -eY create_hc.
Qed.

Definition dGen n (X Y : 'M[C]_n) (al : C) := al *: X - al^* *: Y.
Definition sGen n (X Y : 'M[C]_n) (z : C) := (1 / 2%:R) *: (-1 *: (z *: (X *m X)) + z^* *: (Y *m Y)).

Section Lad.
Variables (expm : mat C -> result (mat C)) (d : nat) (X Y : 'M[C]_d).
Hypotheses (hE : matrixExponential expm) (eX : dnm d (rt C) = Mat X) (eY : upm d (rt C) = Mat Y).
Hypotheses (aX : adjmx X = Y) (aY : adjmx Y = X).

Lemma displacementE al : displacement expm al d = Ok (Mat (gexp (dGen X Y al))).
Proof.
rewrite /displacement createE destroyE /= eX eY !scale_Mat msubE //= sub_Mat.
by rewrite (expm_Mat _ hE).
Qed.

Lemma squeezeE z : squeeze expm z d = Ok (Mat (gexp (sGen X Y z))).
Proof.
rewrite /squeeze createE destroyE /= eX eY !mmul_Mat /= !scale_Mat maddE //= add_Mat scale_Mat.
by rewrite (expm_Mat _ hE).
Qed.

Lemma dGen_adj al : adjmx (dGen X Y al) = dGen X Y (- al).
Proof.
rewrite /dGen adjmxB !adjZ aX aY conjCK rmorphN !scaleNr opprK addrC; congr (_ + _).
Qed.
Lemma sGen_adj z : adjmx (sGen X Y z) = sGen X Y (- z).
Proof.
rewrite /sGen !adjZ adjmxD !adjZ !adj_mul aX aY conjCK rmorphN conjC1 div1r fmorphV rmorph_nat.
by rewrite !scaleNr !scale1r opprK rmorphN scaleNr addrC.
Qed.
End Lad.

(** ** Phase-space rotations *)

Definition phm d (w : C) : mat C := dgm d (fun i => w ^+ i).

Lemma phmM d w v : mulm (phm d w) (phm d v) = phm d (w * v).
Proof. by rewrite dg_dg; apply: dgm_ext => i _; rewrite exprMn. Qed.
Lemma phm1 d : phm d 1 = idm C d.
Proof. by rewrite idm_dgm; apply: dgm_ext => i _; rewrite expr1n. Qed.

Lemma phase_dn d w v : w * v = 1 -> mulm (mulm (phm d w) (dnm d (rt C))) (phm d v) = scalem w (dnm d (rt C)).
Proof.
move=> h; rewrite dg_dn dn_dg; apply: mat_ext => // i j hi hj; rewrite ent_scalem !ent_dnm.
case: ifP => _; last by rewrite mulr0.
by rewrite exprS mulrAC -[w * _ * _]mulrA -exprMn h expr1n mulr1.
Qed.
Lemma phase_up d w v : w * v = 1 -> mulm (mulm (phm d w) (upm d (rt C))) (phm d v) = scalem v (upm d (rt C)).
Proof.
move=> h; rewrite dg_up up_dg; apply: mat_ext => // i j hi hj; rewrite ent_scalem !ent_upm.
case: ifP => _; last by rewrite mulr0.
by rewrite exprS mulrAC [_ * (v * _)]mulrCA -exprMn h expr1n mulr1.
Qed.

Lemma norm1_conj (w : C) : `|w| = 1 -> w * w^* = 1.
Proof. by move=> h; rewrite -normCK h expr1n. Qed.

Section Phase.
Variables (expm : mat C -> result (mat C)) (d : nat) (w : C).
Hypotheses (hE : matrixExponential expm) (hw : `|w| = 1).

Lemma phase_conj :
  (forall al D, displacement expm al d = Ok D ->
     displacement expm (w * al) d = Ok (mulm (mulm (phm d w) D) (phm d w^*))) /\
  (forall z S, squeeze expm z d = Ok S ->
     squeeze expm (w ^+ 2 * z) d = Ok (mulm (mulm (phm d w) S) (phm d w^*))).
Proof.
have w1 := norm1_conj hw; have w2 : w^* * w = 1 by rewrite mulrC.
have [X [Y [eX eY aX aY]]] := ladder d.
have /square_Mat[P eP] : square d (phm d w) by split.
have /square_Mat[Q eQ] : square d (phm d w^*) by split.
have PQ : P *m Q = 1%:M by apply: (@Mat_inj C); rewrite -(mulm_Mat P Q) -eP -eQ phmM w1 phm1 idm_Mat.
have QP : Q *m P = 1%:M by apply: (@Mat_inj C); rewrite -(mulm_Mat Q P) -eP -eQ phmM w2 phm1 idm_Mat.
have hX : P *m X *m Q = w *: X.
  by apply: (@Mat_inj C); rewrite -(mulm_Mat (P *m X) Q) -(mulm_Mat P X) -eP -eQ -eX phase_dn // eX scale_Mat.
have hY : P *m Y *m Q = w^* *: Y.
  by apply: (@Mat_inj C); rewrite -(mulm_Mat (P *m Y) Q) -(mulm_Mat P Y) -eP -eQ -eY phase_up // eY scale_Mat.
split=> [al D | z S].
  rewrite !(displacementE hE eX eY) => /(@Ok_inj _ _ _) <-; congr Ok; rewrite eP eQ.
  rewrite (mulm_Mat P _) (mulm_Mat (P *m _) Q); congr Mat.
  rewrite -(gexp_similar _ PQ QP); congr gexp.
  rewrite /dGen mulmxBr mulmxBl -!scalemxAr -!scalemxAl hX hY !scalerA rmorphM.
  by rewrite [al * w]mulrC [al^* * _]mulrC.
rewrite !(squeezeE hE eX eY) => /(@Ok_inj _ _ _) <-; congr Ok; rewrite eP eQ.
rewrite (mulm_Mat P _) (mulm_Mat (P *m _) Q); congr Mat.
rewrite -(gexp_similar _ PQ QP); congr gexp.
have conj2 (Z : 'M[C]_d) (u : C) : P *m Z *m Q = u *: Z -> P *m (Z *m Z) *m Q = (u ^+ 2) *: (Z *m Z).
  move=> hZ; transitivity ((P *m Z *m Q) *m (P *m Z *m Q)).
    by rewrite -!mulmxA [Q *m (P *m _)]mulmxA QP mul1mx !mulmxA.
  by rewrite hZ -scalemxAl -scalemxAr scalerA.
rewrite /sGen -scalemxAr -scalemxAl mulmxDr mulmxDl -!scalemxAr -!scalemxAl.
rewrite (conj2 X w hX) (conj2 Y _ hY) !scalerA rmorphM rmorphX.
by rewrite -[-1 * z * _]mulrA [z * _]mulrC [z^* * _]mulrC.
Qed.
End Phase.

(** For a phase [w] (a complex number of modulus one) displacing by [w alpha]
    is displacing by [alpha] up to the phases [w^i] of the number states, and
    squeezing by [w^2 z] is squeezing by [z] up to these phases. *)
Theorem C81_covariance expm (d : nat) (w al z : C) : matrixExponential expm -> `|w| = 1 ->
  exists D D' S S',
    displacement expm al d = Ok D /\ displacement expm (w * al) d = Ok D' /\
    squeeze expm z d = Ok S /\ squeeze expm (w ^+ 2 * z) d = Ok S' /\
    square d D /\ square d D' /\ square d S /\ square d S' /\
    forall i j, (i < d)%N -> (j < d)%N ->
      ent D' i j = w ^+ i * ent D i j * w^* ^+ j /\ ent S' i j = w ^+ i * ent S i j * w^* ^+ j.
Proof.
move=> hE hw; have [X [Y [eX eY _ _]]] := ladder d.
have [h1 h2] := phase_conj d hE hw.
have e1 := displacementE hE eX eY al; have e2 := squeezeE hE eX eY z.
do 4!eexists; split; first exact: e1; split; first exact: (h1 _ _ e1).
split; first exact: e2; split; first exact: (h2 _ _ e2).
do 4!(split; first by split).
by move=> i j hi hj; split; rewrite ent_mul_dgm // ent_dgm_mul.
Qed.
Print Assumptions C81_covariance.

(** Free evolution of an oscillator rotates the amplitude of a displacement and,
    twice as fast, that of a squeezing. *)
Theorem C81_free_evolution expm (d : nat) (al z : C) (t : R) N D S : matrixExponential expm ->
  number C d = Ok N -> displacement expm al d = Ok D -> squeeze expm z d = Ok S ->
  exists U UD US, Unitary expm N (ofR t) = Ok U /\ mmul U D = Ok UD /\ mmul U S = Ok US /\
    mmul UD (hc U) = displacement expm (cis (- t) * al) d /\
    mmul US (hc U) = squeeze expm (cis (- (2%:R * t)) * z) d.
Proof.
move=> hE; rewrite numberE => -[<-] eD eS.
have hw := cis_norm (- t); have [h1 h2] := phase_conj d hE hw.
have [X [Y [eX eY _ _]]] := ladder d.
have sD : square d D by move: eD; rewrite (displacementE hE eX eY) => -[<-].
have sS : square d S by move: eS; rewrite (squeezeE hE eX eY) => -[<-].
have eU : Unitary expm (dgm d (fun i => i%:R)) (ofR t) = Ok (phm d (cis (- t))).
  rewrite /Unitary !dgm_scale (expm_dg _ _ hE); congr Ok; apply: dgm_ext => i _.
  have -> : ofR t * (- 'i * i%:R) = - 'i * ofR (t * i%:R).
    by rewrite /ofR rmorphM rmorph_nat mulrCA.
  rewrite cexpI; elim: i => [|i IH]; first by rewrite mulr0 oppr0 cis0.
  by rewrite -addn1 natrD mulrDr mulr1 opprD cisD IH addn1 exprSr.
exists (phm d (cis (- t))), (mulm (phm d (cis (- t))) D), (mulm (phm d (cis (- t))) S).
case: (sD) => rD cD; case: (sS) => rS cS.
split; first exact: eU; split; first by rewrite mmulE.
split; first by rewrite mmulE.
have -> : hc (phm d (cis (- t))) = phm d (cis (- t))^*.
  by rewrite hc_dgm; apply: dgm_ext => i _; rewrite rmorphX.
split; first by rewrite (h1 _ _ eD) mmulE //= ?cD.
rewrite -(_ : cis (- t) ^+ 2 = cis (- (2%:R * t))); first by rewrite (h2 _ _ eS) mmulE //= ?cS.
by rewrite expr2 -cisD -opprD mulr_natl mulr2n.
Qed.
Print Assumptions C81_free_evolution.

(** Parity reverses a displacement and commutes with a squeezing: a squeezing
    never connects number states of different parity. *)
Theorem C81_parity_action expm (d : nat) (al z : C) P D S : matrixExponential expm ->
  paritySUM C d = Ok P -> displacement expm al d = Ok D -> squeeze expm z d = Ok S ->
  (exists PD, mmul P D = Ok PD /\ mmul PD P = displacement expm (- al) d) /\
  commutator P S (zerom C d d) /\
  (forall i j, (i < d)%N -> (j < d)%N -> odd (i + j) -> ent S i j = 0).
Proof.
move=> hE; rewrite /paritySUM csc_dg => -[<-] eD eS.
have -> : dgm d (fun i => if odd i then -1 else 1) = phm d (-1).
  by apply: dgm_ext => i _; rewrite -signr_odd; case: odd.
have hw : `|-1 : C| = 1 by rewrite normrN1.
have [h1 h2] := phase_conj d hE hw.
have [X [Y [eX eY _ _]]] := ladder d.
have sD : square d D by move: eD; rewrite (displacementE hE eX eY) => -[<-].
have sS : square d S by move: eS; rewrite (squeezeE hE eX eY) => -[<-].
case: (sD) => rD cD; case: (sS) => rS cS.
have c1 : (-1 : C)^* = -1 by rewrite rmorphN conjC1.
move: (h1 _ _ eD) (h2 _ _ eS); rewrite c1 mulN1r sqrrN expr1n mul1r eS => e1 /(@Ok_inj _ _ _) e2.
split; first by exists (mulm (phm d (-1)) D); rewrite !mmulE //= ?cD.
have hz i j : (i < d)%N -> (j < d)%N -> odd (i + j) -> ent S i j = 0.
  move=> hi hj ho; have : ent S i j = (-1) ^+ i * ent S i j * (-1) ^+ j.
    by rewrite {1}e2 ent_mul_dgm // ent_dgm_mul.
  rewrite mulrAC -exprD -signr_odd ho expr1 mulN1r => /eqP.
  by rewrite -addr_eq0 -mulr2n mulrn_eq0 /= => /eqP.
split; last exact: hz.
apply: (@commutatorE C d) => //; apply: mat_ext => // i j hi hj.
have {}hj : (j < d)%N by move: hj; rewrite /= cS.
rewrite ent_subm // ent_zerom ent_dgm_mul // ent_mul_dgm //.
rewrite mulrC -mulrBr.
case ho : (odd (i + j)); first by rewrite hz ?mul0r.
move: ho; rewrite oddD => /negbT; rewrite negb_add => /eqP ho.
by rewrite -[X in X - _]signr_odd -[X in _ - X]signr_odd ho subrr mulr0.
Qed.
Print Assumptions C81_parity_action.

(** Displacements along one direction compose by adding, displacing backwards is
    the adjoint and the inverse, and not displacing does nothing.  The same
    for squeezing. *)
Theorem C81_group expm (d : nat) (al : C) (s t : R) : matrixExponential expm ->
  exists D1 D2 S1 S2,
    displacement expm (ofR s * al) d = Ok D1 /\ displacement expm (ofR t * al) d = Ok D2 /\
    squeeze expm (ofR s * al) d = Ok S1 /\ squeeze expm (ofR t * al) d = Ok S2 /\
    mmul D1 D2 = displacement expm (ofR (s + t) * al) d /\
    mmul S1 S2 = squeeze expm (ofR (s + t) * al) d /\
    displacement expm (- (ofR s * al)) d = Ok (hc D1) /\ squeeze expm (- (ofR s * al)) d = Ok (hc S1) /\
    displacement expm 0 d = Ok (idm C d) /\ squeeze expm 0 d = Ok (idm C d).
Proof.
move=> hE; have [X [Y [eX eY aX aY]]] := ladder d.
have dE := displacementE hE eX eY; have sE := squeezeE hE eX eY.
do 4!eexists; do 4!(split; first by rewrite ?dE ?sE).
have gZ (G : C -> 'M[C]_d) : (forall (a b : C), a^* = a -> G (a * b) = a *: G b) ->
    gexp (G (ofR s * al)) *m gexp (G (ofR t * al)) = gexp (G (ofR (s + t) * al)).
  move=> hG; rewrite !hG ?conj_ofR // -gexpD; last exact: comm_scale.
  by rewrite -scalerDl /ofR rmorphD.
have dZ (a b : C) : a^* = a -> dGen X Y (a * b) = a *: dGen X Y b.
  by move=> ha; rewrite /dGen rmorphM ha scalerBr !scalerA.
have sZ (a b : C) : a^* = a -> sGen X Y (a * b) = a *: sGen X Y b.
  move=> ha; rewrite /sGen rmorphM ha !scalerDr !scalerA; congr (_ *: _ + _ *: _).
    by move: (1 / 2%:R) (-1 : C) => h o; rewrite [a * h]mulrC -mulrA [o * (a * b)]mulrCA.
  by move: (1 / 2%:R) => h; rewrite [a * h]mulrC -mulrA.
split; first by rewrite dE mmul_Mat gZ.
split; first by rewrite sE mmul_Mat gZ.
split; first by rewrite dE -(dGen_adj aX aY) gexp_adj hc_Mat.
split; first by rewrite sE -(sGen_adj aX aY) gexp_adj hc_Mat.
have z0 : (0 : C) = ofR 0 * 0 by rewrite mulr0.
split; first by rewrite dE z0 dZ ?conj_ofR // /ofR rmorph0 scale0r gexp0 idm_Mat.
by rewrite sE z0 sZ ?conj_ofR // /ofR rmorph0 scale0r gexp0 idm_Mat.
Qed.
Print Assumptions C81_group.

(** ** parityEXP *)

Lemma ofRMn (x : R) (i : nat) : ofR (x * i%:R) = ofR x * i%:R.
Proof. by rewrite /ofR rmorphM rmorph_nat. Qed.


(** Exponentiating the number operator gives the alternating signs of paritySUM. *)
Theorem C81_parityEXP_number expm (d : nat) N : matrixExponential expm -> number C d = Ok N ->
  parityEXP expm (ofR PI) N = paritySUM C d.
Proof.
move=> hE; rewrite numberE => -[<-]; rewrite /paritySUM csc_dg /parityEXP dgm_scale (expm_dg _ _ hE).
congr Ok; apply: dgm_ext => i _.
have -> : 'i * ofR PI * i%:R = 'i * ofR (PI * i%:R) by rewrite ofRMn mulrA.
rewrite euler; have -> : cis (PI * i%:R) = (-1) ^+ i.
  elim: i => [|i IH]; first by rewrite mulr0 cis0.
  by rewrite -addn1 natrD mulrDr mulr1 cisD IH cis_PI addn1 exprSr.
by rewrite -signr_odd; case: odd.
Qed.
Print Assumptions C81_parityEXP_number.

(** For any square matrix the result commutes with it, every eigenvector of
    integer eigenvalue k gets the sign (-1)^k, and for a Hermitian matrix the
    result is unitary. *)
Theorem C81_parityEXP expm (n : nat) (H : mat C) : matrixExponential expm -> square n H ->
  exists P, parityEXP expm (ofR PI) H = Ok P /\ commutator P H (zerom C n n) /\
    (forall v (k : nat), isKet n v -> mmul H v = Ok (scalem k%:R v) -> mmul P v = Ok (scalem ((-1) ^+ k) v)) /\
    (forall v (k : nat), isKet n v -> mmul H v = Ok (scalem (- k%:R) v) -> mmul P v = Ok (scalem ((-1) ^+ k) v)) /\
    (hermitian n H -> unitary n P).
Proof.
move=> hE sH; have [D eH] := square_Mat sH.
have eP : parityEXP expm (ofR PI) H = Ok (Mat (gexp (('i * ofR PI) *: D))).
  by rewrite /parityEXP eH scale_Mat (expm_Mat _ hE).
exists (Mat (gexp (('i * ofR PI) *: D))); split; first exact: eP; split.
  rewrite eH; apply: (@commutatorE C n) => //.
  rewrite (mulm_Mat _ D) (mulm_Mat D _) sub_Mat zerom_Mat; congr Mat; apply/eqP; rewrite subr_eq0; apply/eqP.
  by symmetry; apply: gexp_comm; rewrite -scalemxAl -scalemxAr.
have cp k : cexp ('i * ofR (PI * k%:R)) = (-1) ^+ k /\ cexp ('i * ofR (- (PI * k%:R))) = (-1) ^+ k.
  have e1 : cis (PI * k%:R) = (-1) ^+ k.
    elim: k => [|k IH]; first by rewrite mulr0 cis0.
    by rewrite -addn1 natrD mulrDr mulr1 cisD IH cis_PI addn1 exprSr.
  by rewrite !euler cisN e1 rmorphX rmorphN conjC1.
have act (v : mat C) (x : R) (c : C) : isKet n v -> mmul H v = Ok (scalem (ofR x) v) ->
    cexp ('i * ofR (PI * x)) = c -> mmul (Mat (gexp (('i * ofR PI) *: D))) v = Ok (scalem c v).
  move=> /hasShape_Mat[y ->]; rewrite eH !mmul_Mat !scale_Mat => /(@Ok_inj _ _ _) /(@Mat_inj _ _ _ _ _) hv <-.
  congr Ok; congr Mat; apply: gexp_eig.
  by rewrite -scalemxAl hv scalerA -mulrA /ofR -rmorphM.
split; last split.
- move=> v k kv hv; apply: (act v k%:R _ kv _ (proj1 (cp k))).
  by rewrite hv /ofR rmorph_nat.
- move=> v k kv hv; apply: (act v (- k%:R) _ kv _).
    by rewrite hv /ofR rmorphN rmorph_nat.
  by rewrite mulrN (proj2 (cp k)).
move=> /hermitianE[_ hH]; move: hH; rewrite eH hc_Mat => /(@Mat_inj _ _ _ _ _) hH.
have aP : adjmx (gexp (('i * ofR PI) *: D)) = gexp (- (('i * ofR PI) *: D)).
  by rewrite -gexp_adj adjZ hH rmorphM conjCi conj_ofR mulNr scaleNr.
apply/unitaryE; split; first by split.
  by rewrite hc_Mat aP (mulm_Mat (gexp _) (gexp _)) gexpNl idm_Mat.
by rewrite hc_Mat aP (mulm_Mat (gexp _) (gexp _)) gexpN idm_Mat.
Qed.
Print Assumptions C81_parityEXP.

(** The exponential the theorems speak of exists, and there are phases and
    operators other than the trivial ones: for two levels, parity has the
    entries 1 and -1. *)
Example C81_ex : matrixExponential expmT /\ `|'i : C| = 1 /\
  exists P, paritySUM C 2 = Ok P /\ ent P 0 0 = 1 /\ ent P 1 1 = -1.
Proof.
split; first exact: expmT_exp; split; first exact: normCi.
by rewrite /paritySUM csc_dg; eexists; split; first by []; rewrite !ent_dgm.
Qed.
Print Assumptions C81_ex.
