(** C67: rotations, phases and the Jaynes-Cummings propagator with the true
    cosine, sine and exponential. *)
From Coq Require Import Reals Lra Lia.
From mathcomp Require Import all_ssreflect all_algebra.
From mathcomp Require Import complex.
From Verif Require Py.
From Verif Require Import RC ExpSeries ExpMatrix ExpmSpec ExpmProofs ExpScalar ExpKron.
From Verif Require Import MatModel OperModel StateModel EvolModel HamModel MatLib MatSpec MatProofs CField OperProofs GateProofs StateSpec StateProofs ExpmInst EvolSpec EvolProofs LindProofs.
From Verif Require Import HamSpec HamProofs PropsOper PropsClosed PropsHam.
Set Implicit Arguments.
Unset Strict Implicit.
Unset Printing Implicit Defensive.
Import Order.TTheory GRing.Theory Num.Theory.
Local Open Scope ring_scope.

Local Notation C := RC.
Local Notation cexp := ExpScalar.cexp.

(** spinRotations.py:49-152 xRotation, yRotation, zRotation, qubRotation as a
    user calls them, with an angle: the code takes the cosine and sine of half
    the angle ([qubRotation] of OperModel.v is given the two numbers). Here the
    two are exact; the code also rounds them to 15 decimals, which
    [C67_rounded] and [C67_rounded_refuted] treat. *)
Definition rotationBy (ax : axis) (x : R) : result (mat C) :=
  qubRotation ax (ofR (cos (x / 2%:R))) (ofR (sin (x / 2%:R))).

Section J.
Variable F : numClosedFieldType.
Lemma jx1 : jx F 1 = scalem (1 / 2%:R) (m2 0 1 1 0).
Proof.
rewrite /jx; congr scalem; apply: m2_ext => //; rewrite ent_addm // !ent_mk //= ?addr0 ?add0r // /jp.
- by rewrite subn0 mul1n sqrtC1.
- by rewrite subn0 mul1n sqrtC1.
Qed.
Lemma jy1 : jy F 1 = scalem (1 / 2%:R) (m2 0 (- 'i) 'i 0).
Proof.
have h : 1 / (2%:R * 'i) = - (1 / 2%:R * 'i) :> F.
  by rewrite !div1r invfM invCi mulrN.
rewrite /jy h; apply: mat_ext => // i j hi hj; rewrite !ent_scalem ent_subm // mulNr -[X in - X]mulrA -mulrN; congr (_ * _).
move: i j hi hj => [|[|i]] [|[|j]] // _ _; rewrite !ent_mk //= ?subr0 ?sub0r /jp ?subn0 ?mul1n ?sqrtC1.
- by rewrite mulr0 oppr0.
- by rewrite mulr1.
- by rewrite mulrN mulr1 opprK.
- by rewrite mulr0 oppr0.
Qed.
Lemma jz1 : dgm 2 (jz F 1) = scalem (1 / 2%:R) (m2 1 0 0 (-1)).
Proof.
apply: mat_ext => // i j hi hj; rewrite ent_scalem; move: i j hi hj => [|[|i]] [|[|j]] // _ _; rewrite !ent_mk //= /jz.
- by rewrite subr0 mulr1.
- by rewrite mulr0.
- by rewrite mulr0.
- rewrite mulrN mulr1; apply: (mulIf (_ : 2%:R != 0 :> F)); rewrite ?pnatr_eq0 //.
  by rewrite mulrBl mulNr !divfK ?pnatr_eq0 // mul1r -[2%:R](natrD _ 1 1) opprD addrA subrr add0r.
Qed.
End J.

Lemma half_spin : spinArg (1 / 2%:R) false 1 /\ spinArg 2%:R true 1.
Proof. by split; [left | right]. Qed.

Lemma ofRM (x y : R) : ofR (x * y) = ofR x * ofR y. Proof. by rewrite /ofR rmorphM. Qed.

(** A rotation of a qubit is the exponential of its generator: the two
    functions for rotations agree on qubits, whether the spin or the dimension
    is given. *)
Theorem C67_qubit_rotation expm (ax : axis) (x : R) : matrixExponential expm ->
  rotationBy ax x = spinRotation expm ax (ofR x) (1 / 2%:R) false /\
  rotationBy ax x = spinRotation expm ax (ofR x) 2%:R true.
Proof.
move=> hE; have [h1 h2] := half_spin; have [sx sy sz] := gen_sq C.
have key (sg : mat C) : square 2 sg -> mulm sg sg = idm C 2 ->
    Ok (rotm sg (ofR (cos (x / 2%:R))) (ofR (sin (x / 2%:R)))) = Unitary expm (scalem (ofR x) (scalem (1 / 2%:R) sg)) 1.
  move=> /square_Mat[D ->]; rewrite mulm_Mat idm_Mat => /(@Mat_inj _ _ _ _ _) hD.
  rewrite !scale_Mat (UnitaryE _ _ hE) scale1r !scalerA.
  have -> : - 'i * ofR x * (1 / 2%:R) = - 'i * ofR (x / 2%:R).
    by rewrite ofRM mulrA div1r /ofR fmorphV rmorph_nat.
  rewrite (gexp_invol _ hD) /rotm idm_Mat !scale_Mat; congr Ok.
  apply: mat_ext => // i j hi hj; rewrite ent_subm // !ent_in !mxE; by [].
have sq (a b c d : C) : square 2 (m2 a b c d) by split.
rewrite /rotationBy /spinRotation /qubRotation; case: ax; last by split.
- rewrite /xRotation (rotationE _ _ (sigmaxE C)) // (JxE C h1) (JxE C h2) jx1 /Py.bind.
  by rewrite -(key _ (sq 0 1 1 0) sx).
- rewrite /yRotation (rotationE _ _ (sigmayE C)) // (JyE C h1) (JyE C h2) jy1 /Py.bind.
  by rewrite -(key _ (sq 0 (- 'i) 'i 0) sy).
- rewrite /zRotation (rotationE _ _ (sigmazE C)) // (JzE C h1) (JzE C h2) jz1 /Py.bind.
  by rewrite -(key _ (sq 1 0 0 (-1)) sz).
Qed.
Print Assumptions C67_qubit_rotation.

(** Rotations about one axis add their angles; a full turn changes the sign of
    every state and only two turns bring it back. *)
Theorem C67_rotation_angles (ax : axis) (x y : R) : ax <> AxOther ->
  exists U V, rotationBy ax x = Ok U /\ rotationBy ax y = Ok V /\
    mmul U V = rotationBy ax (x + y) /\ rotationBy ax (- x) = Ok (hc U) /\ unitary 2 U /\
    rotationBy ax 0 = Ok (idm C 2) /\
    rotationBy ax (2%:R * PI) = Ok (scalem (-1) (idm C 2)) /\
    rotationBy ax (4%:R * PI) = Ok (idm C 2).
Proof.
move=> ha; have cc z := conj_ofR (cos z); have cs z := conj_ofR (sin z).
have csq z : ofR (cos z) * ofR (cos z) + ofR (sin z) * ofR (sin z) = 1.
  have e : cos z * cos z + sin z * sin z = 1 by have := sin2_cos2 z; rewrite /Rsqr Rplus_comm.
  by rewrite -!ofRM /ofR -rmorphD e.
have [U [eU uU]] := C48_rotations_unitary ha (cc (x / 2%:R)) (cs (x / 2%:R)) (csq (x / 2%:R)).
have [V [eV _]] := C48_rotations_unitary ha (cc (y / 2%:R)) (cs (y / 2%:R)) (csq (y / 2%:R)).
have [hM [h1 hH]] := C48_rotations_compose eU eV.
have cp : cos ((x + y) / 2%:R) = cos (x / 2%:R) * cos (y / 2%:R) - sin (x / 2%:R) * sin (y / 2%:R).
  by rewrite mulrDl; exact: cos_plus.
have sp : sin ((x + y) / 2%:R) = sin (x / 2%:R) * cos (y / 2%:R) + cos (x / 2%:R) * sin (y / 2%:R).
  by rewrite mulrDl; exact: sin_plus.
have cn : cos (- x / 2%:R) = cos (x / 2%:R) by rewrite mulNr; exact: cos_neg.
have sn : sin (- x / 2%:R) = - sin (x / 2%:R) by rewrite mulNr; exact: sin_neg.
have o0 : ofR 0 = 0 by []. have o1 : ofR 1 = 1 by [].
have c0 : cos 0 = 1 by exact: cos_0. have s0 : sin 0 = 0 by exact: sin_0.
have e2 : 2%:R * PI / 2%:R = PI :> R by rewrite mulrC mulKf ?pnatr_eq0.
have e4 : 4%:R * PI / 2%:R = 2%:R * PI :> R.
  by rewrite -[4%N]/(2 * 2)%N natrM mulrC !mulrA mulVf ?pnatr_eq0 // mul1r.
have cP : cos PI = - 1 by exact: cos_PI. have sP : sin PI = 0 by exact: sin_PI.
have c2 : cos (2%:R * PI) = 1 by rewrite RnatE; exact: cos_2PI.
have s2 : sin (2%:R * PI) = 0 by rewrite RnatE; exact: sin_2PI.
exists U, V; rewrite /rotationBy cp sp cn sn mul0r c0 s0 e2 e4 cP sP c2 s2 o0 o1 !ofRN o1.
have add (u v : R) : ofR (u + v) = ofR u + ofR v by rewrite /ofR rmorphD.
rewrite !add ofRN !ofRM; split; first exact: eU; split; first exact: eV.
split; first exact: hM; split; first exact: (hH (cc _) (cs _)).
split; first by []; split; first by []; split; last by [].
have sx (sg : mat C) : square 2 sg -> rotm sg (-1) 0 = scalem (-1) (idm C 2).
  move=> [g1 g2]; apply: mat_ext => // i j hi hj; rewrite /rotm ent_subm /= ?g1 ?g2 // !ent_scalem.
  by rewrite mulr0 mul0r subr0.
have sq (a b c d : C) : square 2 (m2 a b c d) by split.
case: ax ha {eU eV hM hH h1} => // _; rewrite /qubRotation.
- by rewrite /xRotation (rotationE _ _ (sigmaxE C)) // (sx _ (sq 0 1 1 0)).
- by rewrite /yRotation (rotationE _ _ (sigmayE C)) // (sx _ (sq 0 (- 'i) 'i 0)).
- by rewrite /zRotation (rotationE _ _ (sigmazE C)) // (sx _ (sq 1 0 0 (-1))).
Qed.
Print Assumptions C67_rotation_angles.

(** The same for a spin of any size, whose rotations about z are diagonal with
    the phases [exp(-i x m)]. *)
Theorem C67_spin_rotation expm (ax : axis) (x y : R) (j : rat) (isDim : bool) (n : nat) :
  matrixExponential expm -> spinArg j isDim n -> ax <> AxOther ->
  exists U V, spinRotation expm ax (ofR x) j isDim = Ok U /\ spinRotation expm ax (ofR y) j isDim = Ok V /\
    mmul U V = spinRotation expm ax (ofR (x + y)) j isDim /\
    spinRotation expm ax (ofR (- x)) j isDim = Ok (hc U) /\
    spinRotation expm ax (ofR 0) j isDim = Ok (idm C n.+1) /\
    (ax = AxZ -> diagonal n.+1 (fun i => cis (- (x * (n%:R / 2%:R - i%:R)))) U).
Proof.
move=> hE hs ha.
have [J [eJ [sJ hJ]]] : exists J, (match ax with AxX => Jx C j isDim | AxY => Jy C j isDim
    | AxZ => Jz C j isDim | AxOther => Err Py.ValueError end) = Ok J /\ square n.+1 J /\ hc J = J.
  case: ax ha => // _; rewrite ?(JxE C hs) ?(JyE C hs) ?(JzE C hs).
  - by exists (jx C n); split; [|split; [split | exact: hc_jx]].
  - by exists (jy C n); split; [|split; [split | exact: hc_jy]].
  - by exists (dgm n.+1 (jz C n)); split; [|split; [split | exact: hc_Z]].
have eR a : spinRotation expm ax a j isDim = Unitary expm J a.
  rewrite /spinRotation eJ /Py.bind /Unitary; congr expm; rewrite !scalemA; congr scalem.
  by rewrite mul1r mulrC.
have hH : hermitian n.+1 J by apply/hermitianE.
have [U [V [eU [eV [hM [h0 hN]]]]]] := C66_group (ofR x) (ofR y) hE sJ.
exists U, V; rewrite !eR; split; first exact: eU; split; first exact: eV.
split; first by rewrite hM /ofR rmorphD.
split; first by rewrite ofRN; apply: hN => //; exact: conj_ofR.
split; first exact: h0.
move=> hz; move: eJ eU; rewrite hz (JzE C hs) => -[<-].
have hD : square n.+1 (dgm n.+1 (jz C n)) by split.
have [D eD] := square_Mat hD; rewrite eD (UnitaryE _ _ hE) => /(@Ok_inj _ _ _) eU.
have sU : square n.+1 U by rewrite -eU; split.
split; first exact: sU; move=> i k hi hk; rewrite -eU.
have hI (l : 'I_n.+1) : (ofR x *: (- 'i *: D)) *m delta_mx l (0 : 'I_1) = (- 'i * ofR (x * (n%:R / 2%:R - l%:R))) *: delta_mx l 0.
  apply/matrixP => p q; rewrite !mxE (bigD1 l) //= big1 ?addr0; last first.
    by move=> r hr; rewrite !mxE (negbTE hr) /= mulr0.
  rewrite !mxE eqxx (ord1 q) eqxx /= mulr1 andbT.
  have -> : D p l = ent (Mat D) p l by rewrite (ent_in _ (ltn_ord p) (ltn_ord l)); congr (D _ _); apply: val_inj.
  rewrite -eD ent_mk //= -val_eqE /=; case: eqP => [->|_]; last by rewrite !mulr0.
  rewrite mulr1 /jz mulrCA; congr (_ * _); rewrite ofRM; congr (_ * _).
  by rewrite /ofR rmorphB rmorphM fmorphV !rmorph_nat.
rewrite (ent_in _ hi hk).
have := gexp_eig (hI (Ordinal hk)); rewrite cexpI => /matrixP/(_ (Ordinal hi) 0).
rewrite mxE (bigD1 (Ordinal hk)) //= big1 ?addr0; last first.
  by move=> r hr; rewrite !mxE (negbTE hr) /= mulr0.
rewrite !mxE !eqxx /= mulr1 andbT => ->.
rewrite /delta -val_eqE /=; case: eqP => [->|_]; last by rewrite mulr0 mul0r.
by rewrite mulrC.
Qed.
Print Assumptions C67_spin_rotation.

(** Controlled phases add their angles and are unitary. *)
Theorem C67_phases (x y : R) :
  exists U V, CPHASE (cis x) = Ok U /\ CPHASE (cis y) = Ok V /\ mmul U V = CPHASE (cis (x + y)) /\
    unitary 4 U /\ CPHASE (cis 0) = Ok (idm C 4) /\ CPHASE (cis (x + 2%:R * PI)) = Ok U.
Proof.
have [U [V [eU [eV [_ [hM hu]]]]]] := C48_CPHASE (cis x) (cis y).
exists U, V; split; first exact: eU; split; first exact: eV.
split; first by rewrite hM cisD. split; first exact: (hu (cis_norm x)).
split; last by rewrite cisD cis_2PI mulr1.
rewrite cis0 CPHASEE; congr Ok; rewrite idm_dgm; apply: dgm_ext => i _; by case: ifP.
Qed.
Print Assumptions C67_phases.

Delimit Scope Z_scope with BZ.

(** [r] is a multiple of 10^-15 nearest to [x]: Python's [round(x, 15)] in
    exact arithmetic, whatever it does with ties. *)
Definition tick15 : R := Rinv (IZR 1000000000000000%BZ).
Definition rounds15 (x r : R) : Prop :=
  (exists z : Z, r = Rmult (IZR z) tick15) /\ Rle (Rabs (Rminus r x)) (Rdiv tick15 (IZR 2%BZ)).

(** The gate the code returns: the cosine and sine of half the angle, rounded. *)
Definition roundedRotation (ax : axis) (x : R) (U : mat C) : Prop :=
  exists c s, rounds15 (cos (x / 2%:R)) c /\ rounds15 (sin (x / 2%:R)) s /\ qubRotation ax (ofR c) (ofR s) = Ok U.

Section Gram.
Variable F : numClosedFieldType.
Add Field Ff : (@C_field F).
Lemma rot_gram_sg (sg : mat F) (c s : F) : square 2 sg -> mulm sg sg = idm F 2 -> hc sg = sg -> c^* = c -> s^* = s ->
  mulm (hc (rotm sg c s)) (rotm sg c s) = scalem (c * c + s * s) (idm F 2).
Proof.
move=> [r1 r2] h1 h2 h3 h4; rewrite (rot_hc r1 r2 h2 h3 h4) rot_mul //.
apply: mat_ext => [||i j _ _]; rewrite /rotm ?shapes ?r1 ?r2 //.
rewrite ent_subm ?shapes ?r1 ?r2 // !ent_scalem; move: (ent (idm F 2) i j) (ent sg i j) => e x; cnorm1 F; ring.
Qed.
Lemma rot_gram (ax : axis) (c s : F) : ax <> AxOther -> c^* = c -> s^* = s -> exists U, qubRotation ax c s = Ok U /\
  square 2 U /\ mmul (hc U) U = Ok (scalem (c * c + s * s) (idm F 2)).
Proof.
move=> ha h3 h4; have [sx sy sz] := gen_sq F; have [hx hy hz] := gen_hc F.
have key (f : result (mat F)) a b d e : f = Ok (m2 a b d e) -> mulm (m2 a b d e) (m2 a b d e) = idm F 2 -> hc (m2 a b d e) = m2 a b d e ->
    exists U, rotation f c s = Ok U /\ square 2 U /\ mmul (hc U) U = Ok (scalem (c * c + s * s) (idm F 2)).
  move=> hf q1 q2; exists (rotm (m2 a b d e) c s); rewrite (rotationE _ _ hf) //; split=> //; split; first by split.
  by rewrite mmulE // rot_gram_sg.
by case: ax ha => // _; [apply: (key _ _ _ _ _ (sigmaxE F)) | apply: (key _ _ _ _ _ (sigmayE F)) | apply: (key _ _ _ _ _ (sigmazE F))].
Qed.
Lemma rot_diff (ax : axis) (c s c' s' e : F) U V i j : ax <> AxOther -> qubRotation ax c s = Ok U -> qubRotation ax c' s' = Ok V ->
  `|c - c'| <= e -> `|s - s'| <= e -> (i < 2)%N -> (j < 2)%N -> `|ent U i j - ent V i j| <= e + e.
Proof.
move=> ha eU eV hc hs hi hj.
have [sg [b1 hsg]] : exists sg : mat F, (`|ent sg i j| <= 1) /\
    match ax with AxX => sigmax = Ok sg | AxY => sigmay = Ok sg | AxZ => sigmaz = Ok sg | AxOther => True end.
  case: ax ha {eU eV} => // _; rewrite ?sigmaxE ?sigmayE ?sigmazE; eexists; (split; last by []);
    move: i j hi hj => [|[|i]] [|[|j]] // _ _; rewrite ent_mk //= ?normr0 ?normr1 ?normrN ?normCi ?normr1 ?ler01 ?lexx //.
rewrite (C48_rotation_entries hsg eU hi hj) (C48_rotation_entries hsg eV hi hj).
have -> : c * delta F i j - 'i * s * ent sg i j - (c' * delta F i j - 'i * s' * ent sg i j)
  = (c - c') * delta F i j - 'i * ((s - s') * ent sg i j).
  by move: (delta F i j) (ent sg i j) => d x; cnorm1 F; ring.
apply: (le_trans (ler_norm_sub _ _)); apply: ler_add.
  apply: (le_trans _ hc); rewrite normrM ler_pimulr // /delta; by case: (i == j); rewrite ?normr1 ?normr0 ?ler01.
by rewrite normrM normCi mul1r; apply: (le_trans _ hs); rewrite normrM ler_pimulr.
Qed.
End Gram.

Lemma ofR_le (x y : R) : Rle x y -> ofR x <= ofR y.
Proof. by move=> /RleP h; rewrite /ofR lecR. Qed.
Lemma norm_ofR (x : R) : `|ofR x| = ofR (Rabs x).
Proof. by rewrite /ofR normc_def /= expr0n /= addr0 sqrtr_sqr. Qed.

Lemma abs_inv (x a : R) : Rle (Rabs x) a -> Rle (Ropp a) x /\ Rle x a.
Proof. by rewrite /Rabs; case: Rcase_abs => h h'; split; lra. Qed.

Lemma round_defect (c s a b u : R) : Rplus (Rmult c c) (Rmult s s) = R1 -> Rlt R0 u -> Rle u R1 ->
  Rle (Rabs (Rminus a c)) (Rdiv u (IZR 2%BZ)) -> Rle (Rabs (Rminus b s)) (Rdiv u (IZR 2%BZ)) ->
  Rle (Rabs (Rminus (Rplus (Rmult a a) (Rmult b b)) R1)) (Rmult (IZR 3%BZ) u).
Proof.
move=> h1 h2 h3 ha hb.
have hc : Rle (Rabs c) R1 by apply: Rsqr_incr_0_var; [rewrite -Rsqr_abs /Rsqr; nra | lra].
have hs : Rle (Rabs s) R1 by apply: Rsqr_incr_0_var; [rewrite -Rsqr_abs /Rsqr; nra | lra].
move: ha hb hc hs => /abs_inv[a1 a2] /abs_inv[b1 b2] /abs_inv[c1 c2] /abs_inv[s1 s2].
apply: Rabs_le; split; nra.
Qed.

(** What the rounding does: every entry of the returned gate is within 10^-15 of
    the exact rotation, and the gate is a unitary matrix up to a factor within
    3*10^-15 of one. *)
Theorem C67_rounded (ax : axis) (x : R) (U : mat C) : ax <> AxOther -> roundedRotation ax x U ->
  exists V q, rotationBy ax x = Ok V /\ square 2 U /\
    (forall i j, (i < 2)%N -> (j < 2)%N -> `|ent U i j - ent V i j| <= ofR tick15) /\
    mmul (hc U) U = Ok (scalem (ofR q) (idm C 2)) /\ Rle (Rabs (Rminus q R1)) (Rmult (IZR 3%BZ) tick15).
Proof.
move=> ha [c [s [[_ hc] [[_ hs] eU]]]].
have [V [eV _]] := rot_gram ha (conj_ofR (cos (x / 2%:R))) (conj_ofR (sin (x / 2%:R))).
have [W [eW [sW gW]]] := rot_gram ha (conj_ofR c) (conj_ofR s).
have hW : W = U by move: eW; rewrite eU => /(@Ok_inj _ _ _).
have dist (a b : R) : Rle (Rabs (Rminus a b)) (Rdiv tick15 (IZR 2%BZ)) -> `|ofR a - ofR b| <= ofR (Rdiv tick15 (IZR 2%BZ)).
  by move=> h; rewrite -[_ - _]/(ofR a - ofR b) /ofR -rmorphB -/(ofR _) norm_ofR; apply: ofR_le.
exists V, (Rplus (Rmult c c) (Rmult s s)); split; first exact: eV.
rewrite -hW; split; first exact: sW; split.
  move=> i j hi hj; have := rot_diff ha eW eV (dist _ _ hc) (dist _ _ hs) hi hj.
  have -> : ofR (Rdiv tick15 (IZR 2%BZ)) + ofR (Rdiv tick15 (IZR 2%BZ)) = ofR tick15; last by [].
  by rewrite /ofR -rmorphD; congr (_%:C)%C; match goal with |- @eq _ ?u ?v => change (@eq R (Rplus (Rdiv tick15 (IZR 2%BZ)) (Rdiv tick15 (IZR 2%BZ))) tick15) end; field.
split; first by rewrite gW -!ofRM /ofR -rmorphD.
apply: (round_defect _ _ _ hc hs).
- by have := sin2_cos2 (x / 2%:R); rewrite /Rsqr Rplus_comm.
- by apply: Rinv_0_lt_compat; apply: IZR_lt.
- by rewrite /tick15; lra.
Qed.
Print Assumptions C67_rounded.

Lemma third_bounds (c : R) : Rle (Ropp (Rdiv tick15 (IZR 2%BZ))) (Rminus c (Rdiv R1 (IZR 3%BZ))) ->
  Rle (Rminus c (Rdiv R1 (IZR 3%BZ))) (Rdiv tick15 (IZR 2%BZ)) ->
  Rlt (IZR 999999999999997%BZ) (Rmult (IZR 3%BZ) (Rmult c (IZR 1000000000000000%BZ))) /\
  Rlt (Rmult (IZR 3%BZ) (Rmult c (IZR 1000000000000000%BZ))) (IZR 1000000000000002%BZ).
Proof. by rewrite /tick15 => h1 h2; split; lra. Qed.

(** The rounded gate is not always unitary: at the angle with cosine 1/3 no
    choice of nearest decimals makes it so. *)
Theorem C67_rounded_refuted : exists x, forall ax U, ax <> AxOther -> roundedRotation ax x U -> ~ unitary 2 U.
Proof.
have three : (Rle (IZR (-1)%BZ) (Rdiv R1 (IZR 3%BZ)) /\ Rle (Rdiv R1 (IZR 3%BZ)) R1) by split; lra.
exists (acos (Rdiv R1 (IZR 3%BZ)) * 2%:R) => ax U ha [c [s [[[z ez] hc] [[[w ew] hs] eU]]]] hu.
have [W [eW [sW gW]]] := rot_gram ha (conj_ofR c) (conj_ofR s).
have hW : W = U by move: eW; rewrite eU => /(@Ok_inj _ _ _).
have q1 : Rplus (Rmult c c) (Rmult s s) = R1.
  move/unitaryE: hu => [_ hu _]; move: gW; rewrite hW mmulE // hu.
  move=> /(@Ok_inj _ _ _) e; have := congr1 (fun M => ent M 0 0) e.
  rewrite ent_scalem !ent_mk //= mulr1 -!ofRM /ofR -rmorphD => /(congr1 (@complex.Re _)) /= h.
  by symmetry; exact: h.
move: hc; rewrite mulfK ?pnatr_eq0 // cos_acos // => /abs_inv[h1 h2].
have T : IZR 1000000000000000%BZ <> R0 by apply: not_0_IZR.
have ez' : Rmult c (IZR 1000000000000000%BZ) = IZR z by rewrite ez /tick15; field.
have ew' : Rmult s (IZR 1000000000000000%BZ) = IZR w by rewrite ew /tick15; field.
have hz : (z = 333333333333333)%BZ.
  have [g1 g2] : (Rlt (IZR 999999999999997%BZ) (IZR (3 * z)%BZ) /\ Rlt (IZR (3 * z)%BZ) (IZR 1000000000000002%BZ)).
    by rewrite mult_IZR -ez'; apply: third_bounds h1 h2.
  by move: g1 g2 => /lt_IZR g1 /lt_IZR g2; lia.
have e : (z * z + w * w = 1000000000000000 * 1000000000000000)%BZ.
  apply: eq_IZR; rewrite plus_IZR !mult_IZR -ez' -ew'.
  have -> : Rplus (Rmult (Rmult c (IZR 1000000000000000%BZ)) (Rmult c (IZR 1000000000000000%BZ)))
     (Rmult (Rmult s (IZR 1000000000000000%BZ)) (Rmult s (IZR 1000000000000000%BZ)))
     = Rmult (Rplus (Rmult c c) (Rmult s s)) (Rmult (IZR 1000000000000000%BZ) (IZR 1000000000000000%BZ)) by ring.
  by rewrite q1 Rmult_1_l.
have [k [ew2|ew2]] : exists k, (w = 2 * k \/ w = 2 * k + 1)%BZ.
  by exists (Z.div w 2); have := Z.div_mod w 2; have := Z.mod_pos_bound w 2; lia.
- by move: e; rewrite hz ew2; lia.
- by move: e; rewrite hz ew2; lia.
Qed.
Print Assumptions C67_rounded_refuted.

(** Rounded gates exist at every angle, so neither statement is empty. *)
Example C67_ex_rounded (ax : axis) (x : R) : ax <> AxOther -> exists U, roundedRotation ax x U.
Proof.
move=> ha; have ex (y : R) : exists r, rounds15 y r.
  have [u1 u2] := archimed (Rminus (Rmult y (IZR 1000000000000000%BZ)) (Rdiv R1 (IZR 2%BZ))).
  move: u1 u2; move: (up _) => z u1 u2; exists (Rmult (IZR z) tick15); split; first by exists z.
  by rewrite /tick15; apply: Rabs_le; split; lra.
have [c hc] := ex (cos (x / 2%:R)); have [s hs] := ex (sin (x / 2%:R)).
have [U [eU _]] := rot_gram ha (conj_ofR c) (conj_ofR s).
by exists U, c, s.
Qed.

Example C67_ex_spin : exists expm, matrixExponential expm /\ spinArg (3%:R / 2%:R) false 3.
Proof. by exists expmT; split; [exact: expmT_exp | left]. Qed.
