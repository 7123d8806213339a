(** C40 and C50: gates on open systems, and open evolution. *)
From mathcomp Require Import all_ssreflect all_algebra all_field.
From Verif Require Py.
From Verif Require Import MatModel OperModel StateModel EvolModel MatLib MatSpec MatProofs CField OperProofs GateProofs ExpmInst EvolSpec EvolProofs.
From Verif Require Import PropsEvol PropsOper.
Set Implicit Arguments.
Unset Strict Implicit.
Unset Printing Implicit Defensive.
Import Order.TTheory GRing.Theory Num.Theory.
Local Open Scope ring_scope.

Notation AC := [numClosedFieldType of algC].

(** ** C40: gates applied to open systems *)

(** The super-operator of a gate is [rho -> U rho U], not [U rho U^+]. *)
Theorem C40_open_gate_action (C : numClosedFieldType) expm jop phase angle rot sys (n : nat) (U : mat C) :
  square n U ->
  (rotMat expm jop phase angle sys false = Ok U ->
   exists S, rotMat expm jop phase angle sys true = Ok S /\
     forall rho, square n rho -> isMatrix n (prod3 n U rho U) (applySO S rho)) /\
  (instantFlip rot sys false = Ok U ->
   exists S, instantFlip rot sys true = Ok S /\
     forall rho, square n rho -> isMatrix n (prod3 n U rho U) (applySO S rho)).
Proof.
move=> hU; split.
- case: sys => // s rest /=; case: rotOne => //= V; case: rotLoop => //= W [->].
  by exists (prepostSO U None); split=> // rho hr; apply: C38_default_is_same_operator.
- case: sys => // s rest /=; case: flipOne => //= V; case: rotLoop => //= W [->].
  by exists (prepostSO U None); split=> // rho hr; apply: C38_default_is_same_operator.
Qed.
Print Assumptions C40_open_gate_action.

(** So the open-system gate is right exactly when [U] is Hermitian. *)
Theorem C40_right_iff_hermitian (C : numClosedFieldType) (n : nat) (U S : mat C) :
  unitary n U -> S = prepostSO U None ->
  (forall rho, square n rho ->
     isMatrix n (fun i j => \sum_(k < n) \sum_(l < n) ent U i k * ent rho k l * (ent U j l)^*) (applySO S rho))
  <-> hermitian n U.
Proof.
move=> hU ->; have /unitaryE[sU u1 u2] := hU; have [s1 s2] := sU; split.
- move=> h; apply/hermitianE; split=> //.
  have sh : square n (hc U) by split.
  have [M [h1 [sM h2]]] := h _ sh.
  have [N [h3 [sN h4]]] := C38_default_is_same_operator sU sh.
  move: h3; rewrite h1 => /(@Ok_inj _ _ _) e; subst N.
  have e1 : M = U.
    apply: mat_ext; rewrite ?(proj1 sM) ?(proj2 sM) // => i j hi hj; rewrite h4 //.
    by rewrite -(@prod3E C n) //= u2 mul1m.
  apply: mat_ext; rewrite /= ?s1 ?s2 // => i j hi hj; rewrite -[in RHS]e1 h2 //.
  transitivity (prod3 n U (hc U) (hc U) i j).
    by rewrite -(@prod3E C n) //= u2 mul1m.
  by apply: eq_bigr => k _; apply: eq_bigr => l _; rewrite !ent_hc.
- move=> /hermitianE[_ e] rho hr.
  have [N [h3 [sN h4]]] := C38_default_is_same_operator sU hr.
  exists N; split=> //; split=> // i j hi hj; rewrite h4 //.
  by apply: eq_bigr => k _; apply: eq_bigr => l _; rewrite -[in ent U l j]e ent_hc.
Qed.
Print Assumptions C40_right_iff_hermitian.

(** A flip by pi about any axis reverses the sign of the trace of every state. *)
Theorem C40_trace_refuted (C : numClosedFieldType) (ax : axis) :
  ax <> AxOther ->
  exists S, instantFlip (qubRotation ax (0 : C) 1) [:: (2, 1, 1)%N] true = Ok S /\
    forall rho, square 2 rho -> exists R, applySO S rho = Ok R /\ trace R = - trace rho.
Proof.
move=> ha; have [sx sy sz] := gen_sq C.
have gen (sg : mat C) : square 2 sg -> mulm sg sg = idm C 2 ->
    exists S, (do r <- Ok (rotm sg 0 1); compositeOp r 1 1) = Ok S /\
      forall rho, square 2 rho -> exists R, applySO (prepostSO S None) rho = Ok R /\ trace R = - trace rho.
  move=> [s1 s2] e; exists (rotm sg 0 1); split; first by rewrite /= compositeOpE kron1m kronm1.
  move=> rho [r1 r2].
  have sU : square 2 (rotm sg 0 1) by [].
  have [R [h1 [[R1 R2] h2]]] := C38_default_is_same_operator sU (conj r1 r2).
  exists R; split=> //.
  have -> : R = mulm (mulm (rotm sg 0 1) rho) (rotm sg 0 1).
    by apply: mat_ext; rewrite ?R1 ?R2 //= => i j hi hj; rewrite h2 // (@prod3E C 2).
  rewrite trace_mulmC //= mulmA.
  have -> : mulm (rotm sg 0 1) (rotm sg 0 1) = scalem (-1) (idm C 2).
    rewrite rot_mul //; apply: mat_ext => // i j _ _; rewrite ent_subm // !ent_scalem.
    by rewrite !(mul0r, mul1r, mulr1, mulr0, add0r, addr0, subr0, sub0r).
  by rewrite scalemAl mul1m // trace_scalem mulN1r.
case: ax ha => // _; rewrite /instantFlip /flipOne /qubRotation.
- rewrite /xRotation (rotationE _ _ (sigmaxE C)) //.
  by have [|S [h1 h2]] := gen _ _ sx; [by [] | rewrite h1; exists (prepostSO S None)].
- rewrite /yRotation (rotationE _ _ (sigmayE C)) //.
  by have [|S [h1 h2]] := gen _ _ sy; [by [] | rewrite h1; exists (prepostSO S None)].
- rewrite /zRotation (rotationE _ _ (sigmazE C)) //.
  by have [|S [h1 h2]] := gen _ _ sz; [by [] | rewrite h1; exists (prepostSO S None)].
Qed.
Print Assumptions C40_trace_refuted.

(** With both operators given, the toolbox function is the right map. *)
Theorem C40_explicit_adjoint (C : numClosedFieldType) (n : nat) (U : mat C) :
  unitary n U -> forall rho, square n rho ->
    exists R, applySO (prepostSO U (Some (hc U))) rho = Ok R /\ square n R /\ trace R = trace rho.
Proof.
move=> /unitaryE[sU u1 u2] rho hr; have [s1 s2] := sU; have [r1 r2] := hr.
have sh : square n (hc U) by split.
have [_ [_ [R [h1 [[R1 R2] h2]]]]] := C38_superoperators sU sh hr.
exists R; do 2 split=> //.
have -> : R = mulm (mulm U rho) (hc U).
  by apply: mat_ext; rewrite ?R1 ?R2 //= => i j hi hj; rewrite h2 // (@prod3E C n).
by rewrite trace_mulmC /= ?s2 // mulmA u1 mul1m.
Qed.
Print Assumptions C40_explicit_adjoint.

(** On closed systems the gates are unitary on the whole space, for any number
    of sub-systems. *)
Definition axisOp (C : numClosedFieldType) (ax : axis) : rat -> bool -> result (mat C) :=
  match ax with AxX => Jx C | AxY => Jy C | AxZ => Jz C | AxOther => fun _ _ => Err Py.ValueError end.

Lemma unitary_mul (C : numClosedFieldType) (n : nat) (U V : mat C) :
  unitary n U -> unitary n V -> unitary n (mulm U V).
Proof.
move=> /unitaryE[[u1 u2] e1 e2] /unitaryE[[v1 v2] e3 e4]; apply/unitaryE; split=> //.
- by rewrite hc_mulm ?u2 // mulmA -[mulm (mulm (hc V) _) U]mulmA e1 mulm1 //= v1.
- by rewrite hc_mulm ?u2 // mulmA -[mulm (mulm U _) (hc V)]mulmA e4 mulm1 //= u2.
Qed.

Lemma rotLoop_unitary (C : numClosedFieldType) (n : nat) one sys (U : mat C) :
  (forall s, List.In s sys -> exists V, one s = Ok V /\ unitary n V) -> unitary n U ->
  exists W, rotLoop one sys U = Ok W /\ unitary n W.
Proof.
rewrite /rotLoop; elim: sys U => [|s sys IH] U h hU; first by exists U.
have [V [h1 h2]] := h s (or_introl erefl); rewrite /= h1 /= mmulE; last first.
  by case: h2 hU => -[_ ->] _ [[->]].
by apply: IH => [s' hs|]; [apply: h; right | apply: unitary_mul].
Qed.

Lemma comp_unitary (C : numClosedFieldType) (d b a : nat) (U : mat C) :
  unitary d U -> unitary (b * d * a) (comp U b a).
Proof.
move=> /unitaryE[[u1 u2] e1 e2]; apply/unitaryE; have [s1 s2] := comp_shape U b a.
by split; rewrite ?comp_hc ?comp_mul //= ?e1 ?e2 ?comp_id //; split; rewrite ?s1 ?s2 ?u1 ?u2.
Qed.

Theorem C40_closed_gate_unitary (C : numClosedFieldType) expm ax (phase angle : C) sys (n : nat) :
  expmLaws expm -> ax <> AxOther -> (phase * angle)^* = phase * angle -> sys <> [::] ->
  (forall d b a, List.In (d, b, a) sys -> (0 < d)%N /\ (0 < b)%N /\ (0 < a)%N /\ (b * d * a)%N = n) ->
  exists U, rotMat expm (axisOp C ax) phase angle sys false = Ok U /\ unitary n U.
Proof.
move=> hE ha ht hne hs.
have one s : List.In s sys -> exists V, rotOne expm (axisOp C ax) (phase * angle) s = Ok V /\ unitary n V.
  case: s => [[d b] a] hin; have [hd [hb [ha' hn]]] := hs _ _ _ hin.
  have hsp : spinArg d%:R true d.-1 by right; rewrite prednK.
  have [J [hJ [sJ eJ]]] : exists J, axisOp C ax d%:R true = Ok J /\ square d J /\ hc J = J.
    case: ax ha => // _ /=.
    - by exists (jx C d.-1); rewrite (JxE C hsp) hc_jx; do 2 split=> //; split; rewrite /= prednK.
    - by exists (jy C d.-1); rewrite (JyE C hsp) hc_jy; do 2 split=> //; split; rewrite /= prednK.
    - by exists (dgm d.-1.+1 (jz C d.-1)); rewrite (JzE C hsp) hc_Z; do 2 split=> //; split; rewrite /= prednK.
  rewrite /rotOne hJ /= compositeOpE /= -/(comp J (maxn b 1) (maxn a 1)) !maxn1 //.
  apply: C60_unitary_evolution => //; last exact: conjC1.
  apply/hermitianE; have [c1 c2] := comp_shape J b a; split.
    by case: sJ => j1 j2; split; rewrite ?rows_scalem ?cols_scalem ?c1 ?c2 ?j1 ?j2 ?hn.
  by rewrite hc_scalem comp_hc eJ ht.
case: sys hne hs one => // s rest _ hs one.
have [V [h1 h2]] := one s (or_introl erefl); rewrite /rotMat h1 /=.
have [|W [h3 h4]] := @rotLoop_unitary C n (rotOne expm (axisOp C ax) (phase * angle)) rest V _ h2.
  by move=> s' hs'; apply: one; right.
by exists W; rewrite h3.
Qed.
Print Assumptions C40_closed_gate_unitary.

Theorem C40_closed_flip_unitary (C : numClosedFieldType) ax (c s : C) sys (n : nat) :
  ax <> AxOther -> c^* = c -> s^* = s -> c * c + s * s = 1 -> sys <> [::] ->
  (forall d b a, List.In (d, b, a) sys -> (0 < b)%N /\ (0 < a)%N /\ (b * 2 * a)%N = n) ->
  exists U, instantFlip (qubRotation ax c s) sys false = Ok U /\ unitary n U.
Proof.
move=> ha hc' hs' h1 hne hs; have [R [hR uR]] := C48_rotations_unitary ha hc' hs' h1.
have one x : List.In x sys -> exists V, flipOne (qubRotation ax c s) x = Ok V /\ unitary n V.
  case: x => [[d b] a] hin; have [hb [ha' hn]] := hs _ _ _ hin.
  rewrite /flipOne hR /= compositeOpE !maxn1 //; eexists; split; first by [].
  by rewrite -hn; apply: comp_unitary.
case: sys hne hs one => // x rest _ hs one.
have [V [g1 g2]] := one x (or_introl erefl); rewrite /instantFlip g1 /=.
have [|W [h3 h4]] := @rotLoop_unitary C n (flipOne (qubRotation ax c s)) rest V _ g2.
  by move=> y hy; apply: one; right.
by exists W; rewrite h3.
Qed.
Print Assumptions C40_closed_flip_unitary.

Example C40_ex : (forall d b a, List.In (d, b, a) [:: (2, 1, 6); (3, 2, 2); (2, 6, 1)]%N ->
  (0 < d)%N /\ (0 < b)%N /\ (0 < a)%N /\ (b * d * a)%N = 12%N).
Proof. by move=> d b a [[<- <- <-]|[[<- <- <-]|[[<- <- <-]|[]]]]. Qed.
Example C40_ex_unitary : exists U : mat AC, unitary 2 U /\ ~ hermitian 2 U.
Proof.
exists (scalem 'i (idm AC 2)); split.
  apply/unitaryE; rewrite hc_scalem hc_idm conjCi; split=> //.
    by rewrite scalemAl scalemAr scalemA mul1m // mulNr -expr2 sqrCi opprK scale1m.
  by rewrite scalemAl scalemAr scalemA mul1m // mulrN -expr2 sqrCi opprK scale1m.
case=> _ /(_ 0%N 0%N isT isT); rewrite ent_scalem ent_idm mulr1 conjCi => /eqP.
by rewrite eq_sym eqNr (negbTE (neq0Ci _)).
Qed.

(** ** C50: open evolution *)

(** Each state is obtained from the previous one by applying [E]. *)
Fixpoint chain (C : numClosedFieldType) (E rho : mat C) (states : seq (mat C)) : Prop :=
  match states with
  | [::] => True
  | r :: rest => applySO E rho = Ok r /\ chain E r rest
  end.

(** The state evolution starts from: a matrix as it is, a ket as its projector. *)
Definition startsFrom (C : numClosedFieldType) (n : nat) (initialState rho0 : mat C) : Prop :=
  (square n initialState /\ rho0 = initialState) \/
  (hasShape initialState n 1 /\ n <> 1%N /\ outerProd initialState None = Ok rho0).

Lemma start_square (C : numClosedFieldType) n (s r : mat C) : startsFrom n s r -> square n r.
Proof. by case=> [[h ->]//|[[h1 h2] [_ /mmul_inv[_ ->]]]]; split. Qed.

Lemma evolveLoopE (C : numClosedFieldType) n (E : mat C) k rho : square (n * n) E -> square n rho ->
  exists states, evolveLoop E k (vecm rho) = Ok states /\ size states = k /\ chain E rho states.
Proof.
move=> hE; elim: k rho => [|k IH] rho hr; first by exists [::].
have [e1 e2] := hE; have [r1 r2] := hr.
set w := mulm E (vecm rho).
have hw : hasShape w (n * n) 1 by split.
have [states [h1 [h2 h3]]] := IH (unvecm n w) (conj erefl erefl).
exists (unvecm n w :: states); split; last by split; [rewrite /= h2 | split=> //; rewrite (applyE hE hr)].
rewrite /= mmulE /= ?e2 ?r1 ?r2 // -/w (vec2MatE hw) /=.
by move: h1; rewrite vecK // => ->.
Qed.

Theorem C50_states (C : numClosedFieldType) expm (n k : nat) (init rho0 E : mat C) T dt H co rates double :
  LiouvillianExp expm H (ratr dt) co rates true double = Ok E -> square (n * n) E ->
  startsFrom n init rho0 -> stepCount T dt = Ok k ->
  exists states, size states = k /\ chain E rho0 states /\
    evolveOpen expm init T dt H co rates false double = Ok (rho0 :: states, rho0 :: states) /\
    evolveOpen expm init T dt H co rates true double = Ok ([:: rho0], rho0 :: states).
Proof.
move=> hL sE hs hk; have hr := start_square hs.
have [states [h1 [h2 h3]]] := evolveLoopE k sE hr.
exists states; do 2 split=> //; rewrite /evolveOpen hL /=.
have -> : (if rows init != cols init then densityMatrix init else Ok init) = Ok rho0.
  case: hs => [[[-> ->] ->]|[[i1 i2] [hn ho]]]; first by rewrite eqxx.
  by rewrite i1 i2; case: eqP.
by rewrite /= mat2VecE /= hk /= h1.
Qed.
Print Assumptions C50_states.

Theorem C50_step_count (T dt : rat) :
  (0 <= T -> 0 < dt -> exists k, stepCount T dt = Ok k /\ k%:R * dt <= T /\ T < k.+1%:R * dt) /\
  (T < 0 -> 0 < dt -> stepCount T dt = Ok 0%N) /\ stepCount T 0 = Err Py.ZeroDivisionError.
Proof.
split; last first.
  split; last by rewrite /stepCount eqxx.
  move=> hT hd; rewrite /stepCount gt_eqF //; congr Ok.
  have hq : T / dt < 0 by rewrite pmulr_llt0 ?invr_gt0.
  rewrite /truncZ sgr_numq ltr0_sgz // mulN1r.
  by case: (`|_| %/ _)%N.
move=> hT hd; rewrite /stepCount gt_eqF //.
have : 0 <= T / dt by rewrite divr_ge0 // ltW.
set q := T / dt => hq.
have eT : T = q * dt by rewrite /q divfK // gt_eqF.
have hn : numq q = (`|numq q|)%N by rewrite gez0_abs // numq_ge0.
have hd' : denq q = (`|denq q|)%N by rewrite gez0_abs.
have dpos : (0 < `|denq q|)%N by rewrite absz_gt0 denq_neq0.
have eq : q * (`|denq q|%N)%:R = (`|numq q|%N)%:R by rewrite !pmulrn -hd' -hn numqE.
have -> : truncZ q = (`|numq q| %/ `|denq q|)%N.
  rewrite /truncZ; case: (sgzP (numq q)) => [->|h|h].
  - by rewrite absz0 div0n mul0r.
  - by rewrite mul1r.
  - by move: hq; rewrite -numq_ge0 leNgt h.
eexists; split; first by []; rewrite eT.
rewrite ler_pmul2r // ltr_pmul2r //.
have dpos' : 0 < (`|denq q|%N)%:R :> rat by rewrite ltr0n.
rewrite -(ler_pmul2r dpos') -(ltr_pmul2r dpos') eq -!natrM ler_nat ltr_nat.
by rewrite leq_trunc_div ltn_ceil.
Qed.
Print Assumptions C50_step_count.

(** Every state keeps the trace of the first, and all are Hermitian if the first is. *)
Theorem C50_trace_hermiticity (C : numClosedFieldType) expm (n : nat) (init rho0 H : mat C) cs rates T dt k :
  expmTotal expm -> expmFixes expm -> expmConj expm -> expmSimilar expm ->
  (0 < n)%N -> square n H -> (forall c, List.In c cs -> square n c) -> (size cs <= size rates)%N ->
  startsFrom n init rho0 -> stepCount T dt = Ok k ->
  exists states calls,
    evolveOpen expm init T dt (Some H) (CList (map (@COp C) cs)) (Some rates) false false = Ok (states, calls) /\
    size states = k.+1 /\
    (forall rho, List.In rho states -> trace rho = trace rho0) /\
    (hermitian n H -> (forall r, r \in rates -> r^* = r) -> hermitian n rho0 ->
     forall rho, List.In rho states -> hermitian n rho).
Proof.
move=> eT eF eC eS hn hH hcs hsz hs hk.
have [E [hL [sE h]]] := C39_exponential (ratr dt) eT eF eC eS hn hH hcs hsz.
have [states [h1 [h2 [h3 _]]]] := C50_states hL sE hs hk.
have hr := start_square hs.
exists (rho0 :: states), (rho0 :: states); split=> //; split; first by rewrite /= h1.
split.
  move=> rho [<-//|]; clear h1 h3 hk hs.
  elim: states rho0 h2 hr => // r states IH rho0 [h4 h5] hr.
  have [R [g1 [g2 [g3 _]]]] := h rho0 hr.
  move: g1; rewrite h4 => /(@Ok_inj _ _ _) e; subst R.
  by case=> [<-//|hin]; rewrite -g3; apply: IH.
move=> hherm hreal h0 rho [<-//|]; clear h1 h3 hk hs.
have ht : (ratr dt : C)^* = ratr dt by exact: fmorph_rat.
elim: states rho0 h2 hr h0 => // r states IH rho0 [h4 h5] hr h0.
have [R [g1 [g2 [_ g3]]]] := h rho0 hr.
move: g1; rewrite h4 => /(@Ok_inj _ _ _) e; subst R.
have hr' : hermitian n r.
  apply/hermitianE; split=> //; have := g3 hherm ht hreal.
  by have /hermitianE[_ ->] := h0; rewrite h4 => /(@Ok_inj _ _ _).
by case=> [<-//|hin]; apply: (IH r).
Qed.
Print Assumptions C50_trace_hermiticity.

(** Without a list of collapse operators the step is a unitary of the wrong
    size: evolution fails at the first step for every system of two or more levels. *)
Theorem C50_closed_refuted (C : numClosedFieldType) expm (n k : nat) (init rho0 H : mat C) T dt l rates del double :
  expmTotal expm -> (1 < n)%N -> square n H -> startsFrom n init rho0 -> stepCount T dt = Ok k.+1 ->
  evolveOpen expm init T dt (Some H) CNone rates del double = Err Py.ValueError /\
  evolveOpen expm init T dt (Some H) (CSeq l) rates del double = Err Py.ValueError.
Proof.
move=> eT hn hH hs hk; have [r1 r2] := start_square hs.
have sH : square n (scalem (ratr dt) (scalem (- 'i) H)) by case: hH => h1 h2; split.
have [U [hU [u1 u2]]] := eT _ _ sH.
have hi : (if rows init != cols init then densityMatrix init else Ok init) = Ok rho0.
  case: hs => [[[-> ->] ->]|[[i1 i2] [hne ho]]]; first by rewrite eqxx.
  by rewrite i1 i2; case: eqP.
have hm : mmul U (vecm rho0) = Err Py.ValueError.
  rewrite /mmul u2 /= r1 r2; case: eqP => // e.
  by case: n hn e {hH hs r1 r2 sH hU u1 u2} => [|[|n]] // _; rewrite !mulSn !addSn => -[] /eqP; rewrite -{1}[n]addn0 eqn_add2l.
by rewrite /evolveOpen /LiouvillianExp /Unitary hU /= hi /= mat2VecE /= hk /= hm.
Qed.
Print Assumptions C50_closed_refuted.

Example C50_ex : stepCount 1 (1 / 4%:R) = Ok 4%N /\ startsFrom 2 (mk 2 1 (fun i _ => (i == 0%N)%:R) : mat AC)
  (mulm (mk 2 1 (fun i _ => (i == 0%N)%:R)) (hc (mk 2 1 (fun i _ => (i == 0%N)%:R)))).
Proof. by split; [vm_compute | right; rewrite /outerProd mmulE]. Qed.
