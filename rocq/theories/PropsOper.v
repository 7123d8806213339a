(** C41-C43, C48, C59-C61: ladder, spin and Pauli operators, rotations and gates. *)
From mathcomp Require Import all_ssreflect all_algebra all_field.
From Verif Require Py.
From Verif Require Import MatModel OperModel MatLib MatSpec MatProofs CField OperProofs GateProofs ExpmInst EvolSpec.
Set Implicit Arguments.
Unset Strict Implicit.
Unset Printing Implicit Defensive.
Import GRing.Theory Num.Theory.
Local Open Scope ring_scope.

Notation AC := [numClosedFieldType of algC].

(** ** C41: ladder operators, for every dimension *)
Theorem C41_ladder_operators (C : numClosedFieldType) (d : nat) :
  exists a c n, destroy C d = Ok a /\ create C d = Ok c /\ number C d = Ok n /\
    hasShape a d d /\
    (forall i j, (i < d)%N -> (j < d)%N -> ent a i j = if j == i.+1 then sqrtC j%:R else 0) /\
    c = hc a /\ mmul c a = Ok n /\ diagonal d (fun i => i%:R) n.
Proof.
exists (upm d (rt C)), (dnm d (rt C)), (dgm d (fun i => i%:R)).
rewrite destroyE createE numberE create_hc mmulE // -create_hc create_destroy.
do 3 (split; first by []); split; first by [].
split; last split; last split; last split => //.
- move=> i j hi hj; rewrite ent_upm hj andbT; case: eqP => [->|//].
  by rewrite /rt addn1.
- by [].
- by [].
- move=> i j hi hj; rewrite ent_dgm hi andbT /delta; case: eqP => _; by rewrite ?mul1r ?mul0r.
Qed.
Print Assumptions C41_ladder_operators.

(** [a, a^+] is the identity except for 1 - d in the last diagonal entry;
    [n, a] = -a and [n, a^+] = a^+. *)
Theorem C41_commutators (C : numClosedFieldType) (d : nat) a c n :
  destroy C d = Ok a -> create C d = Ok c -> number C d = Ok n ->
  (exists K, commutator a c K /\ diagonal d (fun i => if i.+1 == d then 1 - d%:R else 1) K) /\
  commutator n a (scalem (-1) a) /\ commutator n c c.
Proof.
rewrite destroyE createE numberE => -[<-] [<-] [<-]; split.
  eexists; split; first by apply: (@commutatorE C d).
  rewrite destroy_create create_destroy dgm_sub; split=> // i j hi hj.
  rewrite ent_dgm hi andbT /delta; case: (i == j); rewrite ?mul1r ?mul0r //.
  case: eqP => [<-|h]; first by rewrite ltnn sub0r -(natr1 _ i) opprD addrCA subrr addr0.
  have -> : (i.+1 < d)%N by rewrite ltn_neqAle hi andbT; apply/eqP.
  by rewrite -(natr1 _ i) addrAC subrr add0r.
split; apply: (@commutatorE C d) => //.
  rewrite dg_up up_dg upm_sub upm_scale; apply: upm_ext => i _.
  by rewrite -(natr1 _ i) mulrDr mulr1 opprD addrA [_ * rt C i]mulrC subrr add0r mulN1r.
rewrite dg_dn dn_dg dnm_sub; apply: dnm_ext => i _.
by rewrite -(natr1 _ i) mulrDl mul1r [rt C i * _]mulrC addrAC subrr add0r.
Qed.
Print Assumptions C41_commutators.

Example C41_ex : exists a, destroy AC 3 = Ok a /\ ent a 1 2 = sqrtC 2%:R.
Proof.
have [a [c [n [h [_ [_ [_ [e _]]]]]]]] := C41_ladder_operators AC 3.
by exists a; rewrite h e.
Qed.

(** ** C42: angular momentum algebra, for every number of levels n+1 (spin n/2),
    given as the spin or as the dimension *)
Theorem C42_matrices (C : numClosedFieldType) (j : rat) (isDim : bool) (n : nat) :
  spinArg j isDim n ->
  exists P N Z, Jp C j isDim = Ok P /\ Jm C j isDim = Ok N /\ Jz C j isDim = Ok Z /\
    hasShape P n.+1 n.+1 /\ N = hc P /\
    diagonal n.+1 (fun i => n%:R / 2%:R - i%:R) Z /\
    (forall i k, (i < n.+1)%N -> (k < n.+1)%N ->
       ent P i k = if k == i.+1 then sqrtC ((n - i)%N%:R * k%:R) else 0).
Proof.
move=> h; rewrite (JpE C h) (JmE C h) (JzE C h); do 3 eexists; do 3 (split; first by []).
split; first by []; split; first by rewrite hc_P.
split; [split=> // | move=> i k hi hk].
  move=> i k hi hk; rewrite ent_dgm hi andbT /delta; by case: eqP => _; rewrite ?mul1r ?mul0r.
rewrite ent_upm hk andbT; case: eqP => // ->; by rewrite /jp natrM.
Qed.
Print Assumptions C42_matrices.

Theorem C42_algebra (C : numClosedFieldType) (j : rat) (isDim : bool) (n : nat) :
  spinArg j isDim n ->
  exists X Y Z P N, Jx C j isDim = Ok X /\ Jy C j isDim = Ok Y /\ Jz C j isDim = Ok Z /\
    Jp C j isDim = Ok P /\ Jm C j isDim = Ok N /\
    commutator X Y (scalem 'i Z) /\ commutator Y Z (scalem 'i X) /\ commutator Z X (scalem 'i Y) /\
    commutator Z P P /\ commutator Z N (scalem (-1) N) /\ commutator P N (scalem 2%:R Z) /\
    hermitian n.+1 X /\ hermitian n.+1 Y /\ hermitian n.+1 Z.
Proof.
move=> h; rewrite (JpE C h) (JmE C h) (JzE C h) (JxE C h) (JyE C h).
do 5 eexists; do 5 (split; first by []).
split; first by apply: (@commutatorE C n.+1) => //; apply: comm_xy.
split; first by apply: (@commutatorE C n.+1) => //; apply: comm_yz.
split; first by apply: (@commutatorE C n.+1) => //; apply: comm_zx.
split; first by apply: (@commutatorE C n.+1) => //; apply: comm_zp.
split; first by apply: (@commutatorE C n.+1) => //; apply: comm_zm.
split; first by apply: (@commutatorE C n.+1) => //; apply: comm_pm.
split; first by apply/hermitianE; split=> //; apply: hc_jx.
split; first by apply/hermitianE; split=> //; apply: hc_jy.
by apply/hermitianE; split=> //; apply: hc_Z.
Qed.
Print Assumptions C42_algebra.

(** Js = Jx^2 + Jy^2 + Jz^2 = j(j+1) times the identity. *)
Theorem C42_total_spin (C : numClosedFieldType) (j : rat) (isDim : bool) (n : nat) :
  spinArg j isDim n ->
  exists S, Js C j isDim = Ok S /\
    diagonal n.+1 (fun _ => n%:R / 2%:R * (n%:R / 2%:R + 1)) S.
Proof.
move=> h; rewrite /Js (JxE C h) (JyE C h) (JzE C h) /= !mmulE //= !maddE //= maddE //.
eexists; split; first by [].
rewrite js_val; split=> // i k hi hk; by rewrite ent_scalem ent_idm hi andbT mulrC.
Qed.
Print Assumptions C42_total_spin.

(** A value that is no spin (j = 3/4) is accepted without an error and gives
    matrices that violate [J+, J-] = 2 Jz. *)
Theorem C42_not_a_spin_refuted (C : numClosedFieldType) :
  exists P N Z, Jp C (3%:R / 4%:R) false = Ok P /\ Jm C (3%:R / 4%:R) false = Ok N /\
    Jz C (3%:R / 4%:R) false = Ok Z /\ ~ commutator P N (scalem 2%:R Z).
Proof.
have e : spinDim (3%:R / 4%:R) false = (2%:Z, 3%:R / 4%:R) by rewrite /spinDim; congr (_, _); vm_compute.
rewrite /Jp /Jm /Jz e csc_up csc_dn csc_dg; do 3 eexists; do 3 (split; first by []).
move=> /comm_two_levels; rewrite [X in _ = - X]/= -expr2 sqrtCK /=.
have -> : (3%:R / 4%:R + (3%:R / 4%:R - 0%:R)) * (3%:R / 4%:R - (3%:R / 4%:R - 0%:R) + 1) = 3%:R / 2%:R :> rat.
  by apply/eqP; vm_compute.
have -> : 3%:R / 4%:R - 1%:R = - (1 / 4%:R) :> rat by apply/eqP; vm_compute.
rewrite rmorphN mulrN => /oppr_inj.
have -> : 2%:R = ratr 2%:R :> C by rewrite ratr_nat.
by rewrite -rmorphM => /fmorph_inj/eqP; vm_compute.
Qed.
Print Assumptions C42_not_a_spin_refuted.

Example C42_ex1 : spinArg (3%:R / 2%:R) false 3. Proof. by left. Qed.
Example C42_ex2 : spinArg 4%:R true 3. Proof. by right. Qed.

(** ** C43: Pauli algebra and consistency with spin 1/2 *)
Theorem C43_pauli_algebra (C : numClosedFieldType) :
  exists X Y Z P M : mat C, sigmax = Ok X /\ sigmay = Ok Y /\ sigmaz = Ok Z /\ sigmap = Ok P /\ sigmam = Ok M /\
    hermitian 2 X /\ hermitian 2 Y /\ hermitian 2 Z /\ M = hc P /\
    mmul X X = Ok (idm C 2) /\ mmul Y Y = Ok (idm C 2) /\ mmul Z Z = Ok (idm C 2) /\
    mmul X Y = Ok (scalem 'i Z) /\ mmul Y Z = Ok (scalem 'i X) /\ mmul Z X = Ok (scalem 'i Y) /\
    mmul Y X = Ok (scalem (- 'i) Z) /\ mmul Z Y = Ok (scalem (- 'i) X) /\ mmul X Z = Ok (scalem (- 'i) Y) /\
    madd P M = Ok X /\ msub P M = Ok (scalem 'i Y).
Proof.
have ii := iiN C; have [sx sy sz] := gen_sq C; have [hx hy hz] := gen_hc C.
rewrite sigmaxE sigmayE sigmazE sigmapE sigmamE; do 5 eexists; do 5 (split; first by []).
split; first by apply/hermitianE; split.
split; first by apply/hermitianE; split.
split; first by apply/hermitianE; split.
rewrite !mmulE // maddE // msubE // sx sy sz !m2E !conjC0 !conjC1.
rewrite !(mul0r, mulr0, mul1r, mulr1, mulNr, mulrN, mulN1r, mulrN1, add0r, addr0, oppr0, subr0, sub0r, opprK, ii).
by do !split.
Qed.
Print Assumptions C43_pauli_algebra.

(** sigma_k = 2 J_k for j = 1/2, given as spin 1/2 or as dimension 2, and
    sigma+- = J+-. *)
Theorem C43_spin_half (C : numClosedFieldType) (j : rat) (isDim : bool) :
  (isDim = false /\ j = 1 / 2%:R) \/ (isDim = true /\ j = 2%:R) ->
  exists X Y Z P M, Jx C j isDim = Ok X /\ Jy C j isDim = Ok Y /\ Jz C j isDim = Ok Z /\
    Jp C j isDim = Ok P /\ Jm C j isDim = Ok M /\
    sigmax = Ok (scalem 2%:R X) /\ sigmay = Ok (scalem 2%:R Y) /\ sigmaz = Ok (scalem 2%:R Z) /\
    sigmap = Ok P /\ sigmam = Ok M.
Proof.
move=> h; have {}h : spinArg j isDim 1 by [].
rewrite (JpE C h) (JmE C h) (JzE C h) (JxE C h) (JyE C h).
do 5 eexists; do 5 (split; first by []).
have [-> -> -> -> ->] := spin_half C.
by rewrite sigmaxE sigmayE sigmazE sigmapE sigmamE.
Qed.
Print Assumptions C43_spin_half.

(** ** C48: rotations and gates *)

(** The angle enters through c = cos(angle/2) and s = sin(angle/2): any pair of
    real numbers with c^2 + s^2 = 1. *)
Theorem C48_rotations_unitary (C : numClosedFieldType) (ax : axis) (c s : C) :
  ax <> AxOther -> c^* = c -> s^* = s -> c * c + s * s = 1 ->
  exists U, qubRotation ax c s = Ok U /\ unitary 2 U.
Proof.
move=> ha h1 h2 h3; have [sx sy sz] := gen_sq C; have [hx hy hz] := gen_hc C.
case: ax ha => // _ /=.
- exists (rotm (m2 0 1 1 0) c s); split; last by apply: rot_unitary.
  by apply: rotationE => //; apply: sigmaxE.
- exists (rotm (m2 0 (- 'i) 'i 0) c s); split; last by apply: rot_unitary.
  by apply: rotationE => //; apply: sigmayE.
- exists (rotm (m2 1 0 0 (-1)) c s); split; last by apply: rot_unitary.
  by apply: rotationE => //; apply: sigmazE.
Qed.
Print Assumptions C48_rotations_unitary.

(** Rotations compose: the half angles add (cos and sin of the sum by the
    addition theorem), zero angle is the identity, and the opposite angle is
    the adjoint. *)
Theorem C48_rotations_compose (C : numClosedFieldType) (ax : axis) (c s c' s' : C) U V :
  qubRotation ax c s = Ok U -> qubRotation ax c' s' = Ok V ->
  mmul U V = qubRotation ax (c * c' - s * s') (s * c' + c * s') /\
  qubRotation ax 1 0 = Ok (idm C 2) /\
  (c^* = c -> s^* = s -> qubRotation ax c (- s) = Ok (hc U)).
Proof.
have [sx sy sz] := gen_sq C; have [hx hy hz] := gen_hc C.
case: ax => //=.
- rewrite /xRotation !(rotationE _ _ (sigmaxE C)) // => -[<-] [<-].
  by rewrite mmulE // rot_mul // rot_id //; do 2 split=> //; move=> h1 h2; rewrite rot_hc.
- rewrite /yRotation !(rotationE _ _ (sigmayE C)) // => -[<-] [<-].
  by rewrite mmulE // rot_mul // rot_id //; do 2 split=> //; move=> h1 h2; rewrite rot_hc.
- rewrite /zRotation !(rotationE _ _ (sigmazE C)) // => -[<-] [<-].
  by rewrite mmulE // rot_mul // rot_id //; do 2 split=> //; move=> h1 h2; rewrite rot_hc.
Qed.
Print Assumptions C48_rotations_compose.

(** The rotation matrix itself: cos(angle/2) - i sin(angle/2) sigma. *)
Theorem C48_rotation_entries (C : numClosedFieldType) (ax : axis) (c s : C) (sg U : mat C) :
  match ax with AxX => sigmax = Ok sg | AxY => sigmay = Ok sg | AxZ => sigmaz = Ok sg | AxOther => True end ->
  qubRotation ax c s = Ok U ->
  forall i j, (i < 2)%N -> (j < 2)%N -> ent U i j = c * delta C i j - 'i * s * ent sg i j.
Proof.
case: ax => //.
- rewrite sigmaxE /= /xRotation (rotationE _ _ (sigmaxE C)) // => -[<-] [<-] i j hi hj.
  by rewrite ent_subm // !ent_scalem ent_idm hi andbT.
- rewrite sigmayE /= /yRotation (rotationE _ _ (sigmayE C)) // => -[<-] [<-] i j hi hj.
  by rewrite ent_subm // !ent_scalem ent_idm hi andbT.
- rewrite sigmazE /= /zRotation (rotationE _ _ (sigmazE C)) // => -[<-] [<-] i j hi hj.
  by rewrite ent_subm // !ent_scalem ent_idm hi andbT.
Qed.
Print Assumptions C48_rotation_entries.

Theorem C48_unknown_axis (C : numClosedFieldType) (c s : C) expm angle j isDim :
  qubRotation AxOther c s = Err Py.ValueError /\
  spinRotation (C := C) expm AxOther angle j isDim = Err Py.ValueError.
Proof. by []. Qed.
Print Assumptions C48_unknown_axis.

(** CNOT: entries (control is the first qubit), involution, Hermitian, unitary. *)
Theorem C48_CNOT (C : numClosedFieldType) :
  exists U, CNOT C = Ok U /\ unitary 4 U /\ hermitian 4 U /\ mmul U U = Ok (idm C 4) /\
    forall c t c' t', (c < 2)%N -> (t < 2)%N -> (c' < 2)%N -> (t' < 2)%N ->
      ent U (enc [:: 2; 2]%N [:: c'; t']) (enc [:: 2; 2]%N [:: c; t]) =
      ((c' == c) && (t' == if c == 1%N then 1 - t else t)%N)%:R.
Proof.
rewrite CNOTE; eexists; split; first by [].
have h := cnot_hc C; have s := cnot_sq C.
split; first by apply/unitaryE; split=> //; rewrite h.
split; first by apply/hermitianE.
split; first by rewrite mmulE // s.
by move=> [|[|c]] [|[|t]] [|[|c']] [|[|t']] // *; rewrite ent_mk.
Qed.
Print Assumptions C48_CNOT.

(** CPHASE: diagonal, unitary when exp(i phase) has modulus one, phases add. *)
Theorem C48_CPHASE (C : numClosedFieldType) (e f : C) :
  exists U V, CPHASE e = Ok U /\ CPHASE f = Ok V /\
    diagonal 4 (fun i => if i == 3%N then e else 1) U /\
    mmul U V = CPHASE (e * f) /\ (`|e| = 1 -> unitary 4 U).
Proof.
rewrite !CPHASEE; do 2 eexists; do 2 (split; first by []).
split; first by split=> // i j hi hj; rewrite ent_dgm hi andbT /delta; case: eqP => _; rewrite ?mul1r ?mul0r.
split.
  by rewrite mmulE // dg_dg; congr Ok; apply: dgm_ext => i _; case: ifP => // _; rewrite mulr1.
move=> he; apply/unitaryE; split=> //.
  rewrite hc_dgm dg_dg idm_dgm; apply: dgm_ext => i _; case: ifP => _; last by rewrite conjC1 mulr1.
  by rewrite mulrC -normCK he expr1n.
rewrite hc_dgm dg_dg idm_dgm; apply: dgm_ext => i _; case: ifP => _; last by rewrite conjC1 mulr1.
by rewrite -normCK he expr1n.
Qed.
Print Assumptions C48_CPHASE.

(** Hadamard: unitary, Hermitian, an involution, exchanges sigma_x and sigma_z. *)
Theorem C48_Hadamard (C : numClosedFieldType) :
  exists H X Z HX, Hadamard C = Ok H /\ sigmax = Ok X /\ sigmaz = Ok Z /\
    unitary 2 H /\ hermitian 2 H /\ mmul H H = Ok (idm C 2) /\
    mmul H X = Ok HX /\ mmul HX H = Ok Z.
Proof.
rewrite HadamardE sigmaxE sigmazE; set h := (sqrtC 2%:R)^-1.
have hh : h * h = 2%:R^-1 by rewrite -expr2 exprVn sqrtCK.
have h1 : h * h + h * h = 1.
  by rewrite hh -mulr2n -[_ *+ 2]mulr_natr mulVf // pnatr_eq0.
have hr : h^* = h by rewrite fmorphV; congr _^-1; apply: geC0_conj; rewrite sqrtC_ge0 ler0n.
have hH : hc (m2 h h h (- h)) = m2 h h h (- h) by rewrite hc_m2 rmorphN hr.
have HH : mulm (m2 h h h (- h)) (m2 h h h (- h)) = idm C 2.
  by rewrite !m2E !(mulrN, mulNr, opprK) h1 subrr.
exists (m2 h h h (- h)), (m2 0 1 1 0), (m2 1 0 0 (-1)), (mulm (m2 h h h (- h)) (m2 0 1 1 0)).
do 3 (split; first by []).
split; first by apply/unitaryE; split=> //; rewrite hH.
split; first by apply/hermitianE.
rewrite !mmulE // HH; do 2 (split; first by []); congr Ok.
rewrite !m2E !(mulr0, mulr1, add0r, addr0) !(mulrN, mulNr, opprK) h1 subrr.
by rewrite addNr -opprD h1.
Qed.
Print Assumptions C48_Hadamard.

Example C48_ex : (3%:R / 5%:R : AC) * (3%:R / 5%:R) + 4%:R / 5%:R * (4%:R / 5%:R) = 1 /\ (3%:R / 5%:R : AC)^* = 3%:R / 5%:R.
Proof.
split; last by rewrite fmorph_div !rmorph_nat.
rewrite !mulf_div -mulrDl -!natrM -natrD divff // pnatr_eq0 //.
Qed.

(** ** C59: parity *)
Theorem C59_parity (C : numClosedFieldType) (d : nat) a n :
  destroy C d = Ok a -> number C d = Ok n ->
  exists P, paritySUM C d = Ok P /\ diagonal d (fun i => (-1) ^+ i) P /\ hermitian d P /\
    mmul P P = Ok (idm C d) /\ commutator P n (zerom C d d) /\ anticommutator P a (zerom C d d).
Proof.
rewrite destroyE numberE => -[<-] [<-]; rewrite /paritySUM csc_dg.
eexists; split; first by [].
have e (i : nat) : (if odd i then -1 else 1) = (-1) ^+ i :> C by rewrite -signr_odd; case: odd.
split; first by split=> // i j hi hj; rewrite ent_dgm hi andbT e /delta; case: eqP => _; rewrite ?mul1r ?mul0r.
split.
  apply/hermitianE; split=> //; rewrite hc_dgm; apply: dgm_ext => i _.
  by case: ifP => _; rewrite ?rmorphN conjC1.
split.
  rewrite mmulE // dg_dg idm_dgm; congr Ok; apply: dgm_ext => i _.
  by case: ifP => _; rewrite ?mulrNN mul1r.
split; [apply: (@commutatorE C d) => // | apply: (@anticommutatorE C d) => //].
  rewrite !dg_dg dgm_sub; apply: mk_ext => // i j _ _.
  by case: eqP => // _; rewrite mulrC subrr.
rewrite dg_up up_dg; apply: mat_ext => // i j hi hj.
rewrite ent_addm // !ent_upm ent_zerom; case: ifP => [_|]; last by rewrite addr0.
by rewrite /= mulrC -mulrDr; case: (odd i); rewrite /= ?addNr ?subrr mulr0.
Qed.
Print Assumptions C59_parity.

(** ** C60: exponentials of anti-Hermitian operators

    [expm] is scipy's matrix exponential, used as an oracle with the two laws
    of [expmLaws] (EvolSpec.v): the exponential of the adjoint is the adjoint,
    and exponentials of opposite square matrices are inverse to each other. *)
(** The laws are satisfiable by a function that is not constant. *)
Example C60_ex_oracle (C : numClosedFieldType) :
  expmLaws (@cayley C) /\
  cayley (scalem 2%:R (idm C 1)) = Ok (scalem (- 3%:R) (idm C 1)).
Proof.
split.
  move=> n A /square_Mat[D ->]; exists (Mat (cay D)), (Mat (cay (- D))).
  rewrite scaleN_Mat !hc_Mat !cayleyE cay_adj !mmulE //= !mulm_Mat cayN.
  have -> : cay (- D) *m cay D = 1%:M by rewrite -{2}(opprK D) cayN.
  by rewrite idm_Mat.
have -> : scalem 2%:R (idm C 1) = Mat (2%:R%:M : 'M[C]_1).
  by apply: mat_ext => // i j hi hj; rewrite ent_scalem ent_mk // ent_in !mxE mulr_natr.
rewrite cayleyE /cay /cayok; congr Ok.
have e1 : 1%:M - 2%:R%:M = (-1)%:M :> 'M[C]_1.
  by apply/matrixP => i j; rewrite !mxE !ord1 eqxx !mulr1n (natrD _ 1 1) opprD addrA subrr add0r.
have e2 : 1%:M + 2%:R%:M = 3%:R%:M :> 'M[C]_1 by apply/matrixP => i j; rewrite !mxE !ord1 eqxx !mulr1n -(natrD _ 1 2).
rewrite e1 e2 !unitmxE !det_scalar1 !unitfE oppr_eq0 oner_neq0 pnatr_eq0 /=.
rewrite invmx_scalar invrN1 -scalar_mxM mulN1r.
by apply: mat_ext => // i j hi hj; rewrite ent_scalem ent_mk // ent_in !mxE mulr_natr.
Qed.

Lemma expm_antiherm (C : numClosedFieldType) expm (A : mat C) n :
  expmLaws expm -> square n A -> hc A = scalem (-1) A -> exists U, expm A = Ok U /\ unitary n U.
Proof.
move=> h hA e; have [E [F [h1 [h2 [sE [h3 [h4 h5]]]]]]] := h n A hA.
exists E; split=> //; move: h3; rewrite e h2 => -[eF].
move: h4 h5; rewrite eF => /mmul_inv[_ e1] /mmul_inv[_ e2].
by apply/unitaryE; split.
Qed.

Theorem C60_unitary_evolution (C : numClosedFieldType) expm (H : mat C) (t : C) (n : nat) :
  expmLaws expm -> hermitian n H -> t^* = t ->
  exists U, Unitary expm H t = Ok U /\ unitary n U.
Proof.
move=> h /hermitianE[sH e] ht; apply: expm_antiherm => //.
rewrite !hc_scalem e ht rmorphN conjCi !scalemA; congr (scalem _ _).
by rewrite mulN1r mulrNN opprK.
Qed.
Print Assumptions C60_unitary_evolution.

Theorem C60_displacement_squeeze (C : numClosedFieldType) expm (alpha : C) (d : nat) :
  expmLaws expm ->
  (exists U, displacement expm alpha d = Ok U /\ unitary d U) /\
  (exists S, squeeze expm alpha d = Ok S /\ unitary d S).
Proof.
move=> h; rewrite /displacement /squeeze createE destroyE /= !mmulE //= msubE //= maddE //=.
have hc1 : hc (upm d (rt C)) = dnm d (rt C) by rewrite create_hc.
have hc2 : hc (dnm d (rt C)) = upm d (rt C) by rewrite create_hc hcK.
split; apply: expm_antiherm => //.
  rewrite hc_subm // !hc_scalem hc1 hc2 conjCK.
  apply: mat_ext => // i j hi hj.
  by rewrite ent_scalem !ent_subm // !ent_scalem mulN1r opprB.
rewrite hc_scalem hc_addm // !hc_scalem !hc_mulm // hc1 hc2 conjCK.
apply: mat_ext => // i j hi hj.
rewrite !ent_scalem !ent_addm // !ent_scalem rmorphN conjC1 div1r fmorphV rmorph_nat.
rewrite [in RHS]mulrCA; congr (_ * _); rewrite !mulN1r opprD opprK addrC //.
Qed.
Print Assumptions C60_displacement_squeeze.

Theorem C60_spin_rotation (C : numClosedFieldType) expm (ax : axis) (angle : C) (j : rat) (isDim : bool) (n : nat) :
  expmLaws expm -> spinArg j isDim n -> ax <> AxOther -> angle^* = angle ->
  exists U, spinRotation expm ax angle j isDim = Ok U /\ unitary n.+1 U.
Proof.
move=> h hs ha ht; have hu (X : mat C) : square n.+1 X -> hc X = X ->
    exists U, Unitary expm (scalem angle X) 1 = Ok U /\ unitary n.+1 U.
  move=> sX eX; apply: C60_unitary_evolution => //; last exact: conjC1.
  by apply/hermitianE; split=> //; rewrite hc_scalem eX ht.
case: ax ha => // _; rewrite /spinRotation ?(JxE C hs) ?(JyE C hs) ?(JzE C hs) /=; apply: hu => //.
- exact: hc_jx.
- exact: hc_jy.
- exact: hc_Z.
Qed.
Print Assumptions C60_spin_rotation.

(** ** C61: powers *)
Theorem C61_matPower (C : numClosedFieldType) (A : mat C) (n : nat) :
  square n A ->
  matPower A 0 = Err Py.AssertionError /\ matPower A 1 = Ok A /\
  forall p q, (0 < p)%N -> (0 < q)%N ->
    exists X Y Z, matPower A p = Ok X /\ matPower A q = Ok Y /\ matPower A (p + q) = Ok Z /\
      square n X /\ mmul X Y = Ok Z.
Proof.
move=> [hr hcl].
have step p X : (0 < p)%N -> matPower A p = Ok X -> matPower A p.+1 = mmul A X by case: p => // p _ /= ->.
have sq p : (0 < p)%N -> exists X, matPower A p = Ok X /\ square n X.
  elim: p => // -[|p] IH _; first by exists A.
  have [X [h [h1 h2]]] := IH isT.
  by exists (mulm A X); rewrite (step _ _ _ h) // mmulE ?hcl ?h1.
do 2 (split; first by []) => //.
elim=> // -[|p] IH q _ hq; have [Y [hY [y1 y2]]] := sq q hq.
  by exists A, Y, (mulm A Y); rewrite add1n (step _ _ _ hY) // hY mmulE // hcl y1.
have [X [Y' [Z [h1 [h2 [h3 [[x1 x2] h5]]]]]]] := IH q isT hq.
move: h2; rewrite hY => -[e]; rewrite -{}e {Y'} in h5.
move: h5; rewrite mmulE ?x2 ?y1 // => -[eZ].
exists (mulm A X), Y, (mulm A Z); rewrite (step _ _ _ h1) // addSn (step _ _ _ h3) // !mmulE ?hcl ?x1 -?eZ ?x2 ?y1 //.
by do 4 (split; first by []) => //; rewrite mulmA.
Qed.
Print Assumptions C61_matPower.

(** operatorPow(op, dim, p): p-th power of op(dim), or of op() if that fails. *)
Theorem C61_operatorPow (C : numClosedFieldType) (op : nat -> result (mat C)) op0 (dim p : nat) (A : mat C) n :
  square n A -> (0 < p)%N ->
  (op dim = Ok A \/ (exists e, op dim = Err e /\ op0 = Ok A)) ->
  operatorPow op op0 dim p = matPower A p /\ Py.is_ok (matPower A p).
Proof.
move=> hA hp h.
have ok : Py.is_ok (matPower A p).
  have [_ [e H]] := C61_matPower hA; case: p hp => // -[|p] _; first by rewrite e.
  have [X [Y [Z [_ [_ [h3 _]]]]]] := H 1%N p.+1 isT isT.
  by rewrite -(add1n p.+1) h3.
split=> //; rewrite /operatorPow; case: h => [->|[e [-> ->]]] //=.
by case: (matPower A p) ok.
Qed.
Print Assumptions C61_operatorPow.
