(** Proofs about Pauli matrices, rotations and gates. *)
From mathcomp Require Import all_ssreflect all_algebra.
From Verif Require Py.
From Verif Require Import MatModel OperModel MatLib MatSpec MatProofs CField OperProofs.
Set Implicit Arguments.
Unset Strict Implicit.
Unset Printing Implicit Defensive.
Import GRing.Theory Num.Theory.
Local Open Scope ring_scope.

Section GateProofs.
Variable C : numClosedFieldType.
Implicit Types A B D M X Y Z : mat C.
Add Field Cf : (@C_field C).
Ltac cring := cnorm1 C; ring.
Ltac cfield := cnorm1 C; field.

Lemma commutatorE n A B K : square n A -> square n B -> subm (mulm A B) (mulm B A) = K -> commutator A B K.
Proof.
move=> [a1 a2] [b1 b2] <-; exists (mulm A B), (mulm B A).
by rewrite !mmulE ?msubE ?shapes ?a1 ?a2 ?b1 ?b2.
Qed.
Lemma anticommutatorE n A B K : square n A -> square n B -> addm (mulm A B) (mulm B A) = K -> anticommutator A B K.
Proof.
move=> [a1 a2] [b1 b2] <-; exists (mulm A B), (mulm B A).
by rewrite !mmulE ?maddE ?shapes ?a1 ?a2 ?b1 ?b2.
Qed.

(** 2 x 2 matrices by their entries *)
Definition m2 (a b c d : C) : mat C :=
  mk 2 2 (fun i j => nth 0 (nth [::] [:: [:: a; b]; [:: c; d]] i) j).

Lemma m2_ext A a b c d : rows A = 2%N -> cols A = 2%N ->
  ent A 0 0 = a -> ent A 0 1 = b -> ent A 1 0 = c -> ent A 1 1 = d -> A = m2 a b c d.
Proof.
move=> h h' e1 e2 e3 e4; apply: mat_ext => // i j; rewrite h h'.
by move: i j => [|[|i]] [|[|j]] // _ _; rewrite ent_mk.
Qed.

Lemma ent_m2 a b c d : [/\ ent (m2 a b c d) 0 0 = a, ent (m2 a b c d) 0 1 = b,
  ent (m2 a b c d) 1 0 = c & ent (m2 a b c d) 1 1 = d].
Proof. by split; rewrite ent_mk. Qed.

Lemma mul_m2 a b c d a' b' c' d' : mulm (m2 a b c d) (m2 a' b' c' d') =
  m2 (a * a' + b * c') (a * b' + b * d') (c * a' + d * c') (c * b' + d * d').
Proof.
have [e1 e2 e3 e4] := ent_m2 a b c d; have [f1 f2 f3 f4] := ent_m2 a' b' c' d'.
by apply: m2_ext => //; rewrite ent_mulm !big_ord_recl big_ord0 addr0 /= ?(e1, e2, e3, e4) ?(f1, f2, f3, f4).
Qed.
Lemma add_m2 a b c d a' b' c' d' : addm (m2 a b c d) (m2 a' b' c' d') = m2 (a + a') (b + b') (c + c') (d + d').
Proof.
have [e1 e2 e3 e4] := ent_m2 a b c d; have [f1 f2 f3 f4] := ent_m2 a' b' c' d'.
by apply: m2_ext => //; rewrite ent_addm // ?(e1, e2, e3, e4) ?(f1, f2, f3, f4).
Qed.
Lemma sub_m2 a b c d a' b' c' d' : subm (m2 a b c d) (m2 a' b' c' d') = m2 (a - a') (b - b') (c - c') (d - d').
Proof.
have [e1 e2 e3 e4] := ent_m2 a b c d; have [f1 f2 f3 f4] := ent_m2 a' b' c' d'.
by apply: m2_ext => //; rewrite ent_subm // ?(e1, e2, e3, e4) ?(f1, f2, f3, f4).
Qed.
Lemma scale_m2 x a b c d : scalem x (m2 a b c d) = m2 (x * a) (x * b) (x * c) (x * d).
Proof.
have [e1 e2 e3 e4] := ent_m2 a b c d.
by apply: m2_ext => //; rewrite ent_scalem // ?(e1, e2, e3, e4).
Qed.
Lemma hc_m2 a b c d : hc (m2 a b c d) = m2 a^* c^* b^* d^*.
Proof.
have [e1 e2 e3 e4] := ent_m2 a b c d.
by apply: m2_ext => //; rewrite ent_hc // ?(e1, e2, e3, e4).
Qed.
Lemma id_m2 : idm C 2 = m2 1 0 0 1.
Proof. by apply: m2_ext => //; rewrite ent_idm. Qed.
Lemma dgm_m2 f : dgm 2 f = m2 (f 0%N) 0 0 (f 1%N) :> mat C.
Proof. by apply: m2_ext => //; rewrite ent_dgm. Qed.
Lemma upm_m2 f : upm 2 f = m2 0 (f 0%N) 0 0 :> mat C.
Proof. by apply: m2_ext => //; rewrite ent_upm. Qed.
Lemma dnm_m2 f : dnm 2 f = m2 0 0 (f 0%N) 0 :> mat C.
Proof. by apply: m2_ext => //; rewrite ent_dnm. Qed.

Definition m2E := (mul_m2, add_m2, sub_m2, scale_m2, hc_m2, id_m2).

Lemma csc_m2 ds rs cs A : csc ds rs cs 2 2 = Ok A :> result (mat C) ->
  A = m2 (ent A 0 0) (ent A 0 1) (ent A 1 0) (ent A 1 1).
Proof. by rewrite /csc; case: ifP => // _ [<-]; apply: m2_ext. Qed.

Ltac csc2 := rewrite /csc /=; congr Ok; apply: m2_ext => //; rewrite ent_mk // !big_cons big_nil /= ?addr0 ?add0r.
Lemma sigmaxE : sigmax = Ok (m2 0 1 1 0). Proof. by rewrite /sigmax; csc2. Qed.
Lemma sigmayE : sigmay = Ok (m2 0 (- 'i) 'i 0). Proof. by rewrite /sigmay; csc2. Qed.
Lemma sigmazE : sigmaz = Ok (m2 1 0 0 (-1)). Proof. by rewrite /sigmaz; csc2. Qed.
Lemma sigmapE : sigmap = Ok (m2 0 1 0 0). Proof. by rewrite /sigmap; csc2. Qed.
Lemma sigmamE : sigmam = Ok (m2 0 0 1 0). Proof. by rewrite /sigmam; csc2. Qed.
Lemma HadamardE : Hadamard C = Ok (m2 (sqrtC 2%:R)^-1 (sqrtC 2%:R)^-1 (sqrtC 2%:R)^-1 (- (sqrtC 2%:R)^-1)).
Proof. by rewrite /Hadamard !div1r; csc2. Qed.

Lemma iiN : 'i * 'i = -1 :> C. Proof. by rewrite -expr2 sqrCi. Qed.

Definition rotm (n : mat C) (c s : C) : mat C := subm (scalem c (idm C 2)) (scalem ('i * s) n).
Lemma rotationE sg n c s : sg = Ok n -> rows n = 2%N -> cols n = 2%N -> rotation sg c s = Ok (rotm n c s).
Proof. by move=> -> h h'; rewrite /rotation /= msubE ?shapes ?h ?h'. Qed.

(** Rotations about an axis whose generator squares to one. *)
Section Rot.
Variable n : mat C.
Hypothesis (rn : rows n = 2%N) (cn : cols n = 2%N) (nn : mulm n n = idm C 2) (hn : hc n = n).
Ltac shp := by rewrite ?shapes ?(rn, cn).

Lemma rot_mul c s c' s' : mulm (rotm n c s) (rotm n c' s') = rotm n (c * c' - s * s') (s * c' + c * s').
Proof.
apply: mat_ext => [||i j _ _]; [shp|shp|].
rewrite /rotm mulmBl ?mulmBr ?(scalemAl, scalemAr); try shp.
rewrite nn !mul1m ?mulm1; try shp.
rewrite !ent_subm ?ent_scalem; try shp.
move: (ent (idm C 2) i j) (ent n i j) => e x.
have -> : 'i * s * ('i * s' * e) = ('i * 'i) * (s * s' * e) by cring.
rewrite iiN; cring.
Qed.

Lemma rot_hc c s : c^* = c -> s^* = s -> hc (rotm n c s) = rotm n c (- s).
Proof.
move=> hc' hs; rewrite /rotm hc_subm; try shp.
rewrite !hc_scalem hc_idm hn hc' rmorphM conjCi hs.
by congr (subm _ (scalem _ _)); cring.
Qed.

Lemma rot_id : rotm n 1 0 = idm C 2.
Proof.
apply: mat_ext => [||i j _ _]; [shp|shp|].
rewrite /rotm ent_subm; try shp.
rewrite !ent_scalem; cring.
Qed.

Lemma rot_unitary c s : c^* = c -> s^* = s -> c * c + s * s = 1 -> unitary 2 (rotm n c s).
Proof.
move=> h1 h2 h3; apply/unitaryE; split; first by split; shp.
  rewrite rot_hc // rot_mul -rot_id; congr rotm; last by cring.
  by rewrite -h3; cring.
rewrite rot_hc // rot_mul -rot_id; congr rotm; last by cring.
by rewrite -h3; cring.
Qed.
End Rot.

Definition gens : seq (mat C) := [:: m2 0 1 1 0; m2 0 (- 'i) 'i 0; m2 1 0 0 (-1)].
Lemma m2_eq a b c d a' b' c' d' : a = a' -> b = b' -> c = c' -> d = d' -> m2 a b c d = m2 a' b' c' d'.
Proof. by move=> -> -> -> ->. Qed.

Lemma gen_sq : [/\ mulm (m2 0 1 1 0) (m2 0 1 1 0) = idm C 2,
  mulm (m2 0 (- 'i) 'i 0) (m2 0 (- 'i) 'i 0) = idm C 2 &
  mulm (m2 1 0 0 (-1)) (m2 1 0 0 (-1)) = idm C 2].
Proof.
have := iiN => ii.
split; rewrite !m2E; apply: m2_eq; try (by cring);
  rewrite ?(mulNr, mulrN, ii); cring.
Qed.

Lemma gen_hc : [/\ hc (m2 0 1 1 0) = m2 0 1 1 0 :> mat C, hc (m2 0 (- 'i) 'i 0) = m2 0 (- 'i) 'i 0 &
  hc (m2 1 0 0 (-1)) = m2 1 0 0 (-1) :> mat C].
Proof.
by split; rewrite !m2E; apply: m2_eq;
   rewrite ?rmorphN ?conjC0 ?conjC1 ?conjCi ?opprK.
Qed.

Lemma spin_half : [/\ scalem 2%:R (jx C 1) = m2 0 1 1 0, scalem 2%:R (jy C 1) = m2 0 (- 'i) 'i 0,
  scalem 2%:R (dgm 2 (jz C 1)) = m2 1 0 0 (-1), upm 2 (jp C 1) = m2 0 1 0 0 & dnm 2 (jp C 1) = m2 0 0 1 0].
Proof.
have e : jp C 1 0 = 1 by rewrite /jp sqrtC1.
rewrite /jx /jy dgm_m2 upm_m2 dnm_m2 !m2E e /jz !div1r iE.
split; apply: m2_eq; rewrite ?mulr1n ?mulr0n; try (by cring); try (cfield; exact: two_neq0).
Qed.

Lemma comm_two_levels (f z : nat -> C) :
  commutator (upm 2 f) (dnm 2 f) (scalem 2%:R (dgm 2 z)) -> 2%:R * z 1%N = - (f 0%N * f 0%N).
Proof.
move=> [X [Y [/mmul_inv[_ ->] [/mmul_inv[_ ->] /msub_inv[_ _]]]]].
rewrite dgm_m2 upm_m2 dnm_m2 !m2E => /(congr1 (fun M => ent M 1 1)).
have [_ _ _ ->] := ent_m2 (2%:R * z 0%N) (2%:R * 0) (2%:R * 0) (2%:R * z 1%N).
set a := _ - _; set b := _ - _; set c := _ - _; set d := _ - _.
have [_ _ _ ->] := ent_m2 a b c d.
by move=> ->; rewrite /d; cring.
Qed.

(** ** 4 x 4 gates *)
Lemma CPHASEE (e : C) : CPHASE e = Ok (dgm 4 (fun i => if i == 3%N then e else 1)).
Proof.
rewrite /CPHASE /csc /=; congr Ok; apply: mk_ext => // i j.
by move: i j => [|[|[|[|i]]]] [|[|[|[|j]]]] // _ _; rewrite !big_cons big_nil /= ?addr0 ?add0r.
Qed.

Definition cperm (i : nat) : nat := match i with 2 => 3 | 3 => 2 | _ => i end.
Definition cnotm : mat C := mk 4 4 (fun i j => (j == cperm i)%:R).
Lemma CNOTE : CNOT C = Ok cnotm.
Proof.
rewrite /CNOT /csc /=; congr Ok; apply: mk_ext => // i j.
by move: i j => [|[|[|[|i]]]] [|[|[|[|j]]]] // _ _; rewrite !big_cons big_nil /= ?addr0 ?add0r.
Qed.

Lemma ent_cnot_mul M i j : (i < 4)%N -> rows M = 4%N -> ent (mulm cnotm M) i j = ent M (cperm i) j.
Proof.
move=> hi h; have hp : (cperm i < 4)%N by move: i hi => [|[|[|[|i]]]].
rewrite ent_mulm /= (bigD1 (Ordinal hp)) //= ent_mk // eqxx mul1r big1 ?addr0 // => k hk.
rewrite ent_mk //; case: eqP => [e|_]; last by rewrite mul0r.
by move: hk; rewrite -val_eqE /= e eqxx.
Qed.

Lemma cnot_sq : mulm cnotm cnotm = idm C 4.
Proof.
apply: mat_ext => // i j hi hj; rewrite ent_cnot_mul // ent_mk //; last first.
  by move: i hi => [|[|[|[|i]]]].
by rewrite ent_idm hi andbT eq_sym; move: i hi => [|[|[|[|i]]]].
Qed.
Lemma cnot_hc : hc cnotm = cnotm.
Proof.
apply: mat_ext => // i j hi hj; rewrite ent_hc !ent_mk // rmorph_nat.
by move: i j hi hj => [|[|[|[|i]]]] [|[|[|[|j]]]].
Qed.

End GateProofs.
