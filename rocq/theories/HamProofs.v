(** Proofs about Hamiltonians.py. *)
From mathcomp Require Import all_ssreflect all_algebra.
From Verif Require Py.
From Verif Require Import MatModel MatLib OperModel HamModel MatSpec HamSpec MatProofs CField OperProofs GateProofs.
Set Implicit Arguments.
Unset Strict Implicit.
Unset Printing Implicit Defensive.
Import Order.TTheory GRing.Theory Num.Theory.
Local Open Scope ring_scope.

Section HP.
Variable C : numClosedFieldType.
Implicit Types (H M N A B : mat C) (f : nat -> nat -> nat -> nat -> C).
Add Field Cf : (@C_field C).
Ltac cring := cnorm1 C; ring.
Ltac cfield := cnorm1 C; field.

(** ** Qubit x cavity *)
Lemma eqS2 i : (i == i.+2) = false. Proof. by rewrite ltn_eqF // ltnW. Qed.

Lemma posDiv d q n : (n < d)%N -> ((q * d + n) %/ d = q)%N.
Proof. by move=> h; rewrite divnMDl ?divn_small ?addn0 //; apply: leq_ltn_trans h. Qed.
Lemma posMod d q n : (n < d)%N -> ((q * d + n) %% d = n)%N.
Proof. by move=> h; rewrite modnMDl modn_small. Qed.
Lemma posLt d q n : (q < 2)%N -> (n < d)%N -> (q * d + n < 2 * d)%N.
Proof.
move=> hq hn; apply: leq_trans (_ : q.+1 * d <= _)%N; first by rewrite mulSn addnC ltn_add2r.
by rewrite leq_pmul2r //; apply: leq_ltn_trans hn.
Qed.

(** Every position is one of a qubit and a cavity state. *)
Lemma posP d i : (i < 2 * d)%N -> exists q n, [/\ (q < 2)%N, (n < d)%N & i = (q * d + n)%N].
Proof.
move=> h; have d0 : (0 < d)%N by case: d h => //; rewrite muln0.
by exists (i %/ d)%N, (i %% d)%N; split; rewrite ?ltn_divLR ?ltn_mod // -divn_eq.
Qed.

Lemma qubCav_ext d f f' H : (forall q n q' n', (q < 2)%N -> (q' < 2)%N -> (n < d)%N -> (n' < d)%N -> f q n q' n' = f' q n q' n') ->
  qubCav d f H -> qubCav d f' H.
Proof. by move=> e [s h]; split=> // *; rewrite h // e. Qed.

Lemma qubCav_kron d A M : square 2 A -> square d M -> qubCav d (fun q n q' n' => ent A q q' * ent M n n') (kron A M).
Proof.
move=> [ra ca] [rm cm]; split; first by split; rewrite ?shapes ?ra ?ca ?rm ?cm.
move=> q n q' n' hq hq' hn hn'; rewrite ent_kron_in ?ra ?ca ?rm ?cm; try exact: posLt.
by rewrite !posDiv // !posMod.
Qed.

Lemma qubCav_scale d f a H : qubCav d f H -> qubCav d (fun q n q' n' => a * f q n q' n') (scalem a H).
Proof. by move=> [[r c] h]; split; [split; rewrite ?shapes | move=> *; rewrite ent_scalem h]. Qed.

Lemma qubCav_add d f f' H H' : qubCav d f H -> qubCav d f' H' ->
  madd H H' = Ok (addm H H') /\ qubCav d (fun q n q' n' => f q n q' n' + f' q n q' n') (addm H H').
Proof.
move=> [[r c] h] [[r' c'] h']; rewrite maddE ?r ?c ?r' ?c' //; split=> //.
by split; [split; rewrite ?shapes | move=> *; rewrite ent_addm ?r ?c ?r' ?c' // h // h'].
Qed.

Lemma qubCav_unique d f H H' : qubCav d f H -> qubCav d f H' -> H = H'.
Proof.
move=> [[r c] h] [[r' c'] h']; apply: mat_ext; rewrite ?r ?c ?r' ?c' // => i j /posP[q [n [? ? ->]]] /posP[q' [n' [? ? ->]]].
by rewrite h // h'.
Qed.

Definition freeEnt (wq wc : C) q n q' n' : C := ((q == q') && (n == n'))%:R * (wc * n%:R + wq * zsign C q).

Lemma bool2 (P : nat -> Prop) : P 0%N -> P 1%N -> forall q, (q < 2)%N -> P q.
Proof. by move=> h0 h1 [|[|]]. Qed.

Lemma freeE wq wc d : exists K Q, qubCavFreeHam wq wc d = Ok (K, Q) /\
  qubCav d (fun q n q' n' => wc * ((q == q') && (n == n'))%:R * n%:R) K /\
  qubCav d (fun q n q' n' => wq * ((q == q') && (n == n'))%:R * zsign C q) Q.
Proof.
rewrite /qubCavFreeHam /identity numberE sigmazE /=; do 2 eexists; split; first by reflexivity.
split.
  apply: qubCav_ext (qubCav_scale wc (@qubCav_kron d (idm C 2) (dgm d (fun i => i%:R)) _ _)) => // q n q' n' hq hq' hn hn' /=.
  rewrite ent_idm ent_dgm hq hn !andbT; case: (q == q'); case: (n == n') => /=; rewrite ?(mulr0, mul0r, mulr1, mul1r, mulrN1, oppr0) //.
apply: qubCav_ext (qubCav_scale wq (@qubCav_kron d (m2 1 0 0 (-1)) (idm C d) _ _)) => // q n q' n' hq hq' hn hn' /=.
rewrite ent_idm hn andbT.
move: q hq; apply: bool2; move: q' hq'; apply: bool2; rewrite ent_mk //= /zsign /=; case: (n == n') => /=; rewrite ?(mulr0, mul0r, mulr1, mul1r, mulrN1, oppr0) //.
Qed.

Lemma freeSum wq wc d : exists K Q H, qubCavFreeHam wq wc d = Ok (K, Q) /\ madd K Q = Ok H /\
  qubCav d (freeEnt wq wc) H.
Proof.
have [K [Q [e [hK hQ]]]] := freeE wq wc d; have [e' h] := qubCav_add hK hQ.
exists K, Q, (addm K Q); split=> //; split=> //.
by apply: qubCav_ext h => q n q' n' _ _ _ _; rewrite /freeEnt; cring.
Qed.

Lemma ent_hop d i j : (i < d)%N -> (j < d)%N -> ent (addm (dnm d (rt C)) (upm d (rt C))) i j = hop C i j.
Proof.
move=> hi hj; rewrite ent_addm // ent_dnm ent_upm hi hj !andbT /hop /rt.
case: (j =P i.+1) => [->|_]; last by case: eqP => [->|_]; rewrite addr0 ?addn1.
by rewrite eqS2 add0r addn1.
Qed.

Lemma RabiE wq wc g d : exists H, RabiHam wq wc g d = Ok H /\
  qubCav d (fun q n q' n' => freeEnt wq wc q n q' n' + g * (q != q')%:R * hop C n n') H.
Proof.
have [K [Q [F [e [e' hF]]]]] := freeSum wq wc d.
rewrite /RabiHam e sigmaxE createE destroyE /= maddE //= e' /=.
have hk := qubCav_scale g (@qubCav_kron d (m2 0 1 1 0) (addm (dnm d (rt C)) (upm d (rt C))) (conj erefl erefl) (conj erefl erefl)).
have [-> h] := qubCav_add hF hk; eexists; split; first by reflexivity.
apply: qubCav_ext h => q n q' n' hq hq' hn hn'; rewrite ent_hop // -mulrA; congr (_ + _ * (_ * _)).
by move: q hq; apply: bool2; move: q' hq'; apply: bool2; rewrite ent_mk.
Qed.

Lemma JCE wq wc g d : exists H, JCHam wq wc g d = Ok H /\
  qubCav d (fun q n q' n' => freeEnt wq wc q n q' n' +
    g * ((q != q') && (excitations q n == excitations q' n'))%:R * hop C n n') H.
Proof.
have [K [Q [F [e [e' hF]]]]] := freeSum wq wc d.
rewrite /JCHam e sigmamE sigmapE createE destroyE /=.
have h1 := @qubCav_kron d (m2 0 0 1 0) (dnm d (rt C)) (conj erefl erefl) (conj erefl erefl).
have h2 := @qubCav_kron d (m2 0 1 0 0) (upm d (rt C)) (conj erefl erefl) (conj erefl erefl).
have [-> h3] := qubCav_add h1 h2; rewrite /= e' /=.
have [-> h] := qubCav_add hF (qubCav_scale g h3); eexists; split; first by reflexivity.
apply: qubCav_ext h => q n q' n' hq hq' hn hn'; rewrite -mulrA; congr (_ + _ * _).
rewrite ent_dnm ent_upm hn hn' !andbT /excitations /hop /rt.
move: q hq; apply: bool2; move: q' hq'; apply: bool2; rewrite !ent_mk //= ?addn0 ?addn1.
- by rewrite !mul0r addr0.
- by rewrite (eq_sym n.+1) !mul0r add0r mul1r; case: (n' =P n.+1) => [->|_]; rewrite ?mul1r ?mul0r.
- rewrite mul1r mul0r addr0; case: (n =P n'.+1) => [->|_]; last by rewrite mul0r.
  by rewrite mul1r eqS2 ?addn1.
- by rewrite !mul0r addr0.
Qed.

Lemma aJCE wq wc g d : exists H, aJCHam wq wc g d = Ok H /\
  qubCav d (fun q n q' n' => freeEnt wq wc q n q' n' +
    g * ((q != q') && (excitations (1 - q) n == excitations (1 - q') n'))%:R * hop C n n') H.
Proof.
have [K [Q [F [e [e' hF]]]]] := freeSum wq wc d.
rewrite /aJCHam e sigmamE sigmapE createE destroyE /=.
have h1 := @qubCav_kron d (m2 0 1 0 0) (dnm d (rt C)) (conj erefl erefl) (conj erefl erefl).
have h2 := @qubCav_kron d (m2 0 0 1 0) (upm d (rt C)) (conj erefl erefl) (conj erefl erefl).
have [-> h3] := qubCav_add h1 h2; rewrite /= e' /=.
have [-> h] := qubCav_add hF (qubCav_scale g h3); eexists; split; first by reflexivity.
apply: qubCav_ext h => q n q' n' hq hq' hn hn'; rewrite -mulrA; congr (_ + _ * _).
rewrite ent_dnm ent_upm hn hn' !andbT /excitations /hop /rt.
move: q hq; apply: bool2; move: q' hq'; apply: bool2; rewrite !ent_mk //= ?addn0 ?addn1.
- by rewrite !mul0r addr0.
- rewrite mul1r mul0r addr0; case: (n =P n'.+1) => [->|_]; last by rewrite mul0r.
  by rewrite mul1r eqS2 ?addn1.
- by rewrite (eq_sym n.+1) !mul0r add0r mul1r; case: (n' =P n.+1) => [->|_]; rewrite ?mul1r ?mul0r.
- by rewrite !mul0r addr0.
Qed.

Lemma hopC n n' : hop C n n' = hop C n' n.
Proof.
rewrite /hop; case: (n' =P n.+1) => [->|ne]; last by case: eqP.
by rewrite eqS2.
Qed.
Lemma hop_real n n' : (hop C n n')^* = hop C n n'.
Proof.
rewrite /hop; case: ifP => _; last case: ifP => _; rewrite ?conjC0 //; apply: geC0_conj; by rewrite sqrtC_ge0 ler0n.
Qed.

Lemma qubCav_herm d f H : qubCav d f H ->
  (forall q n q' n', (q < 2)%N -> (q' < 2)%N -> f q n q' n' = (f q' n' q n)^*) -> hermitian (2 * d) H.
Proof.
move=> [s h] e; split=> // i j /posP[q [n [? ? ->]]] /posP[q' [n' [? ? ->]]].
by rewrite !h // e.
Qed.

Lemma freeEnt_herm wq wc q n q' n' : wq^* = wq -> wc^* = wc -> freeEnt wq wc q n q' n' = (freeEnt wq wc q' n' q n)^*.
Proof.
move=> rq rc; rewrite /freeEnt rmorphM rmorphD !rmorphM /= !conjC_nat rq rc (eq_sym q') (eq_sym n').
have -> : (zsign C q')^* = zsign C q' by rewrite /zsign; case: ifP => _; rewrite ?rmorphN conjC1.
by case: (q =P q') => [->|] /=; last rewrite !mul0r //; case: (n =P n') => [->|] //=; rewrite !mul0r.
Qed.

(** A diagonal operator commutes with a matrix whose entries connect equal values. *)
Lemma qubCav_comm d f (x : nat -> nat -> C) H D : qubCav d f H ->
  qubCav d (fun q n q' n' => ((q == q') && (n == n'))%:R * x q n) D ->
  (forall q n q' n', (q < 2)%N -> (q' < 2)%N -> (n < d)%N -> (n' < d)%N -> f q n q' n' = 0 \/ x q n = x q' n') ->
  commutator H D (zerom C (2 * d) (2 * d)).
Proof.
move=> [[r c] h] [[r' c'] h'] e; apply: (@commutatorE C (2 * d)) => //.
pose y i := x (i %/ d)%N (i %% d)%N.
have eD : D = dgm (2 * d) y.
  apply: mat_ext; rewrite ?r' ?c' // => i j hi hj; rewrite ent_dgm hi andbT.
  have [q [n [hq hn ei]]] := posP hi; have [q' [n' [hq' hn' ej]]] := posP hj.
  rewrite ei ej h' // /y posDiv // posMod //.
  case: ((q * d + n)%N =P (q' * d + n')%N) => [e1|ne]; last first.
    case: (q =P q') => [e1|] /=; last by rewrite mul0r.
    by case: (n =P n') => [e2|] /=; [case: ne; rewrite e1 e2 | rewrite mul0r].
  have := congr1 (fun k => k %/ d)%N e1; have := congr1 (fun k => k %% d)%N e1.
  by rewrite !posDiv // !posMod // => -> ->; rewrite !eqxx mul1r.
apply: mat_ext; rewrite ?shapes ?r ?c ?r' ?c' // => i j hi hj.
rewrite ent_subm ?shapes ?r ?c ?r' ?c' // {1 2}eD ent_mul_dgm // ent_dgm_mul // ent_zerom.
have [q [n [hq hn ei]]] := posP hi; have [q' [n' [hq' hn' ej]]] := posP hj.
rewrite ei ej h // /y !posDiv // !posMod //.
case: (e q n q' n') => // ->; cring.
Qed.

Lemma qubCav_commE d f (x : nat -> nat -> C) H D K : qubCav d f H ->
  qubCav d (fun q n q' n' => ((q == q') && (n == n'))%:R * x q n) D -> commutator H D K ->
  qubCav d (fun q n q' n' => f q n q' n' * (x q' n' - x q n)) K.
Proof.
move=> [[r c] h] [[r' c'] h'] [X [Y [e1 [e2 e3]]]].
pose y i := x (i %/ d)%N (i %% d)%N.
have eD : D = dgm (2 * d) y.
  apply: mat_ext; rewrite ?r' ?c' // => i j hi hj; rewrite ent_dgm hi andbT.
  have [q [n [hq hn ei]]] := posP hi; have [q' [n' [hq' hn' ej]]] := posP hj.
  rewrite ei ej h' // /y posDiv // posMod //.
  case: ((q * d + n)%N =P (q' * d + n')%N) => [e4|ne]; last first.
    case: (q =P q') => [e4|] /=; last by rewrite mul0r.
    by case: (n =P n') => [e5|] /=; [case: ne; rewrite e4 e5 | rewrite mul0r].
  have := congr1 (fun k => k %/ d)%N e4; have := congr1 (fun k => k %% d)%N e4.
  by rewrite !posDiv // !posMod // => -> ->; rewrite !eqxx mul1r.
move: e1 e2; rewrite !mmulE ?r ?c ?r' ?c' // => -[eX] [eY]; move: e3.
rewrite -eX -eY msubE ?shapes ?r ?c ?r' ?c' // => -[<-]; split; first by split; rewrite !shapes ?r ?c.
move=> q n q' n' hq hq' hn hn'; have hi := posLt hq hn; have hj := posLt hq' hn'.
rewrite ent_subm ?shapes ?r ?c ?r' ?c' // {1 2}eD ent_mul_dgm // ent_dgm_mul // h // /y !posDiv // !posMod //.
cring.
Qed.

(** ** Pairs of neighbouring states *)
Section Pairs.
Variable e : nat.
Let N := e.+1.*2.

Definition mate (i : nat) : nat :=
  if (i == 0%N) || (i == e.*2.+1) then i else if odd i then i.+1 else i.-1.

Lemma mate0 : mate 0 = 0%N. Proof. by []. Qed.
Lemma mateL : mate e.*2.+1 = e.*2.+1. Proof. by rewrite /mate eqxx orbT. Qed.
Lemma mateO k : (k < e)%N -> mate k.*2.+1 = k.*2.+2.
Proof. by move=> h; rewrite /mate /= eqSS odd_double /= ltn_eqF ?ltn_double. Qed.
Lemma mateE k : (k < e)%N -> mate k.*2.+2 = k.*2.+1.
Proof.
move=> h; rewrite /mate /= !eqSS odd_double /=; case: eqP => // x.
by have := congr1 odd x; rewrite /= !odd_double.
Qed.

Variant idxSpec : nat -> Prop :=
  | I0 : idxSpec 0
  | IL : idxSpec e.*2.+1
  | IO k of (k < e)%N : idxSpec k.*2.+1
  | IE k of (k < e)%N : idxSpec k.*2.+2.

Lemma idxP i : (i < N)%N -> idxSpec i.
Proof.
move=> h; rewrite -(odd_double_half i) in h *; move: i./2 h => k.
case: odd => /=; rewrite ?add0n ?add1n /N doubleS.
  rewrite ltnS => h; have : (k < e.+1)%N by rewrite -ltn_double doubleS; apply: leqW.
  rewrite ltnS leq_eqVlt => /orP[/eqP ->|hk]; [exact: IL | exact: IO].
case: k => [|k] h; first exact: I0.
by rewrite doubleS; apply: IE; rewrite -ltn_double -(ltn_add2r 2) !addn2 -doubleS.
Qed.

Lemma mate_lt i : (i < N)%N -> (mate i < N)%N.
Proof.
move=> hi; have sp := idxP hi; case: sp hi => [||k h|k h] hi; rewrite ?mate0 ?mateL // ?mateO ?mateE //; last exact: ltnW.
by rewrite /N doubleS !ltnS ltn_double.
Qed.

Lemma mateK i : (i < N)%N -> mate (mate i) = i.
Proof. by case/idxP; rewrite ?mate0 ?mateL // => k h; rewrite ?(mateO h) ?(mateE h) ?(mateO h). Qed.

Lemma sum_pair (F : nat -> C) i : (i < N)%N ->
  (forall j, (j < N)%N -> j != i -> j != mate i -> F j = 0) ->
  \sum_(j < N) F j = F i + (mate i != i)%:R * F (mate i).
Proof.
move=> hi h; rewrite (bigD1 (Ordinal hi)) //=; congr (_ + _).
case: (mate i =P i) => [em|/eqP ne] /=.
  by rewrite mul0r big1 // => j; rewrite -val_eqE /= => nj; apply: h => //; rewrite em.
rewrite mul1r (bigD1 (Ordinal (mate_lt hi))) //= big1 ?addr0 // => j.
by rewrite -!val_eqE /= => /andP[n1 n2]; apply: h.
Qed.

(** A matrix that only connects a state to itself and to its mate. *)
Definition pm (u o : nat -> C) : mat C := mk N N (fun i j => if j == i then u i else if j == mate i then o i else 0).

Lemma ent_pm u o i j : (i < N)%N -> (j < N)%N -> ent (pm u o) i j = if j == i then u i else if j == mate i then o i else 0.
Proof. exact: ent_mk. Qed.

Lemma act_pm u o v i : (i < N)%N -> act N (pm u o) v i = u i * v i + (mate i != i)%:R * (o i * v (mate i)).
Proof.
move=> hi; have hm := mate_lt hi; rewrite /act (sum_pair (F := fun j => ent (pm u o) i j * v j) hi) /=.
  rewrite !ent_pm // !eqxx; congr (_ + _); by case: eqP => _; rewrite ?mul0r.
by move=> j hj /negbTE n1 /negbTE n2; rewrite ent_pm // n1 n2 mul0r.
Qed.

Lemma pm_unitary u o :
  (forall i, (i < N)%N -> (u i)^* * u i + (mate i != i)%:R * ((o (mate i))^* * o (mate i)) = 1) ->
  (forall i, (i < N)%N -> (u i)^* * u i + (mate i != i)%:R * ((o i)^* * o i) = 1) ->
  (forall i, (i < N)%N -> mate i != i -> (u i)^* * o i + (o (mate i))^* * u (mate i) = 0) ->
  (forall i, (i < N)%N -> mate i != i -> u i * (o (mate i))^* + o i * (u (mate i))^* = 0) ->
  unitary N (pm u o).
Proof.
move=> h1 h2 h3 h4; split=> //; split=> i j hi hj; have hm := mate_lt hi; have mm := mateK hi.
- rewrite (sum_pair (F := fun k => (ent (pm u o) k i)^* * ent (pm u o) k j) hi); last first.
    move=> k hk n1 n2; rewrite ent_pm // eq_sym (negbTE n1).
    by case: eqP => [e1|]; [move: n2; rewrite e1 mateK // eqxx | rewrite conjC0 mul0r].
  rewrite !ent_pm // eqxx /delta (eq_sym i j) mm.
  case: (j =P i) => [-> {j hj}|/eqP nj].
    apply: (etrans _ (h1 i hi)); congr (_ + _).
    by case: (mate i =P i) => [->|/eqP ne] /=; rewrite ?mul0r // eq_sym (negbTE ne) eqxx mul1r.
  case: (mate i =P i) => [em|/eqP ne] /=.
    by rewrite em (negbTE nj) mulr0 mul0r addr0.
  rewrite (eq_sym i) (negbTE ne) eqxx mul1r.
  case: (j =P mate i) => [_|_]; last by rewrite !mulr0 addr0.
  exact: h3.
- rewrite (sum_pair (F := fun k => ent (pm u o) i k * (ent (pm u o) j k)^*) hi); last first.
    by move=> k hk /negbTE n1 /negbTE n2; rewrite ent_pm // n1 n2 mul0r.
  rewrite !ent_pm // !eqxx /delta.
  case: (i =P j) => [<- {j hj}|/eqP nj].
    rewrite !eqxx mulrC; apply: (etrans _ (h2 i hi)); congr (_ + _).
    by case: (mate i =P i) => [_|/eqP ne] /=; rewrite ?mul0r // !mul1r mulrC.
  case: (mate i =P i) => [em|/eqP ne] /=.
    rewrite mul0r addr0; case: (i =P mate j) => [e1|_]; last by rewrite conjC0 mulr0.
    by move: nj; rewrite -(mateK hj) -e1 em eqxx.
  rewrite mul1r; case: (i =P mate j) => [e1|ne2].
    have ej : mate i = j by rewrite e1 mateK.
    rewrite ej eqxx -ej; exact: h4.
  have -> : (mate i == j) = false by apply/eqP => e1; case: ne2; rewrite -e1 mm.
  rewrite (_ : (mate i == mate j) = false) ?conjC0 ?mulr0 ?addr0 //.
  by apply/eqP => /(congr1 mate); rewrite !mateK // => /eqP; apply/negP.
Qed.

End Pairs.


(** ** Item assignment *)
Section Items.
Variables (row col : nat -> nat).

Lemma items_cons U n ns val : setItems U (n :: ns) row col val
  = setItems (fun i j => if (i == row n) && (j == col n) then val U n else U i j) ns row col val :> (nat -> nat -> C).
Proof. by []. Qed.

Lemma items_out U ns val i j : (forall n, n \in ns -> row n <> i) -> setItems U ns row col val i j = U i j :> C.
Proof.
elim: ns U => [//|n ns IH] U h; rewrite items_cons IH => [|m hm]; last by apply: h; rewrite inE hm orbT.
by case: (i =P row n) => [e1|] //=; case: (h n); rewrite ?inE ?eqxx.
Qed.

Lemma items_const U ns w n0 j : uniq ns -> n0 \in ns -> (forall n, n \in ns -> row n = row n0 -> n = n0) ->
  setItems U ns row col (fun _ n => w n) (row n0) j = if j == col n0 then w n0 else U (row n0) j :> C.
Proof.
elim: ns U => [//|n ns IH] U /andP[nn un]; rewrite inE items_cons => hn h.
case: (n0 =P n) hn => [e1 _|ne /= hn].
  rewrite -e1 in nn *; rewrite items_out => [|m hm em]; last first.
    by move/negP: nn; apply; rewrite -(h m) // inE hm orbT.
  by rewrite eqxx.
rewrite IH // => [|m hm]; last by apply: h; rewrite inE hm orbT.
case: (row n0 =P row n) => [e1|] //=.
by case: ne; rewrite (h n) ?inE ?eqxx.
Qed.

Lemma items_mul U ns w n0 j : uniq ns -> n0 \in ns -> (forall n, n \in ns -> row n = row n0 -> n = n0) ->
  setItems U ns row col (fun U n => U (row n) (col n) * w n) (row n0) j
  = if j == col n0 then U (row n0) j * w n0 else U (row n0) j :> C.
Proof.
elim: ns U => [//|n ns IH] U /andP[nn un]; rewrite inE items_cons => hn h.
case: (n0 =P n) hn => [e1 _|ne /= hn].
  rewrite -e1 in nn *; rewrite items_out => [|m hm em]; last first.
    by move/negP: nn; apply; rewrite -(h m) // inE hm orbT.
  by rewrite eqxx /=; case: eqP => [->|].
rewrite IH // => [|m hm]; last by apply: h; rewrite inE hm orbT.
have -> : (row n0 == row n) = false by apply/eqP => e1; case: ne; rewrite (h n) ?inE ?eqxx.
by [].
Qed.

Lemma items_const' U ns w n0 i j : row n0 = i -> uniq ns -> n0 \in ns -> (forall n, n \in ns -> row n = i -> n = n0) ->
  setItems U ns row col (fun _ n => w n) i j = if j == col n0 then w n0 else U i j :> C.
Proof. by move=> <-; apply: items_const. Qed.

Lemma items_mul' U ns w n0 i j : row n0 = i -> uniq ns -> n0 \in ns -> (forall n, n \in ns -> row n = i -> n = n0) ->
  setItems U ns row col (fun U n => U (row n) (col n) * w n) i j = if j == col n0 then U i j * w n0 else U i j :> C.
Proof. by move=> <-; apply: items_mul. Qed.
End Items.
Arguments items_const' [row col] U [ns] w n0 [i] j.
Arguments items_mul' [row col] U [ns] w n0 [i] j.

(** ** UJC *)
Section UJC.
Variables (cosf sinf cexp : C -> C) (wq wc g t : C) (e : nat).
Let D := wq - wc.
Let Om k := sqrtC (k%:R * g ^+ 2 + D ^+ 2 / 4%:R).
Let half : C := 1 / 2%:R.
Definition ph k := cexp (- 'i * wc * (k%:R - half) * t).

Definition uu (i : nat) : C :=
  if i == 0%N then (cosf (D / 2%:R * t) + 'i * sinf (D / 2%:R * t)) * cexp ('i * wc * half * t)
  else if i == e.*2.+1 then (cosf (D / 2%:R * t) - 'i * sinf (D / 2%:R * t)) * ph e.+1
  else let k := i.+1./2 in
    (cosf (Om k * t) + (if odd i then -1 else 1) * ('i / 2%:R * D * sinf (Om k * t) / Om k)) * ph k.
Definition oo (i : nat) : C :=
  let k := i.+1./2 in - 'i * sqrtC k%:R * g * sinf (Om k * t) / Om k * ph k.

Lemma UJCE : (forall k, (1 <= k <= e)%N -> Om k <> 0) -> UJC cosf sinf cexp wq wc g t e.+1 = Ok (pm e uu oo).
Proof.
move=> h; rewrite /UJC; case: hasP => [[k]|_].
  by rewrite /range mem_iota subn1 /= => /h + /eqP e1; case.
rewrite (_ : (e.+1 == 0%N) = false) //; congr Ok; apply: mk_ext => [||i j hi hj]; [by rewrite mul2n | by rewrite mul2n |].
have er : range 1 e.+1 = iota 1 e by rewrite /range subn1.
have un : uniq (range 1 e.+1) by rewrite er iota_uniq.
have mr k : (k.+1 \in range 1 e.+1) = (k < e)%N by rewrite er mem_iota add1n ltnS.
have r0 n : n \in range 1 e.+1 -> n = n.-1.+1 by rewrite er mem_iota => /andP[h0 _]; rewrite prednK.
have de n : (2 * n.+1 = n.*2.+2)%N by rewrite mul2n doubleS.
have do_ n : (2 * n.+1 - 1 = n.*2.+1)%N by rewrite de subn1.
have deI k n : (2 * n = k.*2.+2)%N -> n = k.+1 by rewrite mul2n -doubleS => /double_inj.
have doI k n : n \in range 1 e.+1 -> (2 * n - 1 = k.*2.+1)%N -> n = k.+1.
  by move=> /r0 ->; rewrite do_ => -[] /double_inj ->.
have oE k n : n \in range 1 e.+1 -> (2 * n - 1 <> k.*2)%N.
  by move=> /r0 -> ; rewrite do_ => /(congr1 odd); rewrite /= !odd_double.
have eO k n : (2 * n <> k.*2.+1)%N.
  by rewrite mul2n => /(congr1 odd); rewrite /= !odd_double.
have L : (2 * e.+1 - 1 = e.*2.+1)%N := do_ e.
have hi' : (i < e.+1.*2)%N by rewrite -mul2n.
case: (idxP hi') => [||k hk|k hk].
- rewrite items_out => [|n]; last by rewrite inE L => /eqP ->.
  rewrite (items_const' _ _ 0%N) //.
  rewrite mate0 /uu eqxx /=; case: eqP => // _.
  have o2 n : n \in range 1 e.+1 -> (2 * n)%N <> 0%N by move=> /r0 ->; rewrite de.
  have o1 n : n \in range 1 e.+1 -> (2 * n - 1)%N <> 0%N by move=> hn; apply: (oE 0%N).
  by do 6 (rewrite items_out => [|n hn]; last by [apply: o1 | apply: o2]).
- rewrite (items_const' _ _ (2 * e.+1 - 1)%N) //; try (by rewrite inE); try by move=> n; rewrite inE => /eqP.
  rewrite mateL L /uu /= eqxx /=; case: (j =P e.*2.+1) => // _.
  have o2 n : n \in range 1 e.+1 -> (2 * n)%N <> e.*2.+1 by move=> _; apply: eO.
  have o1 n : n \in range 1 e.+1 -> (2 * n - 1)%N <> e.*2.+1.
    by move=> hn; move/(doI e n hn) => en; move: hn; rewrite en mr ltnn.
  by do 6 (rewrite items_out => [|n hn]; last by [apply: o1 | apply: o2]).
- have ne : (k.*2.+1 == e.*2.+1) = false by rewrite eqSS ltn_eqF // ltn_double.
  have nl : k.*2.+1 <> e.*2.+1 by move/eqP; rewrite ne.
  have kin : k.+1 \in range 1 e.+1 by rewrite mr.
  have o2 n : n \in range 1 e.+1 -> (2 * n)%N <> k.*2.+1 by move=> _; apply: eO.
  rewrite items_out => [|n]; last by rewrite inE L => /eqP ->; apply/eqP; rewrite eq_sym ne.
  rewrite items_out => [|n]; last by rewrite inE => /eqP ->.
  rewrite (items_const' _ _ k.+1) //; last by move=> n; apply: doI.
  rewrite items_out //.
  rewrite (items_mul' _ _ k.+1) //; last by move=> n; apply: doI.
  rewrite (items_const' _ _ k.+1) //; last by move=> n; apply: doI.
  do 2 rewrite items_out //.
  rewrite mateO // do_ de /uu /oo /= ne odd_double /= doubleK -/D mulN1r.
  case: (j =P k.*2.+1) => [->|_] //.
  by rewrite (_ : (k.*2.+1 == k.*2.+2) = false) // ltn_eqF.
- have nl : (k.*2.+2 == e.*2.+1) = false.
    by apply/eqP => /(congr1 odd); rewrite /= !odd_double.
  have kin : k.+1 \in range 1 e.+1 by rewrite mr.
  have o1 n : n \in range 1 e.+1 -> (2 * n - 1)%N <> k.*2.+2 by move=> hn; rewrite -doubleS; apply: oE.
  rewrite items_out => [|n]; last by rewrite inE L => /eqP ->; apply/eqP; rewrite eq_sym nl.
  rewrite items_out => [|n]; last by rewrite inE => /eqP ->.
  rewrite items_out //.
  rewrite (items_const' _ _ k.+1) //; last by move=> n _; apply: deI.
  do 2 rewrite items_out //.
  rewrite (items_mul' _ _ k.+1) //; last by move=> n _; apply: deI.
  rewrite (items_const' _ _ k.+1) //; last by move=> n _; apply: deI.
  rewrite mateE // do_ de /uu /oo nl /= odd_double /= uphalf_double -/D [1 * ('i / _ * _ * _ / _)]mul1r.
  case: (j =P k.*2.+2) => [->|_] //.
  by rewrite (_ : (k.*2.+2 == k.*2.+1) = false) // gtn_eqF.
Qed.

(** The Hamiltonian in the order of UJC. *)
Definition hu (i : nat) : C := wc * (i./2)%:R + (if odd i then wq / 2%:R else - (wq / 2%:R)).
Definition ho (i : nat) : C := g * sqrtC (i.+1./2)%:R.

Ltac cr := rewrite /= ?(mulr1n, mulr0n); cring.
Lemma relabelE H H' : JCHam (wq / 2%:R) wc g e.+1 = Ok H -> relabelled e.+1 H H' -> H' = pm e hu ho.
Proof.
have [H0 [-> [sq0 h0]]] := JCE (wq / 2%:R) wc g e.+1.
move=> -[] <- [[r c] h]; apply: mat_ext; rewrite ?shapes ?r ?c ?mul2n // => i j hi hj.
rewrite h ?mul2n // ent_pm // /ujcPos.
have hl k : (k < e.+1.*2)%N -> (k./2 < e.+1)%N.
  by move=> hk; rewrite -ltn_double; apply: leq_ltn_trans hk; rewrite -{2}(odd_double_half k) leq_addl.
have b2 k : (~~ odd k < 2)%N by case: odd.
rewrite h0 ?hl ?b2 // /freeEnt /excitations /hop.
have ej := odd_double_half j.
case: (idxP hi) => [||k hk|k hk].
- rewrite mate0 /hu /ho /= mulr0 add0r.
  case: (j =P 0%N) => [->|nj] /=; first by rewrite /zsign /=; cr.
  have [] : odd j \/ (0 < j./2)%N.
    by case: (odd j) ej => e1; [left | right; rewrite lt0n; apply/eqP => e2; case: nj; rewrite -e1 e2].
  + by move=> oj; rewrite oj /= add0n; case: (j./2) => [|m] /=; cr.
  + by case: (odd j) => /=; case: (j./2) => [|m] //= _; rewrite ?andbF ?addn0 ?addn1 /=; cr.
- rewrite mateL /hu /ho /= odd_double /= uphalf_double.
  case: (j =P e.*2.+1) => [->|nj] /=; first by rewrite /= odd_double /= uphalf_double !eqxx /= /zsign /=; cr.
  have hj2 := hl j hj; case: (odd j) ej nj => //= e1 nj.
    have n1 : (j./2 == e) = false by apply/eqP => e2; case: nj; rewrite -e1 e2.
    by rewrite (eq_sym e) n1 /=; cr.
  rewrite addn1 addn0; case: (e.+1 =P j./2) => [e2|_]; last by cr.
  by move: hj2; rewrite -e2 ltnn.
- rewrite mateO // /hu /ho /= odd_double /= uphalf_double doubleK.
  case: (j =P k.*2.+1) => [->|nj] /=; first by rewrite /= odd_double /= uphalf_double !eqxx /= /zsign /=; cr.
  case: (j =P k.*2.+2) => [->|nj'] /=.
    rewrite /= odd_double /= doubleK addn1 addn0 !eqxx /=; cr.
  case: (odd j) ej => /= e1.
    have n1 : (j./2 == k) = false by apply/eqP => e2; case: nj; rewrite -e1 e2.
    by rewrite (eq_sym k) n1 /=; cr.
  have n1 : (j./2 == k.+1) = false by apply/eqP => e2; case: nj'; rewrite -e1 e2 doubleS.
  by rewrite addn0 addn1 (eq_sym k.+1) n1 /=; cr.
- rewrite mateE // /hu /ho /= odd_double /= uphalf_double doubleK.
  case: (j =P k.*2.+2) => [->|nj] /=; first by rewrite /= odd_double /= doubleK !eqxx /= /zsign /=; cr.
  case: (j =P k.*2.+1) => [->|nj'] /=.
    rewrite /= odd_double /= uphalf_double addn1 addn0 !eqxx /= eqS2; cr.
  case: (odd j) ej => /= e1.
    have n1 : (j./2 == k) = false by apply/eqP => e2; case: nj'; rewrite -e1 e2.
    by rewrite addn0 addn1 eqSS (eq_sym k) n1 /=; cr.
  have n1 : (j./2 == k.+1) = false by apply/eqP => e2; case: nj; rewrite -e1 e2 doubleS.
  by rewrite (eq_sym k.+1) n1 /=; cr.
Qed.

Hypothesis nz : forall k, (1 <= k <= e)%N -> Om k <> 0.
Hypothesis euG : eulerAt cosf sinf cexp (- (wc * half * t)) (D / 2%:R * t).
Hypothesis euE : eulerAt cosf sinf cexp (wc * (e.+1%:R - half) * t) (D / 2%:R * t).
Hypothesis euP : forall k, (1 <= k <= e)%N -> eulerAt cosf sinf cexp (wc * (k%:R - half) * t) (Om k * t).

Lemma n2 : 2%:R <> 0 :> C. Proof. by apply/eqP; rewrite pnatr_eq0. Qed.
Lemma n4 : 4%:R <> 0 :> C. Proof. by apply/eqP; rewrite pnatr_eq0. Qed.

Lemma OmK k : Om k ^+ 2 = (D / 2%:R) ^+ 2 + (g * sqrtC k%:R) ^+ 2.
Proof.
rewrite /Om sqrtCK expr_div_n -(natrX _ 2 2) exprMn sqrtCK addrC; congr (_ + _); exact: mulrC.
Qed.

Lemma pairRow (c s p de gm O mu a b X : C) : O <> 0 -> de * a + gm * b = mu * a -> mu ^+ 2 * a = O ^+ 2 * a ->
  (mu = O -> X = p * (c - 'i * s)) -> (mu = - O -> X = p * (c + 'i * s)) ->
  (c - 'i * de * s / O) * p * a + (- 'i * gm * s / O * p) * b = X * a.
Proof.
move=> nO e1 e2 hp hm.
have -> : (c - 'i * de * s / O) * p * a + (- 'i * gm * s / O * p) * b
  = p * (c * a - 'i * s / O * (de * a + gm * b)) by cfield.
rewrite e1; case: (a =P 0) => [->|na]; first by cring.
have : mu ^+ 2 - O ^+ 2 = 0.
  apply/eqP; have /eqP := congr1 (fun x => x - O ^+ 2 * a) e2; rewrite subrr -mulrBl mulf_eq0.
  by case/orP => // /eqP.
rewrite subr_sqr => /eqP; rewrite mulf_eq0 => /orP[|]; rewrite ?subr_eq0 ?addr_eq0 => /eqP em.
- by rewrite (hp em) em; cfield.
- by rewrite (hm em) em; cfield.
Qed.

Lemma hu0 : hu 0 = - (wc * half) - D / 2%:R.
Proof. rewrite /hu /D /half /= mulr0n; move: n2 => n2'; by cfield. Qed.
Lemma huL : hu e.*2.+1 = wc * (e.+1%:R - half) + D / 2%:R.
Proof. rewrite /hu /D /half /= odd_double /= uphalf_double -(natr1 _ e); move: n2 => n2'; by cfield. Qed.
Lemma huO k : hu k.*2.+1 = wc * (k.+1%:R - half) + D / 2%:R.
Proof. rewrite /hu /D /half /= odd_double /= uphalf_double -(natr1 _ k); move: n2 => n2'; by cfield. Qed.
Lemma huE k : hu k.*2.+2 = wc * (k.+1%:R - half) - D / 2%:R.
Proof. rewrite /hu /D /half /= odd_double /= doubleK -(natr1 _ k); move: n2 => n2'; by cfield. Qed.
Lemma hoO k : ho k.*2.+1 = g * sqrtC k.+1%:R.
Proof. by rewrite /ho /= doubleK. Qed.
Lemma hoE k : ho k.*2.+2 = g * sqrtC k.+1%:R.
Proof. by rewrite /ho /= uphalf_double. Qed.

Lemma uuO k : (k < e)%N -> uu k.*2.+1 = (cosf (Om k.+1 * t) - 'i * (D / 2%:R) * sinf (Om k.+1 * t) / Om k.+1) * ph k.+1.
Proof.
move=> h; have n := n2; have := @nz k.+1 h; rewrite /uu /= eqSS ltn_eqF ?ltn_double // odd_double /= doubleK => n1; cfield.
by split.
Qed.
Lemma uuE k : (k < e)%N -> uu k.*2.+2 = (cosf (Om k.+1 * t) - 'i * (- (D / 2%:R)) * sinf (Om k.+1 * t) / Om k.+1) * ph k.+1.
Proof.
move=> h; have n := n2; have := @nz k.+1 h; rewrite /uu /=.
have -> : (k.*2.+2 == e.*2.+1) = false by apply/eqP => /(congr1 odd); rewrite /= !odd_double.
rewrite odd_double /= uphalf_double => n1; cfield.
by split.
Qed.
Lemma ooO k : (k < e)%N -> oo k.*2.+1 = - 'i * (g * sqrtC k.+1%:R) * sinf (Om k.+1 * t) / Om k.+1 * ph k.+1.
Proof. by move=> h; rewrite /oo /= doubleK; cring. Qed.
Lemma ooE k : (k < e)%N -> oo k.*2.+2 = - 'i * (g * sqrtC k.+1%:R) * sinf (Om k.+1 * t) / Om k.+1 * ph k.+1.
Proof. by move=> h; rewrite /oo /= uphalf_double; cring. Qed.
Lemma phE k : ph k = cexp (- 'i * (wc * (k%:R - half) * t)).
Proof. by rewrite /ph; congr cexp; cring. Qed.

Lemma neS (n : nat) : (n == n.+1) = false. Proof. exact: ltn_eqF. Qed.
Lemma nSe (n : nat) : (n.+1 == n) = false. Proof. exact: gtn_eqF. Qed.

Lemma UJC_evolves : evolves e.+1.*2 cexp (pm e hu ho) t (pm e uu oo).
Proof.
split=> // l v hv i hi; have := hv i hi; rewrite !act_pm //; case: (idxP hi) => [||k hk|k hk].
- rewrite mate0 eqxx /= !mul0r !addr0 => e1.
  case: (v 0%N =P 0) => [->|nv]; first by rewrite !mulr0.
  have <- : hu 0 = l by apply: (mulIf (introN eqP nv)).
  congr (_ * _); rewrite /uu eqxx hu0.
  have -> : - 'i * ((- (wc * half) - D / 2%:R) * t) = - 'i * (- (wc * half * t) - D / 2%:R * t) by cring.
  rewrite (proj2 euG) mulrC; congr (cexp _ * _); cring.
- rewrite mateL eqxx /= !mul0r !addr0 => e1.
  case: (v e.*2.+1 =P 0) => [->|nv]; first by rewrite !mulr0.
  have <- : hu e.*2.+1 = l by apply: (mulIf (introN eqP nv)).
  congr (_ * _); rewrite /uu /= eqxx huL phE.
  have -> : - 'i * ((wc * (e.+1%:R - half) + D / 2%:R) * t) = - 'i * (wc * (e.+1%:R - half) * t + D / 2%:R * t) by cring.
  by rewrite (proj1 euE) mulrC.
- have hi' : (k.*2.+2 < e.+1.*2)%N by rewrite doubleS !ltnS ltn_double.
  have := hv _ hi'; rewrite act_pm // mateO // mateE // neS nSe /= !mul1r.
  rewrite huO huE hoO hoE uuO // ooO // => eb ea.
  set E := wc * (k.+1%:R - half) in ea eb *; set mu := l - E.
  have [eu1 eu2] := @euP k.+1 hk; have := @nz k.+1 hk.
  move: (v k.*2.+1) (v k.*2.+2) ea eb => a b ea eb nO.
  have ea' : D / 2%:R * a + g * sqrtC k.+1%:R * b = mu * a by rewrite /mu (mulrBl a l E) -ea; cring.
  have eb' : g * sqrtC k.+1%:R * a - D / 2%:R * b = mu * b by rewrite /mu (mulrBl b l E) -eb; cring.
  apply: (pairRow (mu := mu)) => //.
  + rewrite OmK expr2 -mulrA -ea'; apply: etrans (_ : D / 2%:R * (mu * a) + g * sqrtC k.+1%:R * (mu * b) = _); first by cring.
    rewrite -ea' -eb'; cring.
  + move=> em; rewrite phE -eu1; congr (cexp (- 'i * _)); rewrite -/E -em /mu; cring.
  + move=> em; rewrite phE -eu2; congr (cexp (- 'i * _)); rewrite -/E -(opprK (Om _)) -em /mu; cring.
- have hi' : (k.*2.+1 < e.+1.*2)%N by rewrite doubleS !ltnS; apply: ltnW; rewrite ltn_double.
  have := hv _ hi'; rewrite act_pm // mateE // mateO // neS nSe /= !mul1r.
  rewrite huO huE hoO hoE uuE // ooE // => ea eb.
  set E := wc * (k.+1%:R - half) in ea eb *; set mu := l - E.
  have [eu1 eu2] := @euP k.+1 hk; have := @nz k.+1 hk.
  move: (v k.*2.+1) (v k.*2.+2) ea eb => a b ea eb nO.
  have ea' : D / 2%:R * a + g * sqrtC k.+1%:R * b = mu * a by rewrite /mu (mulrBl a l E) -ea; cring.
  have eb' : - (D / 2%:R) * b + g * sqrtC k.+1%:R * a = mu * b by rewrite /mu (mulrBl b l E) -eb; cring.
  apply: (pairRow (mu := mu)) => //.
  + rewrite OmK expr2 -mulrA -eb'; apply: etrans (_ : - (D / 2%:R) * (mu * b) + g * sqrtC k.+1%:R * (mu * a) = _); first by cring.
    rewrite -ea' -eb'; cring.
  + move=> em; rewrite phE -eu1; congr (cexp (- 'i * _)); rewrite -/E -em /mu; cring.
  + move=> em; rewrite phE -eu2; congr (cexp (- 'i * _)); rewrite -/E -(opprK (Om _)) -em /mu; cring.
Qed.

(** *** Uniqueness *)
Lemma evolves_unique n H U W : evolves n cexp H t U -> evolves n cexp H t W ->
  (forall j, (j < n)%N -> exists l v l' v', [/\ eigen n H l v, eigen n H l' v' &
     forall i, (i < n)%N -> (i == j)%:R = v i + v' i]) -> U = W.
Proof.
have actD M v v' j i : (forall k, (k < n)%N -> (k == j)%:R = v k + v' k) -> (j < n)%N ->
    ent M i j = act n M v i + act n M v' i.
  move=> h hj; rewrite /act -big_split /= (bigD1 (Ordinal hj)) //= -mulrDr -h // eqxx mulr1 big1 ?addr0 //.
  by move=> k; rewrite -val_eqE /= => /negbTE ne; rewrite -mulrDr -h // ne mulr0.
move=> [[r c] hU] [[r' c'] hW] hs; apply: mat_ext; rewrite ?r ?c ?r' ?c' // => i j hi hj.
have [l [v [l' [v' [h1 h2 h3]]]]] := hs j hj.
by rewrite !(actD _ v v' j i h3 hj) (hU _ _ h1 i hi) (hU _ _ h2 i hi) (hW _ _ h1 i hi) (hW _ _ h2 i hi).
Qed.

Lemma mate_ne i j : (i < e.+1.*2)%N -> (j < e.+1.*2)%N -> (mate e i == j) = (i == mate e j).
Proof.
by move=> hi hj; apply/eqP/eqP => [<-|->]; rewrite mateK.
Qed.

Lemma eigen_split j : (j < e.+1.*2)%N -> exists l v l' v', [/\ eigen e.+1.*2 (pm e hu ho) l v, eigen e.+1.*2 (pm e hu ho) l' v' &
     forall i, (i < e.+1.*2)%N -> (i == j)%:R = v i + v' i].
Proof.
move=> hj; case: (mate e j =P j) => [em|/eqP nm].
  exists (hu j), (fun i => (i == j)%:R), 0, (fun=> 0); split=> [i hi|i hi|i hi]; last by rewrite addr0.
    rewrite act_pm //; case: (i =P j) => [->|ne]; first by rewrite em eqxx mul0r addr0.
    have -> : (mate e i == j) = false by rewrite mate_ne // em; apply/eqP.
    by rewrite !mulr0 addr0.
  by rewrite act_pm // !mulr0 addr0.
have hm := mate_lt hj; have mm := mateK hj.
pose K := j.+1./2; pose E := wc * (K%:R - half); pose de := hu j - E; pose gm := g * sqrtC K%:R.
have [[kK hoj hom] [hum eO]] : [/\ (1 <= K <= e)%N, ho j = gm & ho (mate e j) = gm] /\ hu (mate e j) = E - de /\ Om K ^+ 2 = de ^+ 2 + gm ^+ 2.
  rewrite /gm /de /E /K; case: (idxP hj) nm => [||k hk|k hk]; rewrite ?mate0 ?mateL ?eqxx // => _.
  - rewrite mateO // hoO hoE huO huE /= doubleK; split=> //; split; first by move: (D / _) => dd; cring.
    rewrite OmK; move: (D / _) => dd; cring.
  - rewrite mateE // hoO hoE huO huE /= uphalf_double; split=> //; split; first by move: (D / _) => dd; cring.
    rewrite OmK; move: (D / _) => dd; cring.
have nO := nz kK; have nn := n2.
have huj : hu j = E + de by rewrite /de; cring.
pose v (s : C) i : C := if i == j then (1 + s * de / Om K) / 2%:R else if i == mate e j then s * gm / Om K / 2%:R else 0.
have ev (s : C) : s ^+ 2 = 1 -> eigen e.+1.*2 (pm e hu ho) (E + s * Om K) (v s).
  move=> s2 i hi; rewrite act_pm // /v.
  case: (i =P j) => [->|ni].
    rewrite nm eqxx mul1r (negbTE nm) hoj huj.
    apply: etrans (_ : (E + de + s * (de ^+ 2 + gm ^+ 2 + E * de) / Om K) / 2%:R = _); first by cfield.
    rewrite -eO; apply: etrans (_ : (E + s * Om K + s ^+ 2 * de + s * E * de / Om K) / 2%:R = _); last by cfield.
    rewrite s2; cfield; by split.
  case: (i =P mate e j) => [->|ni'].
    rewrite mm eqxx eq_sym nm mul1r hom hum.
    apply: etrans (_ : (E * s * gm / Om K + s ^+ 2 * gm) / 2%:R = _); last by cfield.
    rewrite s2; cfield; by split.
  rewrite (mate_ne hi hj) (introF eqP ni').
  have -> : (mate e i == mate e j) = false by rewrite mate_ne ?mm //; apply/eqP.
  by rewrite !mulr0 addr0.
exists (E + 1 * Om K), (v 1), (E + -1 * Om K), (v (-1)); split; [apply: ev | apply: ev | ]; rewrite ?sqrrN ?expr1n //.
move=> i hi; rewrite /v; case: (i =P j) => _ /=; rewrite ?mulr1n ?mulr0n; first by cfield; split.
by case: eqP => _; [cfield; split | rewrite addr0].
Qed.

Lemma UJC_unique W : evolves e.+1.*2 cexp (pm e hu ho) t W -> W = pm e uu oo.
Proof. by move=> hW; apply: evolves_unique hW UJC_evolves eigen_split. Qed.

(** *** Unitarity *)
Hypotheses (wqR : wq^* = wq) (wcR : wc^* = wc) (gR : g^* = g).
Hypothesis ciP : forall k, (1 <= k <= e)%N -> circleAt cosf sinf (Om k * t).
Hypothesis ciD : circleAt cosf sinf (D / 2%:R * t).
Hypothesis phG : (cexp ('i * wc * half * t))^* * cexp ('i * wc * half * t) = 1.
Hypothesis phP : forall k, (1 <= k <= e.+1)%N -> (ph k)^* * ph k = 1.

Lemma sqrt_real k : (sqrtC k%:R)^* = sqrtC k%:R :> C.
Proof. by apply: CrealP; apply: ger0_real; rewrite sqrtC_ge0 ler0n. Qed.
Lemma dR : (D / 2%:R)^* = D / 2%:R.
Proof. by rewrite fmorph_div rmorphB /= wqR wcR conjC_nat. Qed.
Lemma OmR k : (Om k)^* = Om k.
Proof.
apply: CrealP; apply: ger0_real; rewrite sqrtC_ge0 addr_ge0 //.
  by rewrite mulr_ge0 ?ler0n // real_exprn_even_ge0 //; apply/CrealP.
rewrite mulr_ge0 ?invr_ge0 ?ler0n // real_exprn_even_ge0 //; apply/CrealP.
by rewrite rmorphB /= wqR wcR.
Qed.

Lemma pairNorm (c s p q de gm O : C) : O <> 0 -> O ^+ 2 = de ^+ 2 + gm ^+ 2 -> c ^+ 2 + s ^+ 2 = 1 -> q * p = 1 ->
  (c - - 'i * de * s / O) * q * ((c - 'i * de * s / O) * p) + (- - 'i * gm * s / O * q) * (- 'i * gm * s / O * p) = 1.
Proof.
move=> nO eO cs qp; have i2 := @sqrCi C.
have -> : (c - - 'i * de * s / O) * q * ((c - 'i * de * s / O) * p) + (- - 'i * gm * s / O * q) * (- 'i * gm * s / O * p)
  = q * p * (c ^+ 2 - 'i ^+ 2 * ((de ^+ 2 + gm ^+ 2) * s ^+ 2 / O ^+ 2)) by cfield.
rewrite qp i2 -eO; apply: etrans cs; cfield; exact: nO.
Qed.

Lemma conj_row c s de x p : c^* = c -> s^* = s -> de^* = de -> x^* = x ->
  ((c - 'i * de * s / x) * p)^* = (c - - 'i * de * s / x) * p^* :> C.
Proof. by move=> hc hs hd hx; rewrite rmorphM rmorphB /= fmorph_div !rmorphM /= conjCi hc hs hd hx. Qed.
Lemma conj_off s gm x p : s^* = s -> gm^* = gm -> x^* = x ->
  (- 'i * gm * s / x * p)^* = - - 'i * gm * s / x * p^* :> C.
Proof. by move=> hs hd hx; rewrite !rmorphM /= rmorphN /= fmorphV conjCi hs hd hx. Qed.

Lemma uuN i : (i < e.+1.*2)%N -> (uu i)^* * uu i + (mate e i != i)%:R * ((oo i)^* * oo i) = 1.
Proof.
have [dc ds dn] := ciD.
move=> hi; case: (idxP hi) => [||k hk|k hk].
- rewrite mate0 /= mul0r addr0 /uu eqxx rmorphM rmorphD /= rmorphM /= conjCi dc ds mulrACA phG mulr1.
  apply: etrans dn; rewrite -[LHS]/(_ * _) mulNr -subr_sqr exprMn sqrCi mulN1r opprK //.
- rewrite mateL eqxx /= mul0r addr0 /uu eqxx /= rmorphM rmorphB /= rmorphM /= conjCi dc ds mulrACA phP ?ltnSn // mulr1.
  apply: etrans dn; rewrite mulNr opprK mulrC -subr_sqr exprMn sqrCi mulN1r opprK //.
- have [c1 c2 c3] := @ciP k.+1 hk.
  rewrite mateO // nSe /= mul1r uuO // ooO // conj_row ?dR ?OmR // conj_off ?OmR //; last by rewrite rmorphM /= gR sqrt_real.
  by apply: pairNorm; rewrite ?OmK //; [apply: nz | apply: phP; rewrite /= ltnS ltnW].
- have [c1 c2 c3] := @ciP k.+1 hk.
  rewrite mateE // neS /= mul1r uuE // ooE // conj_row ?rmorphN ?dR ?OmR //= conj_off ?OmR //; last by rewrite rmorphM /= gR sqrt_real.
  by apply: pairNorm; rewrite ?OmK ?sqrrN //; [apply: nz | apply: phP; rewrite /= ltnS ltnW].
Qed.

Lemma ooM i : (i < e.+1.*2)%N -> mate e i != i -> oo (mate e i) = oo i.
Proof.
move=> hi; case: (idxP hi) => [||k hk|k hk]; rewrite ?mate0 ?mateL ?eqxx //.
- by rewrite mateO // ooO // ooE.
- by rewrite mateE // ooO // ooE.
Qed.

Lemma uuM i : (i < e.+1.*2)%N -> mate e i != i -> (uu i)^* * oo i + (oo i)^* * uu (mate e i) = 0.
Proof.
move=> hi; case: (idxP hi) => [||k hk|k hk]; rewrite ?mate0 ?mateL ?eqxx // => _.
- have [c1 c2 c3] := @ciP k.+1 hk; have nO := @nz k.+1 hk.
  rewrite mateO // uuO // uuE // ooO // conj_row ?dR ?OmR // conj_off ?OmR //; last by rewrite rmorphM /= gR sqrt_real.
  by move: (D / 2%:R) => dd; cfield.
- have [c1 c2 c3] := @ciP k.+1 hk; have nO := @nz k.+1 hk.
  rewrite mateE // uuO // uuE // ooE // conj_row ?rmorphN ?dR ?OmR //= conj_off ?OmR //; last by rewrite rmorphM /= gR sqrt_real.
  by move: (D / 2%:R) => dd; cfield.
Qed.

Lemma UJC_unitary : unitary e.+1.*2 (pm e uu oo).
Proof.
apply: pm_unitary => [i hi|i hi|i hi hm|i hi hm].
- rewrite -[RHS](uuN hi); case: (mate e i =P i) => [_|/eqP hm]; first by rewrite !mul0r.
  by rewrite ooM.
- exact: uuN.
- by rewrite ooM // uuM.
- have hm' := mate_lt hi; have mm := mateK hi.
  have hm2 : mate e (mate e i) != mate e i by rewrite mm eq_sym.
  have := uuM hm' hm2; rewrite mm ooM // => <-; rewrite addrC mulrC; congr (_ + _); exact: mulrC.
Qed.
End UJC.

End HP.
