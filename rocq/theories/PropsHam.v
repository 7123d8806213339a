(** C49: the qubit-cavity Hamiltonians and the Jaynes-Cummings propagator. *)
From mathcomp Require Import all_ssreflect all_algebra all_field.
From Verif Require Py.
From Verif Require Import MatModel MatLib OperModel HamModel MatSpec HamSpec MatProofs CField OperProofs GateProofs HamProofs.
Set Implicit Arguments.
Unset Strict Implicit.
Unset Printing Implicit Defensive.
Import Order.TTheory GRing.Theory Num.Theory.
Local Open Scope ring_scope.

Notation AC := [numClosedFieldType of algC].

Section Props.
Variable C : numClosedFieldType.
Add Field Cf : (@C_field C).
Ltac cring := cnorm1 C; ring.
Ltac cfield := cnorm1 C; field.
Implicit Types (wq wc g t : C) (d : nat) (H N U W : mat C).

(** Entries between [|q,n>] and [|q',n'>] ([q = 0]: excited): the free energies
    are on the diagonal, and one photon is exchanged with the qubit.  The three
    models differ in which exchanges they allow: all, those that keep the number
    of excitations, and those that change it by two. *)
Theorem C49_entries wq wc g d : exists HR HJ HA : mat C,
  [/\ RabiHam wq wc g d = Ok HR, JCHam wq wc g d = Ok HJ & aJCHam wq wc g d = Ok HA] /\
  let free q n q' n' := ((q == q') && (n == n'))%:R * (wc * n%:R + wq * zsign C q) in
  [/\ qubCav d (fun q n q' n' => free q n q' n' + g * (q != q')%:R * hop C n n') HR,
      qubCav d (fun q n q' n' => free q n q' n' +
        g * ((q != q') && (excitations q n == excitations q' n'))%:R * hop C n n') HJ &
      qubCav d (fun q n q' n' => free q n q' n' +
        g * ((q != q') && (excitations (1 - q) n == excitations (1 - q') n'))%:R * hop C n n') HA].
Proof.
have [HR [-> hR]] := RabiE wq wc g d; have [HJ [-> hJ]] := JCE wq wc g d; have [HA [-> hA]] := aJCE wq wc g d.
by exists HR, HJ, HA.
Qed.

Theorem C49_hermitian wq wc g d HR HJ HA : wq^* = wq -> wc^* = wc -> g^* = g ->
  RabiHam wq wc g d = Ok HR -> JCHam wq wc g d = Ok HJ -> aJCHam wq wc g d = Ok HA ->
  [/\ hermitian (2 * d) HR, hermitian (2 * d) HJ & hermitian (2 * d) HA].
Proof.
move=> rq rc rg.
have [R [-> hR]] := RabiE wq wc g d; have [J [-> hJ]] := JCE wq wc g d; have [A [-> hA]] := aJCE wq wc g d.
move=> [<-] [<-] [<-]; split.
- apply: qubCav_herm hR _ => q n q' n' _ _; rewrite rmorphD /= -freeEnt_herm // !rmorphM /= rg hop_real hopC.
  by rewrite (eq_sym q) conjC_nat.
- apply: qubCav_herm hJ _ => q n q' n' _ _; rewrite rmorphD /= -freeEnt_herm // !rmorphM /= rg hop_real hopC.
  by rewrite (eq_sym q) (eq_sym (excitations q n)) conjC_nat.
- apply: qubCav_herm hA _ => q n q' n' _ _; rewrite rmorphD /= -freeEnt_herm // !rmorphM /= rg hop_real hopC.
  by rewrite (eq_sym q) (eq_sym (excitations (1 - q) n)) conjC_nat.
Qed.

(** The number of excitations, built with the operators of the library:
    [sigma_+ sigma_- (x) 1 + 1 (x) n]; and with the qubit inverted. *)
Definition excitationOp (a b : result (mat C)) (d : nat) : result (mat C) :=
  do p <- a; do m <- b; do e <- mmul p m; do i <- identity C d;
  do i2 <- identity C 2; do n <- number C d; madd (kron e i) (kron i2 n).

(** The parity of the number of excitations: [- sigma_z (x) (-1)^n]; the overall
    sign is left out. *)
Definition parityOp (d : nat) : result (mat C) :=
  do z <- sigmaz; do p <- paritySUM C d; Ok (kron z p).

Lemma excE d : exists X, excitationOp sigmap sigmam d = Ok X /\
  qubCav d (fun q n q' n' => ((q == q') && (n == n'))%:R * (excitations q n)%:R) X.
Proof.
rewrite /excitationOp sigmapE sigmamE /= numberE /=.
have h1 := @qubCav_kron C d (mulm (m2 0 1 0 0) (m2 0 0 1 0)) (idm C d) (conj erefl erefl) (conj erefl erefl).
have h2 := @qubCav_kron C d (idm C 2) (dgm d (fun k => k%:R)) (conj erefl erefl) (conj erefl erefl).
have [-> h3] := qubCav_add h1 h2; eexists; split; first by reflexivity.
apply: qubCav_ext h3 => q n q' n' hq hq' hn hn'.
rewrite ent_mulm /= !big_ord_recl big_ord0 !ent_idm ent_dgm hn hq !andbT /excitations natrD.
move: q hq; apply: bool2; move: q' hq'; apply: bool2; rewrite !ent_mk //=;
by case: (n =P n') => [->|_] /=; rewrite ?(mul0r, mulr0, mul1r, mulr1, add0r, addr0, mulr1n, mulr0n) // addrC.
Qed.

Lemma excE' d : exists X, excitationOp sigmam sigmap d = Ok X /\
  qubCav d (fun q n q' n' => ((q == q') && (n == n'))%:R * (excitations (1 - q) n)%:R) X.
Proof.
rewrite /excitationOp sigmapE sigmamE /= numberE /=.
have h1 := @qubCav_kron C d (mulm (m2 0 0 1 0) (m2 0 1 0 0)) (idm C d) (conj erefl erefl) (conj erefl erefl).
have h2 := @qubCav_kron C d (idm C 2) (dgm d (fun k => k%:R)) (conj erefl erefl) (conj erefl erefl).
have [-> h3] := qubCav_add h1 h2; eexists; split; first by reflexivity.
apply: qubCav_ext h3 => q n q' n' hq hq' hn hn'.
rewrite ent_mulm /= !big_ord_recl big_ord0 !ent_idm ent_dgm hn hq !andbT /excitations natrD.
move: q hq; apply: bool2; move: q' hq'; apply: bool2; rewrite !ent_mk //=;
by case: (n =P n') => [->|_] /=; rewrite ?(mul0r, mulr0, mul1r, mulr1, add0r, addr0, mulr1n, mulr0n) // addrC.
Qed.

Lemma parE d : exists X, parityOp d = Ok X /\
  qubCav d (fun q n q' n' => ((q == q') && (n == n'))%:R * (zsign C q * (-1) ^+ n)) X.
Proof.
rewrite /parityOp sigmazE /paritySUM csc_dg /=.
have h1 := @qubCav_kron C d (m2 1 0 0 (-1)) (dgm d (fun i => if odd i then -1 else 1)) (conj erefl erefl) (conj erefl erefl).
eexists; split; first by reflexivity.
apply: qubCav_ext h1 => q n q' n' hq hq' hn hn'.
rewrite ent_dgm hn andbT -signr_odd /zsign.
move: q hq; apply: bool2; move: q' hq'; apply: bool2; rewrite !ent_mk //=;
by case: (n =P n') => [->|_] /=; rewrite ?(mul0r, mulr0, mul1r, mulr1, add0r, addr0, mulr1n, mulr0n) //; case: odd.
Qed.

(** The Jaynes-Cummings Hamiltonian conserves the number of excitations, the
    anti-Jaynes-Cummings one that with the qubit inverted, and the Rabi
    Hamiltonian their parity; for each cutoff, and complex parameters. *)
Theorem C49_conserved wq wc g d HR HJ HA :
  RabiHam wq wc g d = Ok HR -> JCHam wq wc g d = Ok HJ -> aJCHam wq wc g d = Ok HA ->
  exists N N' P, [/\ excitationOp sigmap sigmam d = Ok N, excitationOp sigmam sigmap d = Ok N' & parityOp d = Ok P] /\
  [/\ commutator HJ N (zerom C (2 * d) (2 * d)), commutator HA N' (zerom C (2 * d) (2 * d)) &
      commutator HR P (zerom C (2 * d) (2 * d))].
Proof.
have [R [-> hR]] := RabiE wq wc g d; have [J [-> hJ]] := JCE wq wc g d; have [A [-> hA]] := aJCE wq wc g d.
move=> [<-] [<-] [<-].
have [N [-> hN]] := excE d; have [N' [-> hN']] := excE' d; have [P [-> hP]] := parE d.
exists N, N', P; do 2 split => //.
- apply: qubCav_comm hJ hN _ => q n q' n' _ _ _ _; rewrite /freeEnt.
  case: (q =P q') => [<-|_] /=; last first.
    case: (excitations q n =P _) => [->|_]; [by right | by left; rewrite mul0r !mulr0 mul0r addr0].
  by case: (n =P n') => [<-|_] /=; [right | left; rewrite mul0r mulr0 mul0r addr0].
- apply: qubCav_comm hA hN' _ => q n q' n' _ _ _ _; rewrite /freeEnt.
  case: (q =P q') => [<-|_] /=; last first.
    case: (excitations (1 - q) n =P _) => [->|_]; [by right | by left; rewrite mul0r !mulr0 mul0r addr0].
  by case: (n =P n') => [<-|_] /=; [right | left; rewrite mul0r mulr0 mul0r addr0].
- apply: qubCav_comm hR hP _ => q n q' n' hq hq' _ _; rewrite /freeEnt.
  case: (q =P q') => [<-|ne] /=.
    by case: (n =P n') => [<-|_] /=; [right | left; rewrite mul0r mulr0 mul0r addr0].
  rewrite /hop; case: (n' =P n.+1) => [->|_]; first right.
    by move: q hq ne; apply: bool2; move: q' hq'; apply: bool2 => // _; rewrite /zsign /= exprS mulN1r ?mulrN ?mulN1r ?mul1r ?opprK.
  case: (n =P n'.+1) => [->|_]; last by left; rewrite mul0r mulr0 addr0.
  right.
  by move: q hq ne; apply: bool2; move: q' hq'; apply: bool2 => // _; rewrite /zsign /= exprS mulN1r ?mulrN ?mulN1r ?mul1r ?opprK.
Qed.

(** The Rabi Hamiltonian does not conserve the number of excitations. *)
Theorem C49_rabi_not_conserved wq wc g d H N : g <> 0 -> (1 < d)%N ->
  RabiHam wq wc g d = Ok H -> excitationOp sigmap sigmam d = Ok N ->
  exists K, commutator H N K /\ K <> zerom C (2 * d) (2 * d).
Proof.
move=> ng hd; have [R [-> hR]] := RabiE wq wc g d; have [X [-> hN]] := excE d => -[<-] [<-].
have [[r c] _] := hR; have [[r' c'] _] := hN.
have cm : commutator R X (subm (mulm R X) (mulm X R)).
  by eexists; eexists; rewrite !mmulE ?r ?c ?r' ?c' //; split=> //; split=> //; rewrite msubE // !shapes ?r ?c ?r' ?c'.
exists (subm (mulm R X) (mulm X R)); split=> // e.
have [_ h] := qubCav_commE hR hN cm; have := h 0%N 1%N 1%N 0%N erefl erefl hd (ltnW hd).
rewrite e ent_zerom /freeEnt /= mul0r add0r mulr1 /hop /= sqrtC1 mulr1 sub0r => /esym/eqP.
by rewrite mulrN oppr_eq0 mulf_eq0 pnatr_eq0 orbF => /eqP.
Qed.

(** JC and anti-JC couplings add up to the Rabi coupling. *)
Theorem C49_sum wq wc g d HR HJ HA : RabiHam wq wc g d = Ok HR -> JCHam wq wc g d = Ok HJ -> aJCHam wq wc g d = Ok HA ->
  exists K Q F S, [/\ qubCavFreeHam wq wc d = Ok (K, Q), madd K Q = Ok F, madd HJ HA = Ok S & madd HR F = Ok S].
Proof.
have [R [-> hR]] := RabiE wq wc g d; have [J [-> hJ]] := JCE wq wc g d; have [A [-> hA]] := aJCE wq wc g d.
move=> [<-] [<-] [<-]; have [K [Q [F [eKQ [eF hF]]]]] := freeSum wq wc d.
have [e1 h1] := qubCav_add hJ hA; have [e2 h2] := qubCav_add hR hF.
exists K, Q, F, (addm J A); split=> //; rewrite e2; congr Ok; apply: qubCav_unique h2 _.
apply: qubCav_ext h1 => q n q' n' hq hq' _ _; move: (freeEnt _ _ _ _ _ _) => x.
have sS k : (k.+2 == k) = false by rewrite gtn_eqF.
have S1 k : (k.+1 == k) = false by rewrite gtn_eqF.
have S1' k : (k == k.+1) = false by rewrite ltn_eqF.
rewrite /hop; case: (n' =P n.+1) => [->|_]; [|case: (n =P n'.+1) => [->|_]]; last by cring.
- move: q hq; apply: bool2; move: q' hq'; apply: bool2;
  by rewrite /excitations /= ?subn0 ?subnn ?addn0 ?addn1 ?eqxx ?eqS2 ?sS /= ?mulr1n ?mulr0n; cring.
- move: q hq; apply: bool2; move: q' hq'; apply: bool2;
  by rewrite /excitations /= ?subn0 ?subnn ?addn0 ?addn1 ?eqxx ?eqS2 ?sS /= ?mulr1n ?mulr0n; cring.
Qed.

(** The documentation gives the qubit the energy [qubFreq / 2 * sigma_z]: the
    functions build [qubFreq * sigma_z], so that the levels of the qubit are
    [2 * qubFreq] apart. *)
Theorem C49_documented_refuted wq wc g d HJ : wq <> 0 -> (0 < d)%N -> JCHam wq wc g d = Ok HJ ->
  ent HJ 0 0 - ent HJ d d = 2%:R * wq /\
  ~ qubCav d (fun q n q' n' => ((q == q') && (n == n'))%:R * (wc * n%:R + wq / 2%:R * zsign C q) +
        g * ((q != q') && (excitations q n == excitations q' n'))%:R * hop C n n') HJ.
Proof.
move=> nw hd; have [J [-> [s h]]] := JCE wq wc g d => -[<-].
have e0 := h 0%N 0%N 0%N 0%N erefl erefl hd hd; have e1 := h 1%N 0%N 1%N 0%N erefl erefl hd hd.
rewrite !(mul0n, mul1n, addn0) in e0 e1; rewrite e0 e1 /freeEnt /zsign /=; split; first by rewrite ?mulr1n ?mulr0n; cring.
move=> [_ h']; have := h' 0%N 0%N 0%N 0%N erefl erefl hd hd; rewrite mul0n addn0 e0 /freeEnt /zsign /= => e.
have n2 : 2%:R <> 0 :> C by apply/eqP; rewrite pnatr_eq0.
case: nw; apply: etrans (_ : 2%:R * (wq - wq / 2%:R) = _); first by cfield.
have -> : wq - wq / 2%:R = 0.
  by apply/eqP; rewrite subr_eq0; apply/eqP; move: e; rewrite !(mulr0, mul0r, addr0, add0r, mulr1, mul1r).
exact: mulr0.
Qed.

(** ** The propagator

    [JCHam(wq/2, wc, g, d)] in the order of UJC is the Hamiltonian of its
    documentation.  [rabiFreq] must not be zero: see [C49_UJC_undefined]. *)
Lemma ujcE cosf sinf cexp wq wc g t d : (0 < d)%N -> (forall k, (1 <= k < d)%N -> rabiFreq wq wc g k <> 0) ->
  UJC cosf sinf cexp wq wc g t d = Ok (pm d.-1 (uu cosf sinf cexp wq wc g t d.-1) (oo sinf cexp wq wc g t)).
Proof. by case: d => // e _ h; apply: UJCE. Qed.

(** UJC is the propagator: it multiplies each eigenvector of the Hamiltonian by
    the phase [exp(-i E t)] of its energy, and is the only matrix that does. *)
Theorem C49_UJC_evolves cosf sinf cexp wq wc g t d H H' : (0 < d)%N ->
  (forall k, (1 <= k < d)%N -> rabiFreq wq wc g k <> 0) ->
  eulerJC cosf sinf cexp wq wc g t d ->
  JCHam (wq / 2%:R) wc g d = Ok H -> relabelled d H H' ->
  exists U, UJC cosf sinf cexp wq wc g t d = Ok U /\ evolves (2 * d) cexp H' t U /\
    (forall W, evolves (2 * d) cexp H' t W -> W = U).
Proof.
move=> hd nz [e1 e2 e3] eH rl; rewrite ujcE //; case: d hd nz e1 e2 e3 eH rl => // e _ nz e1 e2 e3 eH rl.
rewrite (relabelE eH rl) mul2n; eexists; split; first by reflexivity.
by split; [apply: UJC_evolves | move=> W; apply: UJC_unique].
Qed.

Theorem C49_UJC_unitary cosf sinf cexp wq wc g t d : (0 < d)%N ->
  wq^* = wq -> wc^* = wc -> g^* = g -> t^* = t ->
  (forall k, (1 <= k < d)%N -> rabiFreq wq wc g k <> 0) ->
  (forall x, x^* = x -> circleAt cosf sinf x) ->
  (forall x, x^* = x -> (cexp (- 'i * x))^* * cexp (- 'i * x) = 1) ->
  exists U, UJC cosf sinf cexp wq wc g t d = Ok U /\ unitary (2 * d) U.
Proof.
move=> hd rq rc rg rt nz ci ph1; rewrite ujcE //; eexists; split; first by reflexivity.
have rh : (1 / 2%:R)^* = 1 / 2%:R :> C by rewrite fmorph_div conjC1 conjC_nat.
case: d hd nz => // e _ nz; rewrite mul2n; apply: UJC_unitary => //.
- move=> k hk; apply: ci; rewrite rmorphM /= rt; congr (_ * _); exact: OmR.
- by apply: ci; rewrite rmorphM /= rt fmorph_div rmorphB /= rq rc conjC_nat.
- have -> : 'i * wc * (1 / 2%:R) * t = - 'i * (- (wc * (1 / 2%:R) * t)) by cring.
  by apply: ph1; rewrite rmorphN rmorphM rmorphM /= rc rt rh.
- move=> k hk; rewrite phE; apply: ph1; by rewrite rmorphM rmorphM rmorphB /= rc rt rh conjC_nat.
Qed.

(** Real parameters: [rabiFreq] is zero exactly when qubit and cavity are
    resonant and uncoupled; numpy then divides zero by zero and UJC contains
    nan for each cavity of at least two levels (the model has an error). *)
Theorem C49_UJC_undefined cosf sinf cexp wq wc g t d : (1 < d)%N -> wq^* = wq -> wc^* = wc -> g^* = g ->
  ((exists U, UJC cosf sinf cexp wq wc g t d = Ok U) <-> ~ (g = 0 /\ wq = wc)).
Proof.
move=> hd rq rc rg.
have rD : wq - wc \is Num.real by apply/CrealP; rewrite rmorphB /= rq rc.
have rG : g \is Num.real by apply/CrealP.
have zE k : (1 <= k < d)%N -> rabiFreq wq wc g k = 0 -> g = 0 /\ wq = wc.
  move=> /andP[hk _] /eqP; rewrite sqrtC_eq0 paddr_eq0; last 2 first.
  - by rewrite mulr_ge0 ?ler0n // real_exprn_even_ge0.
  - by rewrite mulr_ge0 ?invr_ge0 ?ler0n // real_exprn_even_ge0.
  rewrite !mulf_eq0 ?invr_eq0 ?expf_eq0 !pnatr_eq0 (gtn_eqF hk) /= ?orbF ?orbb => /andP[/eqP -> ].
  by rewrite subr_eq0 => /eqP ->.
split.
- move=> [U]; rewrite /UJC; case: hasP => [//|nh] _ [e1 e2]; case: nh; exists 1%N.
    by rewrite /range mem_iota add1n subn1 prednK // ?hd // ltnW.
  by rewrite e1 e2 subrr expr0n /= mulr0 mul0r addr0 sqrtC0.
- move=> nn; eexists; apply: ujcE; first exact: ltnW.
  by move=> k hk /(zE k hk).
Qed.

Theorem C49_UJC_no_cavity cosf sinf cexp wq wc g t : UJC cosf sinf cexp wq wc g t 0 = Err Py.IndexError.
Proof. by []. Qed.
End Props.

(** *** Concrete cases *)

(** A cavity of two levels: the entries of the Jaynes-Cummings Hamiltonian with
    qubit 3, cavity 5 and coupling 7. *)
Example C49_ex_JC : exists H : mat AC, JCHam 3%:R 5%:R 7%:R 2 = Ok H /\
  [/\ ent H 0 0 = 3%:R, ent H 1 1 = 8%:R, ent H 2 2 = - 3%:R & ent H 3 3 = 2%:R] /\
  [/\ ent H 0 3 = 7%:R, ent H 3 0 = 7%:R, ent H 1 2 = 0 & ent H 0 1 = 0].
Proof.
have [_ [H [_ [[_ eH _] [_ [s h] _]]]]] := C49_entries (3%:R : AC) 5%:R 7%:R 2.
exists H; split=> //.
have E q n q' n' := h q n q' n'.
split; split.
- by have := E 0%N 0%N 0%N 0%N erefl erefl erefl erefl => /= ->; rewrite /zsign /= !(mulr0, mul0r, mulr1, mul1r, addr0, add0r).
- have := E 0%N 1%N 0%N 1%N erefl erefl erefl erefl => /= ->; rewrite /zsign /= !(mulr0, mul0r, mulr1, mul1r, addr0, add0r).
  by rewrite -natrD.
- by have := E 1%N 0%N 1%N 0%N erefl erefl erefl erefl => /= ->; rewrite /zsign /= !(mulr0, mul0r, mulr1, mul1r, addr0, add0r) mulrN1.
- have := E 1%N 1%N 1%N 1%N erefl erefl erefl erefl => /= ->; rewrite /zsign /= !(mulr0, mul0r, mulr1, mul1r, addr0, add0r) mulrN1.
  by rewrite -natrB.
- by have := E 0%N 0%N 1%N 1%N erefl erefl erefl erefl => /= ->; rewrite /hop /= sqrtC1 !(mulr0, mul0r, mulr1, mul1r, addr0, add0r).
- by have := E 1%N 1%N 0%N 0%N erefl erefl erefl erefl => /= ->; rewrite /hop /= sqrtC1 !(mulr0, mul0r, mulr1, mul1r, addr0, add0r).
- by have := E 0%N 1%N 1%N 0%N erefl erefl erefl erefl => /= ->; rewrite !(mulr0, mul0r, mulr1, mul1r, addr0, add0r).
- by have := E 0%N 0%N 0%N 1%N erefl erefl erefl erefl => /= ->; rewrite !(mulr0, mul0r, mulr1, mul1r, addr0, add0r).
Qed.

(** Functions with [cos 1 = 3/5] and [sin 1 = 4/5] for a resonant cavity of
    frequency 4 with two levels, coupling 1 and time 1. *)
Definition exCos (x : AC) : AC := if x == 1 then 3%:R / 5%:R else 1.
Definition exSin (x : AC) : AC := if x == 1 then 4%:R / 5%:R else 0.
Definition exExp (z : AC) : AC :=
  if 'i * z == 3%:R then (3%:R - 'i * 4%:R) / 5%:R
  else if 'i * z == 1 then (3%:R + 'i * 4%:R) / 5%:R else 1.

Lemma exExpE x : exExp (- 'i * x) = if x == 3%:R then (3%:R - 'i * 4%:R) / 5%:R
  else if x == 1 then (3%:R + 'i * 4%:R) / 5%:R else 1.
Proof. by rewrite /exExp mulNr mulrN mulrA -expr2 sqrCi mulN1r opprK. Qed.

Example C49_ex_UJC : (forall k, (1 <= k < 2)%N -> rabiFreq (4%:R : AC) 4%:R 1 k <> 0) /\
  eulerJC exCos exSin exExp (4%:R : AC) 4%:R 1 1 2 /\
  (exists H H' : mat AC, JCHam (4%:R / 2%:R) 4%:R 1 2 = Ok H /\ relabelled 2 H H' /\
     ent H' 1 2 = 1 /\ exists U, UJC exCos exSin exExp (4%:R : AC) 4%:R 1 1 2 = Ok U /\ ent U 1 2 = - 'i * (4%:R / 5%:R)).
Proof.
have rf : rabiFreq (4%:R : AC) 4%:R 1 1 = 1.
  by rewrite /rabiFreq subrr expr0n /= mul0r addr0 mul1r expr1n sqrtC1.
have nz k : (1 <= k < 2)%N -> rabiFreq (4%:R : AC) 4%:R 1 k <> 0.
  by case: k => [|[|k]] // _; rewrite rf; apply/eqP; exact: oner_neq0.
have h42 : 4%:R * (1 / 2%:R) = 2%:R :> AC by rewrite mul1r (_ : 4%:R = 2%:R * 2%:R) ?mulfK ?pnatr_eq0 // -natrM.
have n01 : ((0 : AC) == 1) = false by rewrite eq_sym (negbTE (oner_neq0 _)).
have nm (k : nat) : (- (2%:R : AC) == k%:R) = false.
  by rewrite eq_sym -subr_eq0 opprK -natrD pnatr_eq0 addn2.
have n1E (k : nat) : ((k%:R : AC) == 1) = (k == 1)%N by rewrite -[1 in LHS]/(1%:R) eqr_nat.
split=> //; split; first split.
- rewrite /eulerAt subrr mul0r mul0r mulr1 h42 addr0 subr0 !exExpE /exCos /exSin n01 mulr0 subr0 addr0 !nm.
  by rewrite -[1 in X in if X then _ else _]/(1%:R : AC) nm mulr1.
- have -> : 4%:R * (2%:R - 1 / 2%:R) * 1 = 6%:R :> AC by rewrite mulr1 mulrBr h42 -natrM -natrB.
  rewrite /eulerAt subrr mul0r mul0r addr0 subr0 !exExpE /exCos /exSin n01 mulr0 subr0 addr0 n1E eqr_nat /=.
  by rewrite mulr1.
- case=> [|[|k]] // _; rewrite rf (mulr1 1).
  have -> : 4%:R * (1%:R - 1 / 2%:R) * 1 = 2%:R :> AC by rewrite mulr1 mulrBr h42 mulr1 -natrB.
  rewrite /eulerAt !exExpE /exCos /exSin eqxx.
  have -> : 2%:R + 1 = 3%:R :> AC by rewrite natr1.
  have -> : 2%:R - 1 = 1 :> AC by rewrite -(natrB _ (isT : (1 <= 2)%N)).
  have -> : ((1 : AC) == 3%:R) = false by rewrite eq_sym n1E.
  have -> : ((2%:R : AC) == 3%:R) = false by rewrite eqr_nat.
  rewrite (n1E 2%N) !eqxx /= !mul1r; by rewrite mulrBl mulrDl !mulrA.
- have [_ [H [_ [[_ eH _] [_ [s h] _]]]]] := C49_entries (4%:R / 2%:R : AC) 4%:R 1 2.
  exists H, (mk 4 4 (fun i j => ent H (ujcPos 2 i) (ujcPos 2 j))); split=> //; split; first by split=> [|i j hi hj]; [by split | rewrite ent_mk].
  split.
    have := h 0%N 0%N 1%N 1%N erefl erefl erefl erefl => /=; rewrite ent_mk // /ujcPos /= => ->.
    by rewrite /hop /= sqrtC1 !(mulr0, mul0r, mulr1, mul1r, addr0, add0r).
  rewrite ujcE //; eexists; split; first by reflexivity.
  rewrite ent_pm //= /oo /= -/(rabiFreq _ _ _ _) rf !mulr1 sqrtC1 !mulr1 divr1 phE /exSin eqxx mulr1.
  have -> : 4%:R * (1%:R - 1 / 2%:R) = 2%:R :> AC by rewrite mulrBr h42 mulr1 -natrB.
  by rewrite exExpE n1E eqr_nat /= mulr1.
Qed.

(** Functions that meet the hypotheses of [C49_UJC_unitary]. *)
Example C49_ex_unitary : (forall x : AC, x^* = x -> circleAt exCos exSin x) /\
  (forall x : AC, x^* = x -> (exExp (- 'i * x))^* * exExp (- 'i * x) = 1).
Proof.
have five : 3%:R ^+ 2 + 4%:R ^+ 2 = 5%:R ^+ 2 :> AC by rewrite -!natrX -natrD.
have n5 : (5%:R : AC) ^+ 2 != 0 by rewrite expf_neq0 // pnatr_eq0.
split=> x _.
- rewrite /circleAt /exCos /exSin; case: eqP => _; last by rewrite conjC1 conjC0 expr1n expr0n addr0.
  by rewrite !fmorph_div !conjC_nat; split=> //; rewrite !expr_div_n -mulrDl five divff.
- rewrite exExpE; case: ifP => _; [|case: ifP => _]; last by rewrite conjC1 mulr1.
  + rewrite fmorph_div rmorphB rmorphM /= conjCi !conjC_nat mulf_div -expr2 mulNr opprK mulrC [X in _ * X]mulrC -subr_sqr.
    by rewrite exprMn sqrCi mulN1r opprK five mulrC divff.
  + rewrite fmorph_div rmorphD rmorphM /= conjCi !conjC_nat mulf_div -expr2 mulNr -subr_sqr.
    by rewrite exprMn sqrCi mulN1r opprK five divff.
Qed.

Print Assumptions C49_entries.
Print Assumptions C49_hermitian.
Print Assumptions C49_conserved.
Print Assumptions C49_rabi_not_conserved.
Print Assumptions C49_sum.
Print Assumptions C49_documented_refuted.
Print Assumptions C49_UJC_evolves.
Print Assumptions C49_UJC_unitary.
Print Assumptions C49_UJC_undefined.
Print Assumptions C49_UJC_no_cavity.
