(** C85: the couplings Jaynes-Cummings, Rabi and Dicke of composite systems. *)
From mathcomp Require Import all_ssreflect all_algebra all_field.
From Verif Require Py.
From Verif Require Import MatModel MatLib OperModel HamModel CField OperProofs MatSpec HamSpec MatProofs HamProofs PropsMat.
From Verif Require Import CoupModel CoupSpec CoupProofs.
Set Implicit Arguments.
Unset Strict Implicit.
Unset Printing Implicit Defensive.
Import Order.TTheory GRing.Theory Num.Theory.
Local Open Scope ring_scope.

Section Coup.
Variables (C : numClosedFieldType) (lim : nat).
Hypothesis lim0 : (0 < lim)%N.
Implicit Types (s : CoupModel.comp C) (l : seq (call C)) (g : C).
Add Field Cf : (@C_field C).
Ltac cring := cnorm1 C; ring.

(** After any history of couplings and of new frequencies, the Hamiltonian of the composite is the energies of its
    sub-systems plus every coupling that was added, each with its last frequency. *)
Theorem C85_total s l : fresh s -> exists H, totalHam (w_sys (run lim s l)) = Ok H /\
  hasEnts s (fun u v => (u == v)%:R * freeEnergy s u + \sum_(e <- ledger s l) e_g e * entryEnt s e u v) H.
Proof.
move=> [h1 [h2 h3]]; have [-> hg] := runE lim0 l h2.
exact: (@totalE C (Comp (c_subs s) (ledgerTerms (ledger s l))) (ledger s l) h1 h3 hg erefl).
Qed.

Lemma eq_big_all (T : Type) (P : pred T) (F G : T -> C) (L : seq T) : all P L -> (forall e, P e -> F e = G e) ->
  \sum_(e <- L) F e = \sum_(e <- L) G e.
Proof. by move=> h hF; elim: L h => [|e L IH] /=; rewrite ?big_nil ?big_cons // => /andP[he /IH ->]; rewrite hF. Qed.

(** Real frequencies give a Hermitian Hamiltonian. *)
Theorem C85_hermitian s l H : fresh s -> all (@realSub C) (c_subs s) -> all (@realCall C) l ->
  totalHam (w_sys (run lim s l)) = Ok H -> hermitian (prodn (dims s)) H.
Proof.
move=> hf hs hl eH; have [H' [e' [sq hE]]] := C85_total l hf; move: e'; rewrite eH => -[e']; rewrite -{}e' in sq hE.
split=> // i j hi hj.
have [u [hu <-]] := enc_surj hi; have [v [hv <-]] := enc_surj hj.
rewrite !hE // rmorphD rmorph_sum rmorphM /= conjC_nat; congr (_ + _).
  have [->|] := eqVneq u v; last by rewrite !mul0r.
  rewrite /freeEnergy rmorph_sum /=; congr (_ * _); apply: eq_bigr => k _.
  rewrite rmorphM /= value_real; congr (_ * _); apply/esym/CrealP.
  by move/(all_nthP (sub0 C)): hs; apply.
apply: (eq_big_all (ledger_real s hl)) => e he; rewrite rmorphM /= -entryEnt_herm; congr (_ * _).
exact/esym/CrealP.
Qed.

Lemma dimsOk_fresh s : fresh s -> dimsOk s.
Proof. by move=> [_ [_ h]]; apply: sub_all h => x /and3P[]. Qed.
Lemma good_ledger s l : fresh s -> all (goodEntry s) (ledger s l).
Proof. by move=> [_ [h _]]; case: (runE lim0 l h). Qed.

(** Jaynes-Cummings couplings conserve the number of excitations. *)
Theorem C85_exchange s l H : fresh s -> all (@onlyJC C) l -> totalHam (w_sys (run lim s l)) = Ok H ->
  forall u v, isIdx (dims s) u -> isIdx (dims s) v -> CoupSpec.excitations s u <> CoupSpec.excitations s v ->
  ent H (enc (dims s) u) (enc (dims s) v) = 0.
Proof.
move=> hf hl eH u v hu hv ne; have [H' [e' [_ hE]]] := C85_total l hf; move: e'; rewrite eH => -[e']; rewrite -{}e' in hE.
rewrite hE //; have [e|_] := eqVneq u v; first by rewrite e in ne.
rewrite mul0r add0r.
rewrite (eq_big_all (P := fun e => goodEntry s e && jcShape (e_shape e)) (G := fun _ => 0)) ?big1_eq //.
  by rewrite all_predI good_ledger // ledger_jc.
move=> e /andP[hg hj]; have [->|/eqP hne] := eqVneq (entryEnt s e u v) 0; first by rewrite mulr0.
by have := entry_exc (dimsOk_fresh hf) hg hu hv hne; rewrite hj.
Qed.

(** All three couplings conserve its parity. *)
Theorem C85_parity s l H : fresh s -> totalHam (w_sys (run lim s l)) = Ok H ->
  forall u v, isIdx (dims s) u -> isIdx (dims s) v -> odd (CoupSpec.excitations s u) != odd (CoupSpec.excitations s v) ->
  ent H (enc (dims s) u) (enc (dims s) v) = 0.
Proof.
move=> hf eH u v hu hv ne; have [H' [e' [_ hE]]] := C85_total l hf; move: e'; rewrite eH => -[e']; rewrite -{}e' in hE.
rewrite hE //; have [e|_] := eqVneq u v; first by rewrite e eqxx in ne.
rewrite mul0r add0r.
rewrite (eq_big_all (P := goodEntry s) (G := fun _ => 0)) ?big1_eq //; first exact: good_ledger.
move=> e hg; have [->|/eqP hne] := eqVneq (entryEnt s e u v) 0; first by rewrite mulr0.
have := entry_exc (dimsOk_fresh hf) hg hu hv hne; case: (jcShape _) => h; by rewrite h eqxx in ne.
Qed.

(** ** Which systems are coupled, and what fails *)
Theorem C85_call s w g a1 a2 :
  (forall e, added s w g a1 a2 = Some e -> exists s', callOf lim w s g a1 a2 = Ok (s', size (c_terms s)) /\ c_subs s' = c_subs s) /\
  (added s w g a1 a2 = None -> exists x, callOf lim w s g a1 a2 = Err x).
Proof.
have := callE lim0 s w g a1 a2; case: (added _ _ _ _ _) => [e|] h; split=> //.
by move=> e' _; have [_ ->] := h; eexists.
Qed.

(** Nothing to couple: with two systems that are no cavity and spin, with a spin alone, or by default. *)
Theorem C85_errors s w g a1 a2 : wanted s a1 a2 = None -> callOf lim w s g a1 a2 = Err
  match a1, a2 with
  | Some x, Some y => if isSpin (argKind s x) || isSpin (argKind s y) then Py.ValueError else Py.UnboundLocalError
  | Some x, None | None, Some x =>
      if isSpin (argKind s x) || has isSpin (map (@s_kind C) (c_subs s)) then Py.ValueError else Py.RecursionError
  | None, None => if has isSpin (map (@s_kind C) (c_subs s)) then Py.ValueError else Py.RecursionError
  end.
Proof.
move=> hw; have := chooseE s a1 a2 lim0; rewrite hw => hc.
have -> : callOf lim w s g a1 a2 = (do r <- choose lim s a1 a2; callOf lim w s g a1 a2) by rewrite {1}hc; case: w; rewrite /= /JC /Rabi /Dicke hc; case: a1 {hw hc} => [x|]; case: a2 => [y|] /=; case: ifP.
by rewrite hc; case: a1 {hw hc} => [x|]; case: a2 => [y|] /=; rewrite ?orbF; case: ifP.
Qed.

(** A system that is not in the composite. *)
Theorem C85_outside s g a1 a2 r : wanted s a1 a2 = Some r -> (if r is (In _, In _) then false else true) ->
  JC lim s g a1 a2 = Err Py.ValueError.
Proof.
move=> hw; have := chooseE s a1 a2 lim0; rewrite hw /JC => -> /=; case: r {hw} => [[c|x] [q|y]] //= _; case: ifP => _; by rewrite coupleE ?andbF.
Qed.

(** Rabi and Dicke need a spin with [Jz] or [sigmaz]; Rabi needs two levels. *)
Theorem C85_operator s g a1 a2 c q : wanted s a1 a2 = Some (In c, In q) -> ~~ zOper (s_oper (subAt s q)) ->
  Rabi lim s g a1 a2 = Err Py.UnboundLocalError /\ Dicke lim s g a1 a2 = Err Py.UnboundLocalError.
Proof. by move=> hw /negbTE hz; have := chooseE s a1 a2 lim0; rewrite hw /Rabi /Dicke => -> /=; rewrite -/(subAt s q) hz. Qed.
Theorem C85_levels s g a1 a2 c q : wanted s a1 a2 = Some (In c, In q) -> zOper (s_oper (subAt s q)) ->
  (2 < s_dim (subAt s q))%N -> Rabi lim s g a1 a2 = Err Py.ValueError.
Proof.
move=> hw hz hd; have := chooseE s a1 a2 lim0; rewrite hw /Rabi => -> /=; rewrite -/(subAt s q) hz coupleE.
rewrite /partOk /= -/(subAt s q) !inE; have -> : (s_dim (subAt s q) == 2%N) = false by apply/gtn_eqF.
by have -> : (s_dim (subAt s q) == 1%N) = false by [apply/gtn_eqF; apply: ltn_trans hd]; rewrite /= !andbF.
Qed.

(** A qubit and a plain spin before the cavity: no default, although there are a cavity and a qubit. *)
Theorem C85_default_refuted : ~ (forall s g, fresh s -> has isCav (map (@s_kind C) (c_subs s)) ->
  has isSpin (map (@s_kind C) (c_subs s)) -> exists r, JC lim s g None None = Ok r).
Proof.
move=> h; pose s := Comp [:: Sub KQubit 2 OJz (Some (1 : C)); Sub KSpin 3 OJz (Some (1 : C)); Sub KCavity 4 ONumber (Some (1 : C))] [::].
have hf : fresh s by [].
have [r] := h s 1 hf isT isT.
by have := @C85_errors s CJC 1 None None erefl; rewrite /= => ->.
Qed.

(** A cavity that is given alone is ignored: the first cavity is coupled. *)
Theorem C85_given_refuted : ~ (forall s g k, fresh s -> (k < size (c_subs s))%N -> isCav (s_kind (subAt s k)) ->
  forall e, added s CJC g (Some (In k)) None = Some e -> e_cav e = k).
Proof.
move=> h; pose s := Comp [:: Sub KCavity 3 ONumber (Some (1 : C)); Sub KCavity 4 ONumber (Some (1 : C)); Sub KQubit 2 OJz (Some (1 : C))] [::].
have hf : fresh s by [].
by have := h s 1 1%N hf isT isT _ erefl.
Qed.

(** ** The Hamiltonians of the toolbox: a qubit and a cavity, in this order *)
Definition qubitCavity (wq wc : C) (d : nat) : CoupModel.comp C :=
  Comp [:: Sub KQubit 2 OJz (Some wq); Sub KCavity d ONumber (Some wc)] [::].

Lemma toolbox_fresh wq wc d : (1 < d)%N -> fresh (qubitCavity wq wc d).
Proof. by move=> h; split=> //; split=> //=; rewrite /plainSub /= h. Qed.

Lemma toolbox_ents wq wc d E H : hasEnts (qubitCavity wq wc d) E H -> qubCav d (fun q n q' n' => E [:: q; n] [:: q'; n']) H.
Proof.
move=> [sq h]; split; first by move: sq; rewrite /dims /= muln1.
move=> q n q' n' hq hq' hn hn'.
have := h [:: q; n] [:: q'; n']; rewrite /isIdx /= hq hq' hn hn' /= !muln1 !addn0 => ->//.
Qed.

Lemma toolbox_free wq wc d q n : (q < 2)%N -> freeEnergy (qubitCavity wq wc d) [:: q; n] = wc * n%:R + (wq / 2%:R) * zsign C q.
Proof.
move=> hq; rewrite /freeEnergy /= !big_ord_recl big_ord0 /= addr0 addrC; congr (_ + _).
have n2 : 2%:R <> 0 :> C by apply/eqP; rewrite pnatr_eq0.
move: q hq; apply: bool2; rewrite /zsign /= ?mulr0n ?mulr1n; cnorm1 C; field; exact: n2.
Qed.

Lemma raise01 : raise C 2 0 1 = 1. Proof. by rewrite /raise eqxx mul1r sqrtC1. Qed.
Lemma lower_hop n n' : lower C n n' + lower C n' n = hop C n n'.
Proof.
rewrite /lower /hop; have [->|_] := eqVneq n' n.+1; first by rewrite mul1r ltn_eqF ?mul0r ?addr0 // ltnS leqnSn.
by rewrite mul0r add0r; case: eqP => [->|_]; rewrite ?mul1r ?mul0r.
Qed.

Theorem C85_toolboxJC wq wc g d : (1 < d)%N ->
  totalHam (w_sys (run lim (qubitCavity wq wc d) [:: Couple CJC g None None])) = JCHam (wq / 2%:R) wc g d.
Proof.
move=> hd; have [H [-> /toolbox_ents hE]] := C85_total [:: Couple CJC g None None] (toolbox_fresh wq wc hd).
have [H' [-> hE']] := JCE (wq / 2%:R) wc g d; congr Ok; apply: (qubCav_unique _ hE').
apply: qubCav_ext hE => q n q' n' hq hq' hn hn'.
have -> : ledger (qubitCavity wq wc d) [:: Couple CJC g None None] = [:: Entry Exchange 1 0 g] by [].
rewrite big_seq1 toolbox_free // /freeEnt; congr (_ + _); first by rewrite eqseq_cons eqseq_cons andbT.
rewrite /entryEnt /= mul1r -mulrA; congr (_ * _).
rewrite -lower_hop /HamSpec.excitations.
move: q hq; apply: bool2; move: q' hq'; apply: bool2 => /=; rewrite ?raise01 ?[raise C 2 0 0]raise0 ?[raise C 2 1 1]raise0 ?[raise C 2 1 0]raise0 //= ?mulr0 ?addr0 ?add0r ?mulr1 ?mul0r //.
- rewrite addn1 addn0 eq_sym; have [->|h] := eqVneq n' n.+1; last by rewrite mul0r lower0.
  by rewrite mul1r [lower C n.+1 n]lower0 ?addr0 // neq_ltn ltnS leqnSn.
- rewrite addn1 addn0; have [->|h] := eqVneq n n'.+1; last by rewrite mul0r lower0.
  by rewrite mul1r [lower C n'.+1 n']lower0 ?add0r // neq_ltn ltnS leqnSn.
Qed.

Theorem C85_toolboxRabi wq wc g d : (1 < d)%N ->
  totalHam (w_sys (run lim (qubitCavity wq wc d) [:: Couple CRabi g None None])) = RabiHam (wq / 2%:R) wc g d.
Proof.
move=> hd; have [H [-> /toolbox_ents hE]] := C85_total [:: Couple CRabi g None None] (toolbox_fresh wq wc hd).
have [H' [-> hE']] := RabiE (wq / 2%:R) wc g d; congr Ok; apply: (qubCav_unique _ hE').
apply: qubCav_ext hE => q n q' n' hq hq' hn hn'.
have -> : ledger (qubitCavity wq wc d) [:: Couple CRabi g None None] = [:: Entry FlipX 1 0 g] by [].
rewrite big_seq1 toolbox_free // /freeEnt; congr (_ + _); first by rewrite eqseq_cons eqseq_cons andbT.
by rewrite /entryEnt /= mul1r -mulrA lower_hop [hop C n n' * _]mulrC.
Qed.

(** Dicke couples with [Jx], which is half of [sigmax]. *)
Theorem C85_toolboxDicke wq wc g d : (1 < d)%N ->
  totalHam (w_sys (run lim (qubitCavity wq wc d) [:: Couple CDicke g None None])) = RabiHam (wq / 2%:R) wc (g / 2%:R) d.
Proof.
move=> hd; have [H [-> /toolbox_ents hE]] := C85_total [:: Couple CDicke g None None] (toolbox_fresh wq wc hd).
have [H' [-> hE']] := RabiE (wq / 2%:R) wc (g / 2%:R) d; congr Ok; apply: (qubCav_unique _ hE').
apply: qubCav_ext hE => q n q' n' hq hq' hn hn'.
have -> : ledger (qubitCavity wq wc d) [:: Couple CDicke g None None] = [:: Entry FlipJ 1 0 g] by [].
rewrite big_seq1 toolbox_free // /freeEnt; congr (_ + _); first by rewrite eqseq_cons eqseq_cons andbT.
rewrite /entryEnt /= mul1r -!mulrA lower_hop; congr (_ * _).
have -> : raise C 2 q q' + raise C 2 q' q = (q != q')%:R.
  by move: q hq; apply: bool2; move: q' hq'; apply: bool2; rewrite /= ?raise01 ?[raise C 2 0 0]raise0 ?[raise C 2 1 1]raise0 ?[raise C 2 1 0]raise0 ?addr0 ?add0r.
by rewrite mulrC -mulrA mulrCA.
Qed.

(** Another frequency later is the same as this frequency from the beginning. *)
Theorem C85_frequency s w g g' a1 a2 : fresh s -> added s w g a1 a2 <> None ->
  totalHam (w_sys (run lim s [:: Couple w g a1 a2; Freq 0 g'])) = totalHam (w_sys (run lim s [:: Couple w g' a1 a2])).
Proof.
move=> [h1 [h2 h3]] ha; have [-> _] := runE lim0 [:: Couple w g a1 a2; Freq 0 g'] h2.
have [-> _] := runE lim0 [:: Couple w g' a1 a2] h2; congr (totalHam (Comp _ (ledgerTerms _))).
rewrite /ledger /=; move: ha; rewrite /added; case: (wanted _ _ _) => [[[c|x] [q|y]]|] //.
by case: w => //; repeat (case: ifP => //).
Qed.
End Coup.

(** ** Two qubits in a cavity, both coupled; then the second coupling is changed *)
Definition exSys : CoupModel.comp AC :=
  Comp [:: Sub KQubit 2 OJz (Some 1); Sub KCavity 5 ONumber (Some 2%:R); Sub KQubit 2 OJz (Some 3%:R)] [::].
Definition exCalls : seq (call AC) := [:: Couple CJC 1 None None; Couple CJC 4%:R (Some (In 2)) (Some (In 1)); Freq 1 5%:R].
Example C85_ex : fresh exSys /\ ledger exSys exCalls = [:: Entry Exchange 1 0 1; Entry Exchange 1 2 5%:R] /\
  exists H, totalHam (w_sys (run 10 exSys exCalls)) = Ok H /\
    forall u v, isIdx (dims exSys) u -> isIdx (dims exSys) v -> CoupSpec.excitations exSys u <> CoupSpec.excitations exSys v ->
    ent H (enc (dims exSys) u) (enc (dims exSys) v) = 0.
Proof.
have hf : fresh exSys by [].
split=> //; split=> //.
have [H [e _]] := @C85_total _ 10%N isT exSys exCalls hf; exists H; split; first exact: e.
exact: (@C85_exchange _ 10%N isT exSys exCalls H hf isT e).
Qed.
Print Assumptions C85_total.
Print Assumptions C85_hermitian.
Print Assumptions C85_exchange.
Print Assumptions C85_parity.
Print Assumptions C85_call.
Print Assumptions C85_errors.
Print Assumptions C85_outside.
Print Assumptions C85_operator.
Print Assumptions C85_levels.
Print Assumptions C85_default_refuted.
Print Assumptions C85_given_refuted.
Print Assumptions C85_toolboxJC.
Print Assumptions C85_toolboxRabi.
Print Assumptions C85_toolboxDicke.
Print Assumptions C85_frequency.
