(** C75 and C76: open evolution contracts the trace distance, and what
    steadyState returns. *)
From Coq Require Import Reals.
From mathcomp Require Import all_ssreflect all_algebra.
From mathcomp Require Import complex.
From Verif Require Py.
From Verif Require Import RC ExpSeries ExpMatrix ExpScalar ExpmSpec ExpmProofs.
From Verif Require Import MatModel OperModel StateModel EvolModel EigModel MatLib MatSpec MatProofs CField StateSpec StateProofs ExpmInst EvolSpec EvolProofs LindProofs.
From Verif Require Import GateProofs PropsState PropsEvol PropsOpen PropsExp EigSpec EigInst Spectral SpecProofs DistProofs PropsDist PropsEigs PropsClosed PropsMeas ChanProofs SteadyProofs.
Set Implicit Arguments.
Unset Strict Implicit.
Unset Printing Implicit Defensive.
Import Order.TTheory GRing.Theory Num.Theory.
Local Open Scope ring_scope.

Local Notation C := RC.
Local Notation adj := (@adjmx C _ _).

Lemma powNull_RC : powNull C.
Proof.
move=> l hl e e0.
have [r r0 er] := ge0_ofR (normr_ge0 l); have [d d0 ed] := ge0_ofR (ltW e0).
have r1 : r < 1 by move: hl; rewrite er -[1]/(ofR 1) ltcR.
have dp : 0 < d by move: e0; rewrite ed -[0]/(ofR 0) ltcR.
have [N hN] := pow_lt_1_zero r (eq_ind _ (fun x => Rlt x 1) (elimT (RltP _ _) r1) _ (esym (ger0_norm r0))) d (elimT (RltP _ _) dp).
exists N => m hm; rewrite normrX er ed -[ofR r ^+ m]/((r%:C)%C ^+ m) -rmorphX ltcR.
apply/RltP; have := hN m (elimT ssrnat.leP hm); rewrite -RnormE -RexpE ger0_norm //.
by rewrite exprn_ge0.
Qed.

Section Generator.
Variables (expm : mat C -> result (mat C)) (n : nat) (H : mat C) (cs : seq (mat C)) (rates : seq C).
Hypothesis hE : matrixExponential expm.
Hypothesis hn : (0 < n)%N.
Hypothesis hH : hermitian n H.
Hypothesis hcs : forall c, List.In c cs -> square n c.
Hypothesis hsz : (size cs <= size rates)%N.
Hypothesis hr : forall r, r \in rates -> 0 <= r.

Lemma generator : exists DL : 'M[C]_(n * n),
  [/\ Liouvillian (Some H) (CList (map (@COp C) cs)) (Some rates) false = Ok (Mat DL),
      forall (X : 'M[C]_n) (i j : 'I_n), so DL X i j = lindblad n H (zip cs rates) (Mat X) i j,
      forall X : 'M[C]_n, \tr (so DL X) = 0
    & forall u : R, 0 <= u -> let G := gexp (ofR u *: DL) in
      [/\ LiouvillianExp expm (Some H) (ofR u) (CList (map (@COp C) cs)) (Some rates) true false = Ok (Mat G),
          forall X : 'M[C]_n, positive n (Mat X) -> positive n (Mat (so G X))
        & forall X : 'M[C]_n, positive n (Mat X) -> \tr (so G X) = \tr X]].
Proof.
have sH : square n H by case: hH.
have [L [hL [sL hLa]]] := C39_lindblad hn sH hcs hsz.
have [DL eL] := square_Mat sL; subst L; exists DL; split=> //.
- move=> X i j; have [R' [h1 [_ h3]]] := hLa (Mat X) (conj erefl erefl).
  move: h1; rewrite soE => /(@Ok_inj _ _ _) eR; rewrite -h3 // -eR ent_in.
  by congr (so DL X _ _); apply: val_inj.
- move=> X; have [R [h1 [_ [h3 _]]]] := C39_trace_hermiticity hn sH hcs hsz hL (rho := Mat X) (conj erefl erefl).
  by move: h1 h3; rewrite soE => /(@Ok_inj _ _ _) <-; rewrite trace_sq // tr_Mat.
move=> u hu; have [E [h1 [h2 h3]]] := C65_channel hE hn hH hcs hsz hr (ofR_ge0 hu).
have hG : LiouvillianExp expm (Some H) (ofR u) (CList (map (@COp C) cs)) (Some rates) true false = Ok (Mat (gexp (ofR u *: DL))).
  by rewrite /LiouvillianExp hL /= scale_Mat (expm_Mat _ hE).
move: h1; rewrite hG => /(@Ok_inj _ _ _) eG; split=> // X pX.
  by have [R [g1 [g2 _]]] := h3 _ pX; move: g1; rewrite -eG soE => /(@Ok_inj _ _ _) ->.
have [R [g1 [_ [_ [g2 _]]]]] := h3 _ pX; move: g1 g2; rewrite -eG soE => /(@Ok_inj _ _ _) <-.
by rewrite !trace_sq // !tr_Mat.
Qed.
End Generator.

(** One step of an open evolution does not increase the trace distance of two
    density matrices. *)
Theorem C75_step expm eig (n : nat) (H : mat C) (cs : seq (mat C)) (rates : seq C) (t : C) :
  matrixExponential expm -> eigSpec eig ->
  (0 < n)%N -> hermitian n H -> (forall c, List.In c cs -> square n c) ->
  (size cs <= size rates)%N -> (forall r, r \in rates -> 0 <= r) -> 0 <= t ->
  exists E, LiouvillianExp expm (Some H) t (CList (map (@COp C) cs)) (Some rates) true false = Ok E /\
    forall rho sigma, isDensity n rho -> isDensity n sigma -> exists R S d d',
      [/\ applySO E rho = Ok R, applySO E sigma = Ok S, traceDistance eig rho sigma = Ok d,
          traceDistance eig R S = Ok d' & d' <= d].
Proof.
move=> hE hg hn hH hcs hsz hr ht; have [u hu ->] := ge0_ofR ht.
have [DL [_ _ _ /(_ u hu)[hL pP pT]]] := generator hE hn hH hcs hsz hr.
eexists; split; first exact: hL.
move=> rho sigma hrho hsig; have [[srho _] _ _] := hrho; have [[ssig _] _ _] := hsig.
case: (square_Mat srho) hrho => X -> hX; case: (square_Mat ssig) hsig => Y -> hY.
set G := gexp _ in hL pP pT *.
have [d [e1 _ _ _]] := C70_distance hg (A := Mat X) (B := Mat Y) (conj erefl erefl) (conj erefl erefl).
have [d' [e2 _ _ _]] := C70_distance hg (A := Mat (so G X)) (B := Mat (so G Y)) (conj erefl erefl) (conj erefl erefl).
exists (Mat (so G X)), (Mat (so G Y)), d, d'; rewrite !soE; split=> //.
exact: (@Phi_contract C n (so G) (@soD _ _ _) (@soZ _ _ _) pP pT _ _ _ _ _ hg hX hY e1 e2).
Qed.
Print Assumptions C75_step.

(** The states of a chain are the iterates. *)
Lemma chainE n (G : 'M[C]_(n * n)) (X : 'M[C]_n) states : chain (Mat G) (Mat X) states ->
  forall m, (m <= size states)%N -> nth (zerom C 0 0) (Mat X :: states) m = Mat (iter m (so G) X).
Proof.
elim: states X => [|r states IH] X; first by move=> _ [].
move=> [h1 h2] [|m] // hm; move: h1; rewrite soE => /(@Ok_inj _ _ _) e; subst r.
by rewrite iterSr; apply: (IH (so G X)).
Qed.

(** The trace distance of the states of two runs with the same parameters
    never increases. *)
Theorem C75_evolution expm eig (n k : nat) (init1 init2 rho1 rho2 H : mat C) cs (rates : seq C) T dt :
  matrixExponential expm -> eigSpec eig ->
  (0 < n)%N -> hermitian n H -> (forall c, List.In c cs -> square n c) ->
  (size cs <= size rates)%N -> (forall r, r \in rates -> 0 <= r) -> 0 <= dt ->
  startsFrom n init1 rho1 -> isDensity n rho1 -> startsFrom n init2 rho2 -> isDensity n rho2 ->
  stepCount T dt = Ok k ->
  exists states1 calls1 states2 calls2,
    [/\ evolveOpen expm init1 T dt (Some H) (CList (map (@COp C) cs)) (Some rates) false false = Ok (states1, calls1),
        evolveOpen expm init2 T dt (Some H) (CList (map (@COp C) cs)) (Some rates) false false = Ok (states2, calls2),
        size states1 = k.+1, size states2 = k.+1
      & forall i j, (i <= j <= k)%N -> exists d d',
          [/\ traceDistance eig (nth (zerom C 0 0) states1 i) (nth (zerom C 0 0) states2 i) = Ok d,
              traceDistance eig (nth (zerom C 0 0) states1 j) (nth (zerom C 0 0) states2 j) = Ok d' & d' <= d]].
Proof.
move=> hE hg hn hH hcs hsz hr hdt hs1 h1 hs2 h2 hk.
have ht : 0 <= (ratr dt : C) by rewrite ler0q.
have [u hu eu] := ge0_ofR ht.
have [DL [_ _ _ /(_ u hu)[hL pP pT]]] := generator hE hn hH hcs hsz hr.
move: (gexp _) hL pP pT => G; rewrite -eu => hL pP pT; have sG : square (n * n) (Mat G) by [].
have [st1 [z1 [c1 [e1 _]]]] := C50_states hL sG hs1 hk.
have [st2 [z2 [c2 [e2 _]]]] := C50_states hL sG hs2 hk.
exists (rho1 :: st1), (rho1 :: st1), (rho2 :: st2), (rho2 :: st2); split=> //=; rewrite ?z1 ?z2 //.
have [[sr1 _] _ _] := h1; have [[sr2 _] _ _] := h2.
case: (square_Mat sr1) h1 c1 {e1 hs1} => X -> h1 c1; case: (square_Mat sr2) h2 c2 {e2 hs2} => Y -> h2 c2.
have dn Z m : isDensity n (Mat Z) -> isDensity n (Mat (iter m (so G) Z)).
  by move=> hZ; elim: m => [|m IH]; [exact: hZ | exact: (@Phi_dens C n (so G) pP pT (iter m (so G) Z) IH)].
move=> i j /andP[hij hjk]; have hik := leq_trans hij hjk.
rewrite !(chainE c1) ?z1 // !(chainE c2) ?z2 //.
have td (A B : 'M_n) : exists d, traceDistance eig (Mat A) (Mat B) = Ok d.
  by have [d [e _ _ _]] := C70_distance hg (A := Mat A) (B := Mat B) (conj erefl erefl) (conj erefl erefl); exists d.
elim: j hij {hjk hik} => [|j IH].
  by rewrite leqn0 => /eqP ->; have [d e] := td (iter 0 (so G) X) (iter 0 (so G) Y); exists d, d.
rewrite leq_eqVlt => /orP[/eqP ->|hij].
  by have [d e] := td (iter j.+1 (so G) X) (iter j.+1 (so G) Y); exists d, d.
have [d [d' [e e' le1]]] := IH hij; have [d2 e2] := td (iter j.+1 (so G) X) (iter j.+1 (so G) Y).
exists d, d2; split=> //; apply: le_trans le1.
exact: (@Phi_contract C n (so G) (@soD _ _ _) (@soZ _ _ _) pP pT _ _ _ _ _ hg (dn X j h1) (dn Y j h2) e' e2).
Qed.
Print Assumptions C75_evolution.

Lemma vec_Mat N (G : 'M[C]_N) a v : normalised N v -> eigenPair (Mat G) a v ->
  exists w : 'cV[C]_N, [/\ v = Mat w, w != 0 & G *m w = a *: w].
Proof.
move=> [/(@hasShape_Mat _ _ _ _)[w ->] nw]; rewrite /eigenPair mmul_Mat scale_Mat => /(@Ok_inj _ _ _)/(@Mat_inj _ _ _ _ _) e.
exists w; split=> //; apply/eqP => z; move: nw; rewrite norm2E z mulmx0 mxE => /esym/eqP.
by rewrite oner_eq0.
Qed.
Lemma uv_neq0 n (w : 'cV[C]_(n * n)) : w != 0 -> uv w != 0.
Proof. by apply: contra_neq => z; rewrite -[w]uvK z -(scale0r (0 : 'M[C]_n)) vcZ scale0r. Qed.
Lemma uv_eig n (G : 'M[C]_(n * n)) a (w : 'cV[C]_(n * n)) : G *m w = a *: w -> so G (uv w) = a *: uv w.
Proof. by move=> e; rewrite /so uvK e uvZ. Qed.

(** steadyState returns all [n^2] eigenvalues of the evolution over one unit of
    time with a normalised eigenvector each.  One is among them, none has a
    modulus above one, and the last one has modulus one. *)
Theorem C76_spectrum expm eig argsort (n : nat) (H : mat C) (cs : seq (mat C)) (rates : seq C) :
  matrixExponential expm -> eigSpec eig -> argsortSpec argsort ->
  (0 < n)%N -> hermitian n H -> (forall c, List.In c cs -> square n c) ->
  (size cs <= size rates)%N -> (forall r, r \in rates -> 0 <= r) ->
  exists vals vecs E,
    [/\ steadyState eig argsort expm (Some H) (CList (map (@COp C) cs)) (Some rates) false = Ok (vals, vecs),
        LiouvillianExp expm (Some H) 1 (CList (map (@COp C) cs)) (Some rates) true false = Ok E,
        [/\ isSpectrum (n * n) E vals, size vecs = (n * n)%N
          & forall i, (i < n * n)%N -> normalised (n * n) (nth (zerom C 0 0) vecs i) /\
                                     eigenPair E vals`_i (nth (zerom C 0 0) vecs i)],
        1 \in vals /\ (forall v, v \in vals -> `|v| <= 1)
      & `|last 0 vals| = 1].
Proof.
move=> hE hg ha hn hH hcs hsz hr.
have [DL [_ _ _ /(_ 1 ler01)]] := generator hE hn hH hcs hsz hr.
move: (gexp _) => G /= [hL pP pT].
have [vals [vecs [e1 sp sz hv so1]]] := C71_sorted hg ha true (n := (n * n)%N) (M := Mat G) (conj erefl erefl).
have [_ szv _] := sp; have n0 : (0 < n * n)%N by rewrite muln_gt0 hn.
have in1 : 1 \in vals := so_eig1 hn (Phi_tr (@soD _ _ G) (@soZ _ _ G) pT) sp.
have le1 l : l \in vals -> `|l| <= 1.
  move=> hl; have hi : (index l vals < n * n)%N by rewrite -szv index_mem.
  have [nv ev] := hv _ hi; rewrite nth_index // in ev; have [w [_ nw ew]] := vec_Mat nv ev.
  exact: (Phi_eig (@soD _ _ G) (@soZ _ _ G) pP pT powNull_RC (uv_neq0 nw) (uv_eig ew)).
exists vals, vecs, (Mat G); rewrite /steadyState hL; split=> //.
apply/eqP; rewrite eq_le le1 /=; last by case: (vals) szv n0 => [<-|a s _ _] //; rewrite /= mem_last.
have [i hi e] := nthP 0 in1; rewrite -nth_last -[X in X <= _](normr1 C) -e.
apply: (@sorted_leq_nth _ (fun x y : C => `|x| <= `|y|)) => //; rewrite ?inE.
- by move=> x y z; apply: le_trans.
- by rewrite prednK // szv.
- by rewrite -ltnS prednK // szv.
Qed.
Print Assumptions C76_spectrum.

(** If all returned eigenvalues but the last one have a modulus below one, the
    last one is one, and the last vector, reshaped to a matrix and divided by
    its trace, is a density matrix.  It is the only density matrix on which the
    Lindblad generator vanishes, and evolution over any time leaves it as it
    is. *)
Theorem C76_steady expm eig argsort (n : nat) (H : mat C) (cs : seq (mat C)) (rates : seq C) vals vecs :
  matrixExponential expm -> eigSpec eig -> argsortSpec argsort ->
  (0 < n)%N -> hermitian n H -> (forall c, List.In c cs -> square n c) ->
  (size cs <= size rates)%N -> (forall r, r \in rates -> 0 <= r) ->
  steadyState eig argsort expm (Some H) (CList (map (@COp C) cs)) (Some rates) false = Ok (vals, vecs) ->
  (forall i, (i < (n * n).-1)%N -> `|vals`_i| < 1) ->
  last 0 vals = 1 /\ exists V,
    let rho := scalem (trace V)^-1 V in
    [/\ vec2Mat (last (zerom C 0 0) vecs) = Ok V, trace V != 0, isDensity n rho,
        forall sigma, isDensity n sigma ->
          ((forall i j, (i < n)%N -> (j < n)%N -> lindblad n H (zip cs rates) sigma i j = 0) <-> sigma = rho)
      & forall t, 0 <= t -> exists E,
          LiouvillianExp expm (Some H) t (CList (map (@COp C) cs)) (Some rates) true false = Ok E /\
          applySO E rho = Ok rho].
Proof.
move=> hE hg ha hn hH hcs hsz hr hS hlt.
have [vals' [vecs' [E [hS' hL [sp sz hv] [in1 _] _]]]] := C76_spectrum hE hg ha hn hH hcs hsz hr.
move: hS'; rewrite hS => /(@Ok_inj _ _ _) [e1 e2]; subst vals' vecs'; have [_ szv _] := sp.
have n0 : (0 < n * n)%N by rewrite muln_gt0 hn.
have el : last 0 vals = 1.
  have [i hi e] := nthP 0 in1; rewrite szv in hi.
  have : ~~ (i < (n * n).-1)%N by apply/negP => /hlt; rewrite e normr1 ltxx.
  by rewrite -leqNgt -nth_last szv => h; rewrite -e; congr (nth 0 _ _); apply/eqP; rewrite eqn_leq h -ltnS prednK.
split=> //.
have [DL [hDL lE lT /(_ 1 ler01)]] := generator hE hn hH hcs hsz hr.
have [DL' [hDL' _ _ hG]] := generator hE hn hH hcs hsz hr.
move: hDL'; rewrite hDL => /(@Ok_inj _ _ _)/(@Mat_inj _ _ _ _ _) eDL; subst DL'.
set G := gexp _ => -[hL' pP pT]; have soZG := @soZ C n G.
move: hL; rewrite hL' => /(@Ok_inj _ _ _) eE; subst E.
have hlast : ((n * n).-1 < n * n)%N by rewrite prednK.
have [nv ev] := hv _ hlast.
have eva : vals`_(n * n).-1 = 1 by rewrite -[RHS]el -nth_last szv.
have eve : nth (zerom C 0 0) vecs (n * n).-1 = last (zerom C 0 0) vecs by rewrite -nth_last sz.
rewrite eva eve in ev; rewrite eve in nv.
have [w [ew nw hw]] := vec_Mat nv ev.
have fX : so G (uv w) = uv w by rewrite (uv_eig hw) scale1r.
have [rho dr fr] := Phi_fixed (@soD _ _ G) soZG pP pT (uv_neq0 nw) fX.
have tr1 : \tr rho = 1 by case: dr => _ _; rewrite tr_Mat.
have c1 : (count_mem (1%R : C) vals <= 1)%N.
  have -> : vals = rcons (take (n * n).-1 vals) 1.
    rewrite -{1}[vals](cat_take_drop (n * n).-1) -cats1; congr (_ ++ _).
    rewrite (drop_nth 0) ?szv // -szv nth_last el drop_oversize // szv prednK //.
  rewrite -cats1 count_cat /= eqxx addn0 addn1 ltnS leqn0 -[_ == 0%N]negbK -lt0n -has_count has_pred1.
  apply/negP => hin; have [i hi e] := nthP 0 hin; rewrite size_take szv hlast in hi; rewrite nth_take // in e.
  by have := hlt i hi; rewrite e normr1 ltxx.
have fixU (X : 'M[C]_n) : so G X = X -> X = \tr X *: rho.
  move=> fx; have vr : G *m vc rho = 1 *: vc rho by rewrite -so_vc fr scale1r.
  have vx : G *m vc X = 1 *: vc X by rewrite -so_vc fx scale1r.
  have nz : vc rho != 0.
    apply/eqP => z; move: tr1; rewrite -[rho]vcK z -(scale0r (0 : 'cV[C]_(n * n))) uvZ scale0r mxtrace0 => /esym/eqP.
    by rewrite oner_eq0.
  have [c e] := col_simple sp c1 vr vx nz; have := congr1 (@uv C n) e; rewrite uvZ !vcK => ->.
  by rewrite linearZ /= tr1 mulr1.
have eX := fixU _ fX.
have tX : \tr (uv w) != 0.
  by apply/eqP => z; move: (uv_neq0 nw); rewrite eX z scale0r eqxx.
have Gcomm X : so DL (so G X) = so G (so DL X).
  rewrite /so !uvK !mulmxA; congr (uv (_ *m _)); rewrite /G; apply: gexp_comm.
  by rewrite -scalemxAr -scalemxAl.
have Lrho : so DL rho = 0.
  have /fixU -> : so G (so DL rho) = so DL rho by rewrite -Gcomm fr.
  by rewrite lT scale0r.
have exp_fix (X : 'M[C]_n) u : so DL X = 0 -> so (gexp (ofR u *: DL)) X = X.
  move=> z; have z' : DL *m vc X = 0 by rewrite -so_vc z -(scale0r (0 : 'M[C]_n)) vcZ scale0r.
  have := @gexp_fix _ (ofR u *: DL)^T (vc X)^T; rewrite -trmx_mul -scalemxAl z' scaler0 trmx0 => /(_ erefl).
  by rewrite gexp_tr -trmx_mul => /(can_inj (@trmxK _ _ _)) e; rewrite /so e vcK.
exists (Mat (uv w)).
have tE : trace (Mat (uv w)) = \tr (uv w) by rewrite trace_sq // tr_Mat.
have eR : scalem (trace (Mat (uv w)))^-1 (Mat (uv w)) = Mat rho.
  by rewrite tE scale_Mat {2}eX scalerA mulVf // scale1r.
split.
- by rewrite ew (@vec2MatE _ n) // uvE.
- by rewrite tE.
- by rewrite eR.
- rewrite eR => sigma ds; have [[ss _] _ ts] := ds; case: (square_Mat ss) ds ts => X -> _; rewrite tr_Mat => tX1.
  split=> [h|/(@Mat_inj _ _ _ _ _) -> i j hi hj].
    have z : so DL X = 0 by apply/matrixP => i j; rewrite lE h // mxE.
    by rewrite (fixU X) ?tX1 ?scale1r // exp_fix.
  by rewrite -(lE rho (Ordinal hi) (Ordinal hj)) Lrho mxE.
move=> t ht; have [u hu ->] := ge0_ofR ht; have [hGu _ _] := hG u hu.
by eexists; split; [exact: hGu | rewrite eR soE exp_fix].
Qed.
Print Assumptions C76_steady.

Lemma iter_exp n (DL : 'M[C]_(n * n)) u m (X : 'M[C]_n) :
  iter m (so (gexp (ofR u *: DL))) X = so (gexp (ofR (m%:R * u) *: DL)) X.
Proof.
elim: m => [|m IH]; first by rewrite mul0r -[ofR 0]/(0 : C) scale0r gexp0 /so mul1mx vcK.
have -> : ofR (m.+1%:R * u) = ofR u + ofR (m%:R * u) by rewrite /ofR -rmorphD /= mulrS mulrDl mul1r.
rewrite iterS IH /so uvK mulmxA scalerDl gexpD //.
by rewrite -!scalemxAl -!scalemxAr !scalerA mulrC.
Qed.

(** Then every evolution that starts in a density matrix tends to the steady
    state, whatever the time step: from some step on, which does not depend on
    the total time, the trace distance is below [e]. *)
Theorem C76_limit expm eig argsort (n : nat) (H : mat C) (cs : seq (mat C)) (rates : seq C) vals vecs
    (init rho0 rho : mat C) (dt : rat) (e : C) :
  matrixExponential expm -> eigSpec eig -> argsortSpec argsort ->
  (0 < n)%N -> hermitian n H -> (forall c, List.In c cs -> square n c) ->
  (size cs <= size rates)%N -> (forall r, r \in rates -> 0 <= r) ->
  steadyState eig argsort expm (Some H) (CList (map (@COp C) cs)) (Some rates) false = Ok (vals, vecs) ->
  (forall i, (i < (n * n).-1)%N -> `|vals`_i| < 1) ->
  isDensity n rho -> (forall i j, (i < n)%N -> (j < n)%N -> lindblad n H (zip cs rates) rho i j = 0) ->
  startsFrom n init rho0 -> isDensity n rho0 -> 0 < dt -> 0 < e ->
  exists N, forall T k, stepCount T dt = Ok k ->
    exists states calls,
      [/\ evolveOpen expm init T dt (Some H) (CList (map (@COp C) cs)) (Some rates) false false = Ok (states, calls),
          size states = k.+1
        & forall m, (N <= m <= k)%N -> exists d,
            traceDistance eig (nth (zerom C 0 0) states m) rho = Ok d /\ d < e].
Proof.
move=> hE hg ha hn hH hcs hsz hr hS hlt dr lr hs d0 hdt he.
have [el [V [hV tV dV uV _]]] := C76_steady hE hg ha hn hH hcs hsz hr hS hlt.
have [vals' [vecs' [E [hS' hL [sp sz hv] [in1 _] _]]]] := C76_spectrum hE hg ha hn hH hcs hsz hr.
move: hS'; rewrite hS => /(@Ok_inj _ _ _) [e1 e2]; subst vals' vecs'; have [_ szv _] := sp.
have n0 : (0 < n * n)%N by rewrite muln_gt0 hn.
have hlast : ((n * n).-1 < n * n)%N by rewrite prednK.
have [DL [hDL lE lT hG]] := generator hE hn hH hcs hsz hr.
have [hL' pP pT] := hG 1 ler01; set G := gexp _ in hL' pP pT.
move: hL; rewrite hL' => /(@Ok_inj _ _ _) eE; subst E.
have ev : vals = rcons (take (n * n).-1 vals) 1.
  rewrite -{1}[vals](cat_take_drop (n * n).-1) -cats1; congr (_ ++ _).
  rewrite (drop_nth 0) ?szv // -szv nth_last el drop_oversize // szv prednK //.
rewrite ev in sp.
have hvs l : l \in take (n * n).-1 vals -> `|l| < 1.
  move=> hin; have [i hi ei] := nthP 0 hin; rewrite size_take szv hlast in hi; rewrite nth_take // in ei.
  by rewrite -ei; apply: hlt.
have [[sr _] _ tr] := dr; case: (square_Mat sr) dr lr tr => X -> dX lX; rewrite tr_Mat => tX.
have [[sr0 _] _ tr0] := d0; case: (square_Mat sr0) d0 hs tr0 => Y -> dY hs; rewrite tr_Mat => tY.
have z : so DL X = 0 by apply/matrixP => i j; rewrite lE lX // mxE.
have fixX u : so (gexp (ofR u *: DL)) X = X.
  have z' : DL *m vc X = 0 by rewrite -so_vc z -(scale0r (0 : 'M[C]_n)) vcZ scale0r.
  have := @gexp_fix _ (ofR u *: DL)^T (vc X)^T; rewrite -trmx_mul -scalemxAl z' scaler0 trmx0 => /(_ erefl).
  by rewrite gexp_tr -trmx_mul => /(can_inj (@trmxK _ _ _)) e'; rewrite /so e' vcK.
have lim := so_limit powNull_RC (Phi_tr (@soD _ _ G) (@soZ _ _ G) pT) sp hvs (fixX 1) tX tY.
have nl : nullC (fun m => \sum_(p : 'I_n * 'I_n) `|(iter m (so G) Y - X) p.1 p.2|).
  by apply: null_sum => p; apply: lim.
have [K hK] := nl e he.
have ht : 0 <= (ratr dt : C) by rewrite ler0q ltW.
have [u hu eu] := ge0_ofR ht; have [hLu pPu pTu] := hG u hu.
have u0 : 0 < u by move: hdt; rewrite -(ltr0q [numFieldType of C]) eu -[0]/(ofR 0) /ofR ltcR.
exists (Num.bound (K%:R / dt)) => T k hk.
have {}hLu : LiouvillianExp expm (Some H) (ratr dt) (CList (map (@COp C) cs)) (Some rates) true false
    = Ok (Mat (gexp (ofR u *: DL))) by rewrite eu.
have [st [z1 [c1 [e1 _]]]] := C50_states hLu (conj erefl erefl) hs hk.
exists (Mat Y :: st), (Mat Y :: st); split=> //=; first by rewrite z1.
move=> m /andP[hNm hmk]; rewrite (chainE c1) ?z1 // iter_exp.
have Km : K%:R <= m%:R * u.
  have h1 : K%:R / dt < m%:R.
    apply: lt_le_trans (archi_boundP _) _; last by rewrite ler_nat.
    by rewrite divr_ge0 ?ler0n // ltW.
  have h2 : K%:R <= m%:R * dt by apply: ltW; rewrite -ltr_pdivr_mulr.
  move: h2; rewrite -(@ler_rat [numFieldType of C]) rmorphM /= !ratr_nat eu.
  by rewrite -[K%:R](@rmorph_nat _ _ [rmorphism of @real_complex R]) -[m%:R](@rmorph_nat _ _ [rmorphism of @real_complex R]) /ofR -rmorphM lecR.
pose f := m%:R * u - K%:R; have f0 : 0 <= f by rewrite subr_ge0.
have [_ pPf pTf] := hG f f0; move: (fixX f) => fXf.
have -> : so (gexp (ofR (m%:R * u) *: DL)) Y = so (gexp (ofR f *: DL)) (iter K (so G) Y).
  have -> : m%:R * u = f + K%:R * 1 by rewrite mulr1 subrK.
  rewrite iter_exp /so uvK mulmxA -gexpD; last by rewrite -!scalemxAl -!scalemxAr !scalerA mulrC.
  by rewrite -scalerDl /ofR -rmorphD.
move: (gexp _) fXf pPf pTf => Gf fXf pPf pTf.
have dK : isDensity n (Mat (iter K (so G) Y)).
  by elim: (K) => [|i IH]; [exact: dY | exact: (@Phi_dens C n (so G) pP pT (iter i (so G) Y) IH)].
have td (A B : 'M_n) : exists d, traceDistance eig (Mat A) (Mat B) = Ok d.
  by have [d [e' _ _ _]] := C70_distance hg (A := Mat A) (B := Mat B) (conj erefl erefl) (conj erefl erefl); exists d.
have [d ed] := td (iter K (so G) Y) X; have [d' ed'] := td (so Gf (iter K (so G) Y)) X.
exists d'; split=> //.
have ed2 : traceDistance eig (Mat (so Gf (iter K (so G) Y))) (Mat (so Gf X)) = Ok d' by rewrite fXf.
have le1 := @Phi_contract C n (so Gf) (@soD _ _ _) (@soZ _ _ _) pPf pTf _ _ _ _ _ hg dK dX ed ed2.
apply: le_lt_trans le1 _.
have aK : adj (iter K (so G) Y) = iter K (so G) Y by case: dK => /herm_adj.
have aX : adj X = X by case: dX => /herm_adj.
apply: le_lt_trans (td_entries hg aK aX ed) _.
have := hK K (leqnn K); rewrite ger0_norm ?sumr_ge0 //; apply: le_lt_trans.
rewrite -(pair_bigA _ (fun i j => `|(iter K (so G) Y - X) i j|)) /=.
have s0 : 0 <= \sum_i \sum_j `|(iter K (so G) Y - X) i j| by rewrite sumr_ge0 // => i _; rewrite sumr_ge0.
rewrite -[X in _ <= X]mul1r ler_wpmul2r // /half ler_pdivr_mulr ?ltr0n // mul1r.
by rewrite -[1]/(1%:R) ler_nat.
Qed.
Print Assumptions C76_limit.

(** ** A decaying qubit *)
Lemma cexp_real (x : R) : ExpScalar.cexp (ofR x) = ofR (exp x).
Proof.
apply: (cvg_unique (ExpScalar.cexp_cvg (ofR x))).
have e N : ssum N (ofR x) = ofR (bs N x).
  by rewrite /ssum /bs /ofR rmorph_sum; apply: eq_bigr => k _; rewrite rmorphM rmorphX; congr (_ * _); apply: fiC.
move=> d hd; have [N hN] := bs_cvg x hd; exists N => m hm.
have ne (y : R) : cabs (ofR y) = `|y| by apply: RC_inj; rewrite -cabsE normc_def /= expr0n addr0 sqrtr_sqr.
by rewrite e -[ofR _ - ofR _](rmorphB [rmorphism of @real_complex R]) ne; apply: hN.
Qed.
Lemma cexp_lt1 (x : R) : x < 0 -> `|ExpScalar.cexp (ofR x)| < 1.
Proof.
move=> /RltP h; have hp : 0 <= exp x by apply/RleP; apply: Rlt_le; apply: exp_pos.
rewrite cexp_real ger0_norm ?ofR_ge0 // -[1]/(ofR 1) /ofR ltcR; apply/RltP.
by rewrite -[1]exp_0; apply: exp_increasing.
Qed.

Lemma spec_basis N (G S : 'M[C]_N) d : S \in unitmx -> G *m S = S *m diag_mx d -> isSpectrum N (Mat G) (dseq d).
Proof.
move=> uS e; apply/spectrumE; split=> [|x]; first exact: size_dseq.
have eS : (x%:M - G) *m S = S *m (x%:M - diag_mx d).
  by rewrite mulmxBl mulmxBr e mul_scalar_mx mul_mx_scalar.
have := congr1 (fun M => \det M) eS; rewrite !det_mulmx mulrC => /mulfI -> //; first exact: det_diag_sub.
Qed.


Lemma decayD_real (k : 'I_(2 * 2)) : decayD C 0 k = ofR [:: -1; - 2%:R^-1; - 2%:R^-1; 0]`_k.
Proof.
rewrite mxE; have h : 1 / 2%:R = ofR 2%:R^-1 :> C.
  by rewrite div1r /ofR [RHS]fmorphV; congr (_ ^-1); rewrite rmorph_nat.
rewrite h; case: k => [[|[|[|[|//]]]]] hk; rewrite /ofR [LHS]/nth [X in _ = (X%:C)%C]/nth;
  by rewrite ?rmorphN ?rmorph1 ?rmorph0.
Qed.

Lemma zerom_herm n : hermitian n (zerom C n n).
Proof. by split=> // i j hi hj; rewrite !ent_mk // conjC0. Qed.

Definition lower : mat C := m2 0 0 1 0.
Lemma decay_args : [/\ matrixExponential expmT, hermitian 2 (zerom C 2 2), forall c, List.In c [:: lower] -> square 2 c,
  size [:: lower] = size [:: 1%R : C] & forall r : C, r \in [:: 1] -> 0 <= r].
Proof.
split=> //; [exact: expmT_exp | exact: zerom_herm | by move=> c [<-|[]]; split |].
by move=> r; rewrite inE => /eqP ->; apply: ler01.
Qed.

Lemma decay_spectrum : exists G : 'M[C]_(2 * 2),
  LiouvillianExp expmT (Some (zerom C 2 2)) 1 (CList (map (@COp C) [:: lower])) (Some [:: 1]) true false = Ok (Mat G) /\
  isSpectrum (2 * 2) (Mat G) (rcons [:: ExpScalar.cexp (ofR (-1)); ExpScalar.cexp (ofR (- 2%:R^-1)); ExpScalar.cexp (ofR (- 2%:R^-1))] 1).
Proof.
have [h1 h2 h3 h4 h5] := decay_args.
have [DL [_ lE _ /(_ 1 ler01)]] := generator h1 (isT : (0 < 2)%N) h2 h3 (eq_leq h4) h5.
have hc (k : 'I_(2 * 2)) : gexp (ofR 1 *: DL) *m col k (decayS C) = ExpScalar.cexp (decayD C 0 k) *: col k (decayS C).
  by apply: gexp_eig; rewrite -[ofR 1]/(1 : C) scale1r; apply: decay_eig.
move: (gexp _) hc => G hc [hL _ _]; exists G; split; first exact: hL.
pose e : 'rV[C]_(2 * 2) := \row_k ExpScalar.cexp (decayD C 0 k).
have eS : G *m decayS C = decayS C *m diag_mx e.
  by apply: diag_cols => k; rewrite mxE; apply: hc.
have := spec_basis (decay_unit C) eS; congr isSpectrum.
rewrite /dseq; transitivity [seq ExpScalar.cexp (ofR [:: -1; - 2%:R^-1; - 2%:R^-1; 0]`_(val k)) | k <- enum 'I_(2 * 2)].
  by apply: eq_map => k; rewrite mxE decayD_real.
rewrite (map_comp (fun k => ExpScalar.cexp (ofR [:: -1; - 2%:R^-1; - 2%:R^-1; 0]`_k)) val) val_enum_ord.
by rewrite /iota /map /nth /rcons -[in RHS]cexp0.
Qed.

Lemma decay_ket : exists ket rho, [/\ basis C 2 0 = Ok ket, startsFrom 2 ket rho & isDensity 2 rho].
Proof.
have [_ [_ [_ [ket [rho [_ [_ [_ [_ [_ [_ [e [s [d _]]]]]]]]]]]]]] := C65_ex.
by exists ket, rho.
Qed.

Lemma basis_density (K : numClosedFieldType) i : (i < 2)%N -> exists ket,
  [/\ basis K 2 i = Ok ket, startsFrom 2 ket (proj 2 ket), isDensity 2 (proj 2 ket)
    & ent (proj 2 ket) 0 0 = (i == 0%N)%:R].
Proof.
move=> hi; have [[ket [eK [sK aK]]] _] := @C44_basis K 2 i hi.
exists ket; split=> //.
- by right; split; [exact: sK | split; [by []|have := densityE sK; rewrite /densityMatrix]].
- apply: proj_density; split; first exact: sK.
  rewrite /norm2 !big_ord_recl big_ord0 !aK // /delta.
  by case: i hi {eK aK} => [|[|//]] _ /=; rewrite normr1 normr0 expr1n expr0n /= ?addr0 ?add0r.
- rewrite ent_mk // aK // /delta.
  by case: i hi {eK aK} => [|[|//]] _ /=; rewrite ?conjC1 ?conjC0 ?mulr1 ?mulr0.
Qed.

(** The decaying qubit meets the hypotheses of [C75_evolution], from two
    states. *)
Example C75_ex : exists expm eig M ket1 rho1 ket2 rho2,
  [/\ matrixExponential expm /\ @eigSpec C eig, @sigmam C = Ok M,
      hermitian 2 (zerom C 2 2) /\ (forall c, List.In c [:: M] -> square 2 c),
      [/\ basis C 2 0 = Ok ket1, startsFrom 2 ket1 rho1 & isDensity 2 rho1]
    & [/\ basis C 2 1 = Ok ket2, startsFrom 2 ket2 rho2 & isDensity 2 rho2]] /\
  rho1 <> rho2 /\ stepCount 1 (1 / 4%:R) = Ok 4%N.
Proof.
have [h1 h2 h3 _ _] := decay_args.
have [k1 [a1 a2 a3 a4]] := @basis_density C 0%N isT; have [k2 [b1 b2 b3 b4]] := @basis_density C 1%N isT.
exists expmT, (@eigI C), lower, k1, (proj 2 k1), k2, (proj 2 k2); split.
  by split=> //; [split; [exact: h1 | exact: eigI_ok] | exact: sigmamE].
split=> [e|]; last by vm_compute.
by move: a4; rewrite e b4 => /eqP; rewrite eq_sym oner_eq0.
Qed.

(** It meets those of [C76_spectrum], [C76_steady] and [C76_limit]: of its four
    eigenvalues only the last has modulus one. *)
Example C76_ex : exists expm eig argsort M vals vecs ket rho,
  [/\ matrixExponential expm, eigSpec eig /\ argsortSpec argsort, @sigmam C = Ok M,
      hermitian 2 (zerom C 2 2) /\ (forall c, List.In c [:: M] -> square 2 c)
    & steadyState eig argsort expm (Some (zerom C 2 2)) (CList (map (@COp C) [:: M])) (Some [:: 1]) false = Ok (vals, vecs) /\
      (forall i, (i < (2 * 2).-1)%N -> `|vals`_i| < 1)] /\
  [/\ basis C 2 0 = Ok ket, startsFrom 2 ket rho & isDensity 2 rho].
Proof.
have [ket [rho hk]] := decay_ket; have [h1 h2 h3 h4 h5] := decay_args.
have [vals [vecs [E [hS hL [sp sz hv] [in1 _] hl]]]] :=
  C76_spectrum h1 (@eigI_ok C) (@argsortI_ok C) (isT : (0 < 2)%N) h2 h3 (eq_leq h4) h5.
exists expmT, (@eigI C), (@argsortI C), lower, vals, vecs, ket, rho; split=> //.
split; [exact: expmT_exp | by split; [exact: eigI_ok | exact: argsortI_ok] | exact: sigmamE | by split | split=> //].
have [G [hG spG]] := decay_spectrum.
move: hL; rewrite hG => /(@Ok_inj _ _ _) eE; subst E.
have pm := spectrum_perm sp spG; have [_ szv _] := sp; rewrite -szv.
apply: last_perm pm _ hl => z.
have c1 : `|ExpScalar.cexp (ofR (-1))| < 1 by apply: cexp_lt1; rewrite oppr_lt0 ltr01.
have c2 : `|ExpScalar.cexp (ofR (- 2%:R^-1))| < 1 by apply: cexp_lt1; rewrite oppr_lt0 invr_gt0 ltr0n.
by rewrite !inE => /or3P[] /eqP ->.
Qed.
