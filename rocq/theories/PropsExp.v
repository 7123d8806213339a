(** C65: open-system evolution, with the matrix exponential itself instead of
    laws assumed of it. *)
From Coq Require Import Reals.
From mathcomp Require Import all_ssreflect all_algebra.
From mathcomp Require Import complex.
From Verif Require Py.
From Verif Require Import RC ExpSeries ExpMatrix ExpmSpec ExpmProofs.
From Verif Require Import MatModel OperModel StateModel EvolModel MatLib MatSpec MatProofs CField StateSpec StateProofs ExpmInst EvolSpec EvolProofs LindProofs.
From Verif Require Import GateProofs PropsState PropsMeas PropsEvol PropsOpen.
Set Implicit Arguments.
Unset Strict Implicit.
Unset Printing Implicit Defensive.
Import Order.TTheory GRing.Theory Num.Theory.
Local Open Scope ring_scope.

Local Notation C := RC.

(** The power series converges for every square matrix, to one limit only, and
    has every law that C39, C40, C50 and C60 assume of scipy's function. *)
Theorem C65_exponential :
  (exists expm, matrixExponential expm) /\
  (forall expm expm', matrixExponential expm -> matrixExponential expm' ->
     forall n A, square n A -> expm A = expm' A) /\
  (forall expm, matrixExponential expm ->
     [/\ expmTotal expm, expmFixes expm, expmConj expm, expmSimilar expm & expmLaws expm]).
Proof.
split; first by exists expmT; apply: expmT_exp.
split; first by move=> e e' h h' n A /square_Mat[D ->]; rewrite (expm_Mat D h) (expm_Mat D h').
by move=> e /laws_true[h1 [h2 [h3 [h4 h5]]]].
Qed.
Print Assumptions C65_exponential.

Lemma ofR_ge0 (u : R) : 0 <= u -> 0 <= ofR u.
Proof. by move=> h; rewrite /ofR lecR. Qed.

Lemma ge0_ofR (t : C) : 0 <= t -> exists2 u : R, 0 <= u & t = ofR u.
Proof.
move=> h; exists (complex.Re t); last by rewrite /ofR RRe_real // ger0_real.
by move: h; rewrite lecE => /andP[].
Qed.

Lemma psd_limit n (f : nat -> 'cV[C]_(n * n)) (l : 'cV[C]_(n * n)) :
  (forall N, psd n (ent (unvecm n (Mat (f N))))) -> (forall i, cvg (fun N => f N i 0) (l i 0)) ->
  psd n (ent (unvecm n (Mat l))).
Proof.
move=> hp hc v; apply: (@cvg_ge0 (fun N => bf n (ent (unvecm n (Mat (f N)))) v v)) => [N|]; first exact: hp.
rewrite /bf; apply: cvg_sum => i; apply: cvg_sum => j.
apply: cvgM; last exact: cvgC.
apply: cvgM; first exact: cvgC.
have h := idx_lt (ltn_ord i) (ltn_ord j).
have e (w : 'cV[C]_(n * n)) : ent (unvecm n (Mat w)) i j = w (Ordinal h) 0.
  by rewrite ent_mk // (ent_in _ h (ltn0Sn 0)); congr (w _ _); apply: val_inj.
by rewrite e; apply: (cvg_ext _ (hc (Ordinal h))) => N; rewrite e.
Qed.

Lemma gexp_psd n (H : mat C) crs (DL : 'M[C]_(n * n)) (t : R) (v : 'cV[C]_(n * n)) :
  hermitian n H -> (forall r, r \in map snd crs -> 0 <= r) -> 0 <= t ->
  (forall rho i j, square n rho -> (i < n)%N -> (j < n)%N -> act n (Mat DL) rho i j = lindblad n H crs rho i j) ->
  psd n (ent (unvecm n (Mat v))) -> psd n (ent (unvecm n (Mat (gexp (ofR t *: DL) *m v)))).
Proof.
move=> hH hr ht hL.
have [DK hK] : exists DK : 'M[C]_(n * n), second n H crs = Mat DK by apply: square_Mat.
move: v; apply: (@gexp_preserves (n * n) (ofR t *: DL) (ofR t ^+ 2 *: DK) (fun v => psd n (ent (unvecm n (Mat v))))).
  move=> u v hu hv; have -> : ofR (u ^+ 2) = ofR u ^+ 2 by rewrite /ofR rmorphX.
  by apply: (step_vec hH hr (ofR_ge0 ht) (ofR_ge0 hu) hL hK hv).
by move=> f l; apply: psd_limit.
Qed.

Lemma snd_zip (cs : seq (mat C)) (rates : seq C) r : r \in map snd (zip cs rates) -> r \in rates.
Proof.
elim: cs rates => [|c cs IH] [|r' rates] //=.
by rewrite !in_cons => /orP[->//|/IH ->]; rewrite orbT.
Qed.

(** For a Hermitian Hamiltonian, any collapse operators, non-negative rates and
    a non-negative time, the super-operator of the evolution maps positive
    matrices to positive matrices and density matrices to density matrices. *)
Theorem C65_channel expm (n : nat) (H : mat C) (cs : seq (mat C)) (rates : seq C) (t : C) :
  matrixExponential expm -> (0 < n)%N -> hermitian n H -> (forall c, List.In c cs -> square n c) ->
  (size cs <= size rates)%N -> (forall r, r \in rates -> 0 <= r) -> 0 <= t ->
  exists E, LiouvillianExp expm (Some H) t (CList (map (@COp C) cs)) (Some rates) true false = Ok E /\
    square (n * n) E /\
    forall rho, positive n rho -> exists R, applySO E rho = Ok R /\ positive n R /\ hermitian n R /\
      trace R = trace rho /\ (isDensity n rho -> isDensity n R).
Proof.
move=> hE hn hH hcs hsz hr ht.
have [eT [eF [eC [eS _]]]] := laws_true hE.
have sH : square n H by case: hH.
have [L [hL [sL hLa]]] := C39_lindblad hn sH hcs hsz.
have [E [hLE [sE hTr]]] := C39_exponential t eT eF eC eS hn sH hcs hsz.
exists E; split=> //; split=> // rho [sr pr].
have [R [hR [sR [tR _]]]] := hTr rho sr.
have {}hr r : r \in map snd (zip cs rates) -> 0 <= r.
  by move=> h; apply: hr; apply: snd_zip h.
have [DL eL] := square_Mat sL; subst L.
have hact rho' i j : square n rho' -> (i < n)%N -> (j < n)%N -> act n (Mat DL) rho' i j = lindblad n H (zip cs rates) rho' i j.
  move=> sr' hi hj; have [R' [h1 [_ h3]]] := hLa rho' sr'.
  by rewrite -h3 //; move: h1; rewrite (applyE sL sr') => /(@Ok_inj _ _ _) <-; rewrite ent_mk.
have [u hu et] := ge0_ofR ht.
have eE : E = Mat (gexp (ofR u *: DL)).
  move: hLE; rewrite /LiouvillianExp hL /= scale_Mat (expm_Mat _ hE) et => -[->]; by [].
have sv : hasShape (vecm rho) (n * n) 1 by case: sr => r1 r2; split; rewrite /= ?r1 ?r2.
have [v ev] := hasShape_Mat sv.
have eR : R = unvecm n (Mat (gexp (ofR u *: DL) *m v)).
  move: hR; rewrite (applyE sE sr) eE ev (mulm_Mat (gexp (ofR u *: DL)) v) => /(@Ok_inj _ _ _) ->; by [].
have p0 : psd n (ent (unvecm n (Mat v))) by rewrite -ev (unvecK sr) => w; apply: pr.
have pR : psd n (ent R) by rewrite eR; exact: (gexp_psd hH hr hu hact p0).
have hhR : hermitian n R by split=> //; exact: (psd_herm pR).
exists R; split=> //; split=> //; split=> //; split=> // -[_ _ t1]; split=> //.
by rewrite -t1; move: tR; rewrite !trace_sq ?(proj1 sR) ?(proj2 sR) ?(proj1 sr) ?(proj2 sr).
Qed.
Print Assumptions C65_channel.

(** Every state of an open evolution started in a density matrix is a density
    matrix, however many steps are taken. *)
Theorem C65_evolution expm (n k : nat) (init rho0 H : mat C) cs (rates : seq C) T dt :
  matrixExponential expm -> (0 < n)%N -> hermitian n H -> (forall c, List.In c cs -> square n c) ->
  (size cs <= size rates)%N -> (forall r, r \in rates -> 0 <= r) -> 0 <= dt ->
  startsFrom n init rho0 -> isDensity n rho0 -> stepCount T dt = Ok k ->
  exists states calls,
    evolveOpen expm init T dt (Some H) (CList (map (@COp C) cs)) (Some rates) false false = Ok (states, calls) /\
    size states = k.+1 /\ forall rho, List.In rho states -> isDensity n rho.
Proof.
move=> hE hn hH hcs hsz hr hdt hs h0 hk.
have ht : 0 <= (ratr dt : C) by rewrite ler0q.
have [E [hL [sE h]]] := C65_channel hE hn hH hcs hsz hr ht.
have [states [h1 [h2 [h3 _]]]] := C50_states hL sE hs hk.
exists (rho0 :: states), (rho0 :: states); split=> //; split; first by rewrite /= h1.
move=> rho [<-//|]; clear h1 h3 hk hs.
elim: states rho0 h2 h0 => // r states IH rho0 [h4 h5] h0.
have [R [g1 [_ [_ [_ g2]]]]] := h rho0 (let: And3 _ p _ := h0 in p).
move: g1; rewrite h4 => /(@Ok_inj _ _ _) e; subst R.
by case=> [<-|hin]; [apply: g2 | apply: (IH r) => //; apply: g2].
Qed.
Print Assumptions C65_evolution.

(** A decaying qubit: its Hamiltonian is sigma_z, it decays by sigma_- at rate 1
    and starts in the first basis state. *)
Example C65_ex : exists expm Z M ket rho, matrixExponential expm /\ @sigmaz C = Ok Z /\ @sigmam C = Ok M /\
  hermitian 2 Z /\ (forall c, List.In c [:: M] -> square 2 c) /\ mmul M (hc M) <> mmul (hc M) M /\
  basis C 2 0 = Ok ket /\ startsFrom 2 ket rho /\ isDensity 2 rho /\ stepCount 1 (1 / 4%:R) = Ok 4%N.
Proof.
have hM : mulm (m2 0 0 1 0) (hc (m2 0 0 1 0)) <> mulm (hc (m2 0 0 1 0)) (m2 0 0 1 0) :> mat C.
  move=> /(congr1 (fun X => ent X 0 0)); rewrite !ent_mulm // !big_ord_recl !big_ord0 !ent_hc // !ent_mk //.
  by rewrite !mul0r !addr0 conjC1 conjC0 !mul0r mulr1 add0r => /esym/eqP; rewrite oner_eq0.
have [[ket [eK [sK aK]]] _] := @C44_basis C 2 0 isT.
have nK : normalised 2 ket.
  split; first exact: sK.
  rewrite /norm2 !big_ord_recl big_ord0 !aK // /delta /= normr1 normr0 expr1n expr0n /=.
  by rewrite !addr0.
exists expmT, (m2 1 0 0 (-1)), (m2 0 0 1 0), ket, (proj 2 ket).
split; first exact: expmT_exp. split; first exact: sigmazE. split; first exact: sigmamE.
split; first by apply/hermitianE; split; [|have [_ _] := gen_hc C].
split; first by move=> c /= [<-|//]; split.
split; first by rewrite !mmulE // => /(@Ok_inj _ _ _).
split; first exact: eK.
split; first by right; split; [exact: sK | split; [by []|have := densityE sK; rewrite /densityMatrix]].
by split; [exact: proj_density | vm_compute].
Qed.
