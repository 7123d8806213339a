(** C62-C64: standard deviation, inverse participation ratio, Bell states. *)
From Coq Require Import String.
From mathcomp Require Import all_ssreflect all_algebra all_field.
From Verif Require Py.
From Verif Require Import MatModel MatLib OperModel StateModel MatSpec MatProofs CField OperProofs GateProofs EvolProofs StateSpec StateProofs PropsState TraceModel TraceSpec TraceProofs PropsTrace MeasSpec.
Set Implicit Arguments.
Unset Strict Implicit.
Unset Printing Implicit Defensive.
Import Order.TTheory GRing.Theory Num.Theory.
Local Open Scope ring_scope.

Notation AC := [numClosedFieldType of algC].

Section Props.
Variable C : numClosedFieldType.
Implicit Types (v u M rho A B : mat C).
Add Field Cmeas : (@C_field C).
Ltac cring := cnorm1 C; ring.
Ltac cfield := cnorm1 C; field.

(** ** C62 *)

(** Kets making up a density matrix. *)
Lemma density_dec n rho : isDensity n rho -> exists m (W : nat -> nat -> C),
  (forall i j, (i < n)%N -> (j < n)%N -> ent rho i j = \sum_(k < m) W k i * (W k j)^*)
  /\ \sum_(k < m) \sum_(i < n) `|W k i| ^+ 2 = 1.
Proof.
case=> -[_ h] [_ p] t; have [vs e] := psd_decomp h p.
exists (size vs), (fun k => nth (fun _ => 0) vs k).
have E i j : (i < n)%N -> (j < n)%N -> ent rho i j = \sum_(k < size vs) nth (fun _ => 0) vs k i * (nth (fun _ => 0) vs k j)^*.
  by move=> hi hj; rewrite e // (big_nth (fun _ => 0)) big_mkord.
split=> //; rewrite -[RHS]t exchange_big /=; apply: eq_bigr => i _; rewrite E //.
by apply: eq_bigr => k _; rewrite normE.
Qed.

Definition app n (A : nat -> nat -> C) (w : nat -> C) i : C := \sum_(j < n) A i j * w j.

Lemma app_herm n (A : nat -> nat -> C) (u v : nat -> C) : herm n A ->
  \sum_(i < n) (u i)^* * app n A v i = \sum_(i < n) (app n A u i)^* * v i.
Proof.
move=> h.
transitivity (\sum_(i < n) \sum_(j < n) (u i)^* * A i j * v j).
  by apply: eq_bigr => i _; rewrite big_distrr /=; apply: eq_bigr => j _; rewrite mulrA.
rewrite exchange_big /=; apply: eq_bigr => j _.
rewrite /app rmorph_sum big_distrl /=; apply: eq_bigr => i _.
by rewrite rmorphM /= -(h i j) //; cring.
Qed.

Section Dec.
Variables (n m : nat) (W : nat -> nat -> C) (rho : mat C).
Hypothesis hW : forall i j, (i < n)%N -> (j < n)%N -> ent rho i j = \sum_(k < m) W k i * (W k j)^*.
Hypothesis h1 : \sum_(k < m) \sum_(i < n) `|W k i| ^+ 2 = 1.

Lemma tp_dec A : traceProd n A rho = \sum_(k < m) \sum_(i < n) (W k i)^* * app n (ent A) (W k) i.
Proof.
transitivity (\sum_(i < n) \sum_(j < n) \sum_(k < m) (W k i)^* * (ent A i j * W k j)).
  apply: eq_bigr => i _; apply: eq_bigr => j _; rewrite hW // big_distrr /=.
  by apply: eq_bigr => k _; cring.
rewrite [RHS]exchange_big /=; apply: eq_bigr => i _; rewrite exchange_big /=.
by apply: eq_bigr => k _; rewrite big_distrr.
Qed.

(** [Tr(A B rho)] for Hermitian [A]: scalar product of the images of the kets. *)
Lemma tp2_dec A B : square n A -> square n B -> herm n (ent A) ->
  traceProd n (mulm A B) rho = \sum_(k < m) \sum_(i < n) (app n (ent A) (W k) i)^* * app n (ent B) (W k) i.
Proof.
move=> [_ c] _ h; rewrite tp_dec; apply: eq_bigr => k _.
rewrite -app_herm //; apply: eq_bigr => i _; congr (_ * _).
rewrite /app (eq_bigr (fun j : 'I_n => \sum_(l < n) ent A i l * (ent B l j * W k j))); last first.
  by move=> j _; rewrite ent_mulm c big_distrl /=; apply: eq_bigr => l _; rewrite mulrA.
by rewrite exchange_big /=; apply: eq_bigr => l _; rewrite big_distrr.
Qed.

(** The deviation of [A] from its mean [e] on each ket. *)
Definition dev A e k i : C := app n (ent A) (W k) i - e * W k i.

Lemma dev_prod A B a b : square n A -> square n B -> herm n (ent A) -> a^* = a ->
  a = traceProd n A rho -> b = traceProd n B rho ->
  \sum_(k < m) \sum_(i < n) (dev A a k i)^* * dev B b k i = traceProd n (mulm A B) rho - a * b.
Proof.
move=> sA sB hA ar ea eb.
have e1 : \sum_(k < m) \sum_(i < n) (app n (ent A) (W k) i)^* * W k i = a.
  rewrite ea tp_dec; apply: eq_bigr => k _; by rewrite app_herm.
have e2 : \sum_(k < m) \sum_(i < n) (W k i)^* * app n (ent B) (W k) i = b by rewrite eb tp_dec.
have e3 : \sum_(k < m) \sum_(i < n) (W k i)^* * W k i = 1.
  rewrite -h1; apply: eq_bigr => k _; apply: eq_bigr => i _; by rewrite normE mulrC.
rewrite tp2_dec //.
transitivity (\sum_(k < m) \sum_(i < n) (app n (ent A) (W k) i)^* * app n (ent B) (W k) i - b * a - a * b + a * b * 1).
  rewrite -{2}e1 -{3}e2 -{1}e3 !big_distrr /= -!sumrB -big_split /=; apply: eq_bigr => k _.
  rewrite !big_distrr /= -!sumrB -big_split /=; apply: eq_bigr => i _.
  rewrite /dev rmorphB rmorphM /= ar; cring.
move: (\sum_(k < m) _) => X; cring.
Qed.

Lemma dev_sq A a : \sum_(k < m) \sum_(i < n) (dev A a k i)^* * dev A a k i = \sum_(k < m) \sum_(i < n) `|dev A a k i| ^+ 2.
Proof. by apply: eq_bigr => k _; apply: eq_bigr => i _; rewrite normE mulrC. Qed.

Lemma cauchy2 (a b : nat -> nat -> C) :
  `|\sum_(k < m) \sum_(i < n) (a k i)^* * b k i| ^+ 2
  <= (\sum_(k < m) \sum_(i < n) `|a k i| ^+ 2) * (\sum_(k < m) \sum_(i < n) `|b k i| ^+ 2).
Proof.
rewrite -(sum_divmod m n (fun k i => (a k i)^* * b k i)) -(sum_divmod m n (fun k i => `|a k i| ^+ 2)) -(sum_divmod m n (fun k i => `|b k i| ^+ 2)).
exact: (@cauchy C (m * n) (fun l => a (l %/ n)%N (l %% n)%N) (fun l => b (l %/ n)%N (l %% n)%N)).
Qed.

End Dec.

Lemma tp_real n A rho : hermitian n A -> hermitian n rho -> (traceProd n A rho)^* = traceProd n A rho.
Proof.
move=> hA hr; have [x [_ [-> [h _]]]] := C47_expectation_real (proj1 hA) (proj1 hr).
by apply/eqP; rewrite -CrealE; apply: h.
Qed.

Lemma sdE n A rho : square n A -> square n rho ->
  standardDev A rho = Ok (sqrtC (traceProd n (mulm A A) rho - traceProd n A rho ^+ 2), traceProd n A rho).
Proof.
move=> [ra ca] sr; rewrite /standardDev (@expectE _ n) //= mmulE ?ca //= (@expectE _ n) //.
Qed.

(** The standard deviation of a Hermitian operator in any state is a
    non-negative number, its square is the mean squared deviation
    [Tr((A-e)^2 rho)] from the mean value [e], and it is zero exactly when
    [A] has the definite value [e] in the state. *)
Theorem C62_density n A rho : hermitian n A -> isDensity n rho ->
  exists s e, standardDev A rho = Ok (s, e) /\ expectation A rho = Ok e /\ e \is Num.real /\ 0 <= s
    /\ s ^+ 2 = traceProd n (mulm (subm A (scalem e (idm C n))) (subm A (scalem e (idm C n)))) rho
    /\ (s = 0 <-> eigenState n A e rho).
Proof.
move=> hA dr; have [m [W [hW h1]]] := density_dec dr.
case: (hA) => sA a; case: (dr) => hr _ tr; case: (hr) => sr _; case: (sA) => ra ca.
pose e := traceProd n A rho; have er : e^* = e by exact: tp_real.
have D := dev_prod hW h1 sA sA a er erefl erefl.
rewrite dev_sq -expr2 in D.
have D0 : 0 <= traceProd n (mulm A A) rho - e ^+ 2.
  by rewrite -D; apply: sumr_ge0 => k _; apply: sumr_ge0 => i _; rewrite exprn_ge0.
exists (sqrtC (traceProd n (mulm A A) rho - e ^+ 2)), e; rewrite (sdE sA sr) (expectE sA sr).
split=> //; split=> //; split; first by rewrite CrealE er.
split; first by rewrite sqrtC_ge0.
have Q : traceProd n (mulm (subm A (scalem e (idm C n))) (subm A (scalem e (idm C n)))) rho
    = traceProd n (mulm A A) rho - e ^+ 2.
  have sI : square n (subm A (scalem e (idm C n))) by split; rewrite /= ?ra ?ca.
  have hI : herm n (ent (subm A (scalem e (idm C n)))).
    move=> i j hi hj; rewrite !ent_subm ?ra ?ca // !ent_scalem !ent_idm hi hj !andbT rmorphB rmorphM /= er.
    by rewrite conjC_nat eq_sym -(a i j).
  rewrite (tp2_dec hW sI sI hI) -D -(dev_sq n m W); apply: eq_bigr => k _; apply: eq_bigr => i _.
  have E : app n (ent (subm A (scalem e (idm C n)))) (W k) i = dev n W A e k i.
    rewrite /app /dev -(sum_kd (W k) (ltn_ord i)) big_distrr /= -sumrB; apply: eq_bigr => j _.
    by rewrite ent_subm ?ra ?ca // ent_scalem ent_idm ltn_ord andbT /kd eq_sym; cring.
  by rewrite E.
split; first by rewrite sqrtCK Q.
split.
  move/eqP; rewrite sqrtC_eq0 -D psumr_eq0; last by move=> k _; apply: sumr_ge0 => i _; rewrite exprn_ge0.
  move/allP => z i j hi hj.
  have zz (k : 'I_m) : app n (ent A) (W k) i = e * W k i.
    have := z k (mem_index_enum _) => /=; rewrite psumr_eq0; last by move=> l _; rewrite exprn_ge0.
    move/allP/(_ (Ordinal hi) (mem_index_enum _)) => /=; rewrite expf_eq0 /= normr_eq0 subr_eq0.
    by move/eqP.
  rewrite hW // big_distrr /=.
  transitivity (\sum_(k < m) app n (ent A) (W k) i * (W k j)^*).
    rewrite (eq_bigr (fun l : 'I_n => \sum_(k < m) ent A i l * W k l * (W k j)^*)); last first.
      by move=> l _; rewrite hW // big_distrr /=; apply: eq_bigr => k _; rewrite mulrA.
    by rewrite exchange_big /=; apply: eq_bigr => k _; rewrite -big_distrl.
  by apply: eq_bigr => k _; rewrite zz mulrA.
move=> eig; apply/eqP; rewrite sqrtC_eq0 subr_eq0; apply/eqP.
have tA : e = \sum_(i < n) e * ent rho i i.
  by rewrite -big_distrr /= tr mulr1.
rewrite expr2 -/e {1}tA big_distrl /=.
rewrite /traceProd.
transitivity (\sum_(i < n) \sum_(l < n) ent A i l * (e * ent rho l i)).
  apply: eq_bigr => i _.
  rewrite (eq_bigr (fun j : 'I_n => \sum_(l < n) ent A i l * (ent A l j * ent rho j i))); last first.
    by move=> j _; rewrite ent_mulm ca big_distrl /=; apply: eq_bigr => l _; rewrite mulrA.
  rewrite exchange_big /=; apply: eq_bigr => l _; by rewrite -big_distrr /= eig.
apply: eq_bigr => i _.
transitivity (e * (\sum_(l < n) ent A i l * ent rho l i)).
  by rewrite big_distrr /=; apply: eq_bigr => l _; cring.
by rewrite eig //; cring.
Qed.

Lemma proj_density n v : normalised n v -> isDensity n (proj n v).
Proof.
move=> [hv nv]; split; [by split; [|exact: proj_herm] | by split; [|exact: proj_psd] |].
by rewrite -[RHS]nv; apply: eq_bigr => i _; rewrite ent_proj // normE.
Qed.

(** For a normalised ket the squared standard deviation is the squared length
    of [(A - e) v]; it is zero exactly for the eigenvectors.  A ket and its
    density matrix have the same standard deviation. *)
Theorem C62_ket n A v P : n <> 1%N -> hermitian n A -> normalised n v -> densityMatrix v = Ok P ->
  exists s e, standardDev A v = Ok (s, e) /\ standardDev A P = Ok (s, e)
    /\ e = quadratic n A v /\ 0 <= s
    /\ s ^+ 2 = \sum_(i < n) `|applied n A v i - e * amp v i| ^+ 2
    /\ (s = 0 <-> eigenKet n A e v).
Proof.
move=> n1 hA [hv nv]; rewrite (densityE hv) => /(@Ok_inj _ _ _) <-.
case: (hA) => sA a; case: (sA) => ra ca.
have sAA : square n (mulm A A) by split; rewrite /= ?ra ?ca.
have sP : square n (proj n v) by [].
have T M : square n M -> traceProd n M (proj n v) = quadratic n M v.
  by move=> sM; have := expectE sM sP; have [_ ->] := C47_expectation n1 sM hv (densityE hv) => -[->].
have K : standardDev A v = standardDev A (proj n v).
  rewrite (sdE sA sP) /standardDev (expectKet n1 sA hv) /= mmulE ?ca //= (expectKet n1 sAA hv).
  by rewrite /= !T.
have [s [e [E [Ee [er [s0 [s2 se]]]]]]] := C62_density hA (proj_density (conj hv nv)).
exists s, e; rewrite K E; split=> //; split=> //.
have eq : e = quadratic n A v by move: Ee; rewrite (expectE sA sP) T // => -[->].
split=> //; split=> //.
have hW i j : (i < n)%N -> (j < n)%N -> ent (proj n v) i j = \sum_(k < 1) amp v i * (amp v j)^*.
  by move=> hi hj; rewrite big_ord1 ent_proj.
have h1 : \sum_(k < 1) \sum_(i < n) `|amp v i| ^+ 2 = 1 by rewrite big_ord1.
have er' : e^* = e by apply/eqP; rewrite -CrealE.
have eT : e = traceProd n A (proj n v) by rewrite T.
have D := @dev_prod n 1 (fun _ => amp v) (proj n v) hW h1 A A e e sA sA a er' eT eT.
rewrite dev_sq big_ord1 -expr2 in D.
have S2 : s ^+ 2 = \sum_(i < n) `|applied n A v i - e * amp v i| ^+ 2.
  by move: E; rewrite (sdE sA sP) => /(@Ok_inj _ _ _) [<- e']; rewrite sqrtCK -{1}eT -D.
split=> //; split=> [z i hi|eg].
  have := S2; rewrite z expr0n /= => /esym/eqP; rewrite psumr_eq0; last by move=> k _; rewrite exprn_ge0.
  move/allP/(_ (Ordinal hi) (mem_index_enum _)) => /=; rewrite expf_eq0 /= normr_eq0 subr_eq0.
  by move/eqP.
apply/eqP; rewrite -sqrf_eq0 S2 big1 // => i _; by rewrite eg // subrr normr0 expr0n.
Qed.

(** The uncertainty relation: the standard deviations of two Hermitian operators
    in the same state cannot both be small unless their commutator vanishes. *)
Theorem C62_uncertainty n A B K rho sA sB eA eB k : hermitian n A -> hermitian n B -> isDensity n rho ->
  standardDev A rho = Ok (sA, eA) -> standardDev B rho = Ok (sB, eB) ->
  commutator A B K -> expectation K rho = Ok k -> `|k| <= 2%:R * sA * sB.
Proof.
move=> hA hB dr EA EB [X [Y [eX [eY eK]]]] Ek.
case: (hA) (hB) => qA a [qB b]; case: (qA) (qB) => ra ca [rb cb]; case: (dr) => hr _ _; case: (hr) => sr _.
have [m [W [hW h1]]] := density_dec dr.
have [s [e [E1 [_ [_ [sA0 _]]]]]] := C62_density hA dr; move: E1; rewrite EA => -[? ?]; subst s e.
have [s [e [E1 [_ [_ [sB0 _]]]]]] := C62_density hB dr; move: E1; rewrite EB => -[? ?]; subst s e.
have ea : (traceProd n A rho)^* = traceProd n A rho by exact: tp_real.
have eb : (traceProd n B rho)^* = traceProd n B rho by exact: tp_real.
have DAB := dev_prod hW h1 qA qB a ea erefl erefl.
have DBA := dev_prod hW h1 qB qA b eb erefl erefl.
have DA := dev_prod hW h1 qA qA a ea erefl erefl.
have DB := dev_prod hW h1 qB qB b eb erefl erefl.
rewrite dev_sq -expr2 in DA; rewrite dev_sq -expr2 in DB.
move: EA EB; rewrite (sdE qA sr) (sdE qB sr) => -[<- _] -[<- _].
rewrite -DA -DB.
have [_ eX'] := mmul_inv eX; have [_ eY'] := mmul_inv eY; have [e1 e2 eK'] := msub_inv eK.
have sK : square n K by rewrite eK' eX'; split; rewrite /= ?ra ?cb.
have kE : k = traceProd n (mulm A B) rho - traceProd n (mulm B A) rho.
  move: Ek; rewrite (expectE sK sr) => -[<-]; rewrite /traceProd -sumrB; apply: eq_bigr => i _.
  rewrite -sumrB; apply: eq_bigr => j _; rewrite eK' ent_subm // eX' eY'; cring.
set z := \sum_(k0 < m) \sum_(i < n) (dev n W A (traceProd n A rho) k0 i)^* * dev n W B (traceProd n B rho) k0 i in DAB.
have zc : \sum_(k0 < m) \sum_(i < n) (dev n W B (traceProd n B rho) k0 i)^* * dev n W A (traceProd n A rho) k0 i = z^*.
  rewrite /z rmorph_sum; apply: eq_bigr => l _; rewrite rmorph_sum; apply: eq_bigr => i _.
  by rewrite rmorphM /= conjCK mulrC.
have kz : k = z - z^*.
  rewrite -zc DBA DAB kE; move: (traceProd n (mulm A B) rho) (traceProd n (mulm B A) rho) (traceProd n A rho) (traceProd n B rho) => *; cring.
have c2 := cauchy2 n m (dev n W A (traceProd n A rho)) (dev n W B (traceProd n B rho)).
rewrite -/z in c2.
set P := \sum_(k0 < m) _ in c2 *; set Q := \sum_(k0 < m) \sum_(i < n) `|dev n W B _ _ _| ^+ 2 in c2 *.
have P0 : 0 <= P by apply: sumr_ge0 => l _; apply: sumr_ge0 => i _; rewrite exprn_ge0.
have Q0 : 0 <= Q by apply: sumr_ge0 => l _; apply: sumr_ge0 => i _; rewrite exprn_ge0.
have zz : `|z| <= sqrtC P * sqrtC Q.
  by rewrite -(@ler_pexpn2r _ 2) ?nnegrE ?mulr_ge0 ?sqrtC_ge0 // exprMn !sqrtCK.
rewrite kz; apply: le_trans (ler_norm_sub _ _) _; rewrite norm_conjC -mulrA mulr_natl mulr2n.
exact: ler_add.
Qed.

(** ** C63 *)

Lemma probs n (p : nat -> C) : (forall i, (i < n)%N -> 0 <= p i) -> \sum_(i < n) p i = 1 ->
  let S := \sum_(i < n) p i ^+ 2 in
  [/\ 1 / n%:R <= S, S <= 1, 0 < S,
      S = 1 <-> (exists i, [/\ (i < n)%N, p i = 1 & forall j, (j < n)%N -> j <> i -> p j = 0])
    & S = 1 / n%:R <-> (forall i, (i < n)%N -> p i = 1 / n%:R)].
Proof.
move=> p0 p1 S.
have n0 : (0 < n)%N.
  by case: n p1 {p0 S} => // /eqP; rewrite big_ord0 eq_sym oner_eq0.
have nn : n%:R != 0 :> C by rewrite pnatr_eq0 -lt0n.
have E : \sum_(i < n) (p i - 1 / n%:R) ^+ 2 = S - 1 / n%:R.
  transitivity (S - (2%:R / n%:R) * (\sum_(i < n) p i) + \sum_(i < n) (1 / n%:R) ^+ 2).
    rewrite /S big_distrr /= -sumrB -big_split; apply: eq_bigr => i _ /=; cring.
  rewrite p1 sumr_const card_ord -[X in _ + X = _]mulr_natr; move/eqP: nn; move: (S) (n%:R) => X N nn; cfield; exact: nn.
have le1 i : (i < n)%N -> p i <= 1.
  move=> hi; rewrite -p1 (bigD1 (Ordinal hi)) //= ler_addl; apply: sumr_ge0 => j _; exact: p0.
have D : \sum_(i < n) p i * (1 - p i) = 1 - S.
  by rewrite -[in RHS]p1 /S -sumrB; apply: eq_bigr => i _; cring.
have t0 i : (i < n)%N -> 0 <= p i * (1 - p i).
  by move=> hi; rewrite mulr_ge0 ?p0 // subr_ge0 le1.
have lo : 1 / n%:R <= S.
  rewrite -subr_ge0 -E; apply: sumr_ge0 => i _; rewrite real_exprn_even_ge0 //.
  rewrite realB // ?ger0_real ?p0 // ?divr_ge0 ?ler0n ?ler01 //.
split=> //.
- by rewrite -subr_ge0 -D; apply: sumr_ge0 => i _; exact: t0.
- by apply: lt_le_trans lo; rewrite div1r invr_gt0 ltr0n.
- split=> [s1|[i [hi pi z]]].
    have := D; rewrite s1 subrr => /eqP; rewrite psumr_eq0 => [/allP z|i _]; last exact: t0.
    have z' i : (i < n)%N -> p i = 0 \/ p i = 1.
      move=> hi; have := z (Ordinal hi) (mem_index_enum _) => /=.
      by rewrite mulf_eq0 subr_eq0 => /orP[/eqP|/eqP/esym]; [left|right].
    have /existsP[i hi] : [exists i : 'I_n, p i == 1].
      apply: contraT; rewrite negb_exists => /forallP a.
      move: p1; rewrite big1 => [/esym/eqP|i _]; first by rewrite oner_eq0.
      by case: (z' i (ltn_ord i)) => // e; have := a i; rewrite e eqxx.
    exists i; split; rewrite ?(eqP hi) // => j hj ji.
    have := p1; rewrite (bigD1 i) //= (eqP hi) => /eqP; rewrite -subr_eq0 addrAC subrr add0r.
    rewrite psumr_eq0 => [/allP|l _]; last exact: p0.
    move/(_ (Ordinal hj) (mem_index_enum _)) => /implyP h; apply/eqP; apply: h.
    by apply/eqP => e; apply: ji; rewrite -e.
  rewrite /S (bigD1 (Ordinal hi)) //= pi expr1n big1 ?addr0 // => j ji.
  rewrite z ?expr0n //; move=> e; move/eqP: ji; apply; exact: val_inj.
- split=> [s1 i hi|h].
    have := E; rewrite s1 subrr => /eqP; rewrite psumr_eq0 => [/allP z|j _]; last first.
      by rewrite real_exprn_even_ge0 // realB // ?ger0_real ?p0 // ?divr_ge0 ?ler0n ?ler01 //.
    have := z (Ordinal hi) (mem_index_enum _) => /=; by rewrite expf_eq0 /= subr_eq0 => /eqP.
  rewrite /S (eq_bigr (fun _ => (1 / n%:R) ^+ 2)) => [|i _]; last by rewrite h.
  rewrite sumr_const card_ord -[LHS]mulr_natr; move/eqP: nn; move: (n%:R) => N nn; cfield; exact: nn.
Qed.

Lemma norm1_sq (x : C) : `|x| ^+ 2 = 1 <-> `|x| = 1.
Proof.
split=> [e|->]; last by rewrite expr1n.
by apply/eqP; rewrite -(@eqr_expn2 _ 2) ?ler01 // e expr1n.
Qed.

Lemma norm0_sq (x : C) : `|x| ^+ 2 = 0 <-> x = 0.
Proof.
split=> [/eqP|->]; last by rewrite normr0 expr0n.
by rewrite expf_eq0 /= normr_eq0 => /eqP.
Qed.

(** The ratio [1 / sum p_i^2] for the populations of a normalised ket. *)
Lemma ipr_bounds n v : normalised n v -> let S := \sum_(i < n) (`|amp v i| ^+ 2) ^+ 2 in
  [/\ S != 0, 1 <= 1 / S, 1 / S <= n%:R, 1 / S = 1 <-> localised n v & 1 / S = n%:R <-> uniform n v].
Proof.
move=> [hv nv] S.
have [|lo hi pos loc uni] := @probs n (fun i => `|amp v i| ^+ 2) _ nv.
  by move=> i _; rewrite exprn_ge0.
rewrite -/S in lo hi pos loc uni.
have n0 : (0 < n)%N.
  by case: (n) nv => // /eqP; rewrite /norm2 big_ord0 eq_sym oner_eq0.
have nn : 0 < n%:R :> C by rewrite ltr0n.
have SN : S != 0 by rewrite gt_eqF.
split=> //.
- by rewrite ler_pdivl_mulr // mul1r.
- by rewrite ler_pdivr_mulr // mulrC -ler_pdivr_mulr.
- split=> [e|l].
    have s1 : S = 1 by apply: invr_inj; rewrite invr1 -div1r.
    have [i [h1 h2 h3]] := proj1 loc s1; exists i; split=> //; first exact/norm1_sq.
    by move=> j hj ji; apply/norm0_sq; apply: h3.
  suff -> : S = 1 by rewrite divr1.
  case: l => i [h1 h2 h3]; apply/loc; exists i; split=> //; first exact/norm1_sq.
  by move=> j hj ji; apply/norm0_sq; apply: h3.
- have N : n%:R != 0 :> C by rewrite gt_eqF.
  split=> [e|u].
    by apply/uni; apply: invr_inj; rewrite -[LHS]div1r e div1r invrK.
  by rewrite (proj2 uni u) !div1r invrK.
Qed.

(** [iprKetNB] of a normalised ket: between 1, for basis states, and the number
    of levels, for equal populations. *)
Theorem C63_computational n v : normalised n v ->
  exists r, [/\ iprKetNB v = Ok r, 1 <= r, r <= n%:R, r = 1 <-> localised n v & r = n%:R <-> uniform n v].
Proof.
move=> hv; case: (ipr_bounds hv) => SN h1 h2 h3 h4; case: (hv) => -[rv cv] _.
exists (1 / \sum_(i < n) (`|amp v i| ^+ 2) ^+ 2); split=> //.
rewrite /iprKetNB rv cv muln1.
have -> : \sum_(k < n) `|flat v k| ^+ 4 = \sum_(i < n) (`|amp v i| ^+ 2) ^+ 2.
  by apply: eq_bigr => i _; rewrite /flat cv divn1 modn1 -exprM.
by case: eqP => // z; rewrite z eqxx in SN.
Qed.

Lemma fidKets n u v : n <> 1%N -> isKet n u -> isKet n v -> fidelityPure u v = Ok (`|overlap n u v| ^+ 2).
Proof. by move=> n1 hu hv; have [[-> _] _ _ _ _] := C47_fidelity_forms n1 hu hv (densityE hu) (densityE hv). Qed.

Lemma In_nth_seq (T : Type) (x0 x : T) s : List.In x s -> exists2 k, (k < size s)%N & nth x0 s k = x.
Proof.
elim: s => [//|y s IH] /= [<-|/IH[k hk <-]]; [by exists 0%N|by exists k.+1].
Qed.

Lemma iprE n bs v : n <> 1%N -> orthonormalBasis n bs -> isKet n v ->
  iprKet bs v = (let S := \sum_(i < n) (`|overlap n (nth (zerom C 0 0) bs i) v| ^+ 2) ^+ 2 in
                 if S == 0 then Err Py.ZeroDivisionError else Ok (1 / S)).
Proof.
move=> n1 [sz kb _] hv; rewrite /iprKet.
have -> : mapr (fun b => fidelityPure b v) bs = Ok [seq `|overlap n b v| ^+ 2 | b <- bs].
  apply: (@mapr_ok _ _ _ _ (isKet n)) => [b hb|b]; first exact: fidKets.
  by case/(In_nth_seq (zerom C 0 0)) => k hk <-; apply: kb; rewrite -sz.
rewrite /= big_map (big_nth (zerom C 0 0)) big_mkord sz //.
Qed.

(** The coordinates of a ket in an orthonormal basis have the same norm. *)
Lemma parseval n bs v : orthonormalBasis n bs ->
  \sum_(i < n) `|overlap n (nth (zerom C 0 0) bs i) v| ^+ 2 = norm2 n v.
Proof.
case=> _ _ on; pose b (i k : 'I_n) := amp (nth (zerom C 0 0) bs i) k.
pose X : 'M[C]_n := \matrix_(i, k) (b i k)^*; pose Y : 'M[C]_n := \matrix_(k, j) b j k.
have XY : X *m Y = 1%:M.
  apply/matrixP => i j; rewrite !mxE.
  rewrite (eq_bigr (fun k : 'I_n => (b i k)^* * b j k)) => [|k _]; last by rewrite !mxE.
  by have := on i j (ltn_ord i) (ltn_ord j); rewrite /overlap /b => ->.
have YX k l : \sum_(i < n) b i k * (b i l)^* = delta C k l.
  have /matrixP/(_ k l) := mulmx1C XY; rewrite !mxE => e; rewrite /delta val_eqE -e.
  by apply: eq_bigr => i _; rewrite !mxE.
transitivity (\sum_(k < n) \sum_(l < n) (amp v k)^* * amp v l * \sum_(i < n) b i k * (b i l)^*).
  rewrite (eq_bigr (fun i : 'I_n => \sum_(k < n) \sum_(l < n) (amp v k)^* * amp v l * (b i k * (b i l)^*))); last first.
    move=> i _; rewrite normE mulrC /overlap rmorph_sum big_distrl /=; apply: eq_bigr => k _.
    rewrite big_distrr /=; apply: eq_bigr => l _; rewrite rmorphM /= conjCK /b; cring.
  rewrite exchange_big /=; apply: eq_bigr => k _; rewrite exchange_big /=; apply: eq_bigr => l _.
  by rewrite big_distrr.
apply: eq_bigr => k _; rewrite (bigD1 k) //= YX /delta eqxx mulr1 big1 ?addr0 => [|l lk].
  by rewrite normE mulrC.
by rewrite YX /delta val_eqE eq_sym (negbTE lk) mulr0.
Qed.

(** [iprKet] in any orthonormal basis: between 1, for the elements of the
    basis, and the number of levels, for kets unbiased to it. *)
Theorem C63_basis n bs v : n <> 1%N -> orthonormalBasis n bs -> normalised n v ->
  exists r, [/\ iprKet bs v = Ok r, 1 <= r, r <= n%:R,
    r = 1 <-> (exists i, (i < n)%N /\ `|overlap n (nth (zerom C 0 0) bs i) v| = 1)
  & r = n%:R <-> (forall i, (i < n)%N -> `|overlap n (nth (zerom C 0 0) bs i) v| ^+ 2 = 1 / n%:R)].
Proof.
move=> n1 hb [hv nv].
pose w : mat C := mk n 1 (fun i _ => overlap n (nth (zerom C 0 0) bs i) v).
have aw i : (i < n)%N -> amp w i = overlap n (nth (zerom C 0 0) bs i) v by move=> hi; rewrite /amp ent_mk.
have hw : normalised n w.
  split=> //; rewrite -nv -(parseval v hb); apply: eq_bigr => i _; by rewrite aw.
have [SN h1 h2 h3 h4] := ipr_bounds hw.
have ES : \sum_(i < n) (`|amp w i| ^+ 2) ^+ 2 = \sum_(i < n) (`|overlap n (nth (zerom C 0 0) bs i) v| ^+ 2) ^+ 2.
  by apply: eq_bigr => i _; rewrite aw.
rewrite ES in SN h1 h2 h3 h4; exists (1 / \sum_(i < n) (`|overlap n (nth (zerom C 0 0) bs i) v| ^+ 2) ^+ 2).
split=> //.
- by rewrite (iprE n1 hb hv) /=; case: eqP => // z; rewrite z eqxx in SN.
- rewrite h3; split=> [[i [hi e _]]|[i [hi e]]]; first by exists i; rewrite -aw.
  exists i; split=> //; first by rewrite aw.
  move=> j hj ji; apply/norm0_sq.
  have := proj2 hw; rewrite /norm2 (bigD1 (Ordinal hi)) //= aw // e expr1n => /eqP.
  rewrite -subr_eq0 addrAC subrr add0r psumr_eq0 => [/allP|l _]; last by rewrite exprn_ge0.
  move/(_ (Ordinal hj) (mem_index_enum _)) => /implyP h; apply/eqP; apply: h.
  by apply/eqP => e'; apply: ji; case: e'.
- by rewrite h4; split=> h i hi; have := h i hi; rewrite aw.
Qed.

Lemma computational_basis n bs : completeBasis C n = Ok bs -> orthonormalBasis n bs.
Proof.
rewrite completeBasisE => /(@Ok_inj _ _ _) <-; split; first by rewrite size_map size_iota.
  by move=> i hi; rewrite (nth_map 0%N) ?size_iota // nth_iota.
move=> i j hi hj; rewrite !(nth_map 0%N) ?size_iota // !nth_iota // /overlap.
under eq_bigr => k _ do rewrite !amp_unit // kd_real.
by rewrite (sum_kd (kd C j) hi) /kd /delta.
Qed.

(** The two functions agree on the computational basis. *)
Theorem C63_agree n bs v : n <> 1%N -> completeBasis C n = Ok bs -> isKet n v ->
  iprKet bs v = iprKetNB v.
Proof.
move=> n1 eb hv; rewrite (iprE n1 (computational_basis eb) hv) /iprKetNB.
case: (hv) => rv cv; rewrite rv cv muln1.
suff -> : \sum_(k < n) `|flat v k| ^+ 4 = \sum_(i < n) (`|overlap n (nth (zerom C 0 0) bs i) v| ^+ 2) ^+ 2 by [].
apply: eq_bigr => i _; rewrite /flat cv divn1 modn1 -exprM.
move: eb; rewrite completeBasisE => /(@Ok_inj _ _ _) <-.
rewrite (nth_map 0%N) ?size_iota // nth_iota // /overlap.
under eq_bigr => k _ do rewrite amp_unit // kd_real.
by rewrite (sum_kd (amp v) (ltn_ord i)).
Qed.

(** A global phase does not matter, and a zero ket has no ratio. *)
Theorem C63_phase n v c : isKet n v -> `|c| = 1 -> iprKetNB (scalem c v) = iprKetNB v.
Proof.
move=> [rv cv] c1; rewrite /iprKetNB /= .
suff -> : \sum_(k < rows v * cols v) `|flat (scalem c v) k| ^+ 4 = \sum_(k < rows v * cols v) `|flat v k| ^+ 4 by [].
by apply: eq_bigr => k _; rewrite /flat ent_scalem normrM c1 mul1r.
Qed.

Theorem C63_zero n v : isKet n v -> norm2 n v = 0 -> iprKetNB v = Err Py.ZeroDivisionError.
Proof.
move=> [rv cv] z; rewrite /iprKetNB.
have -> : \sum_(k < rows v * cols v) `|flat v k| ^+ 4 = 0; last by rewrite eqxx.
rewrite rv cv muln1 big1 // => k _; rewrite /flat cv divn1 modn1.
move/eqP: z; rewrite psumr_eq0 => [/allP/(_ k (mem_index_enum _)) /= |i _]; last by rewrite exprn_ge0.
by rewrite expf_eq0 /= normr_eq0 /amp => /eqP ->; rewrite normr0 expr0n.
Qed.

(** The documentation says that the ratio of a uniform ket of [n] levels is [1/n];
    it is [n]. *)
Theorem C63_documented_refuted n : (1 < n)%N ->
  exists v, normalised n v /\ uniform n v /\ exists r, iprKetNB v = Ok r /\ r <> 1 / n%:R.
Proof.
move=> n1; have n0 : 0 < n%:R :> C by rewrite ltr0n (ltn_trans _ n1).
pose v : mat C := mk n 1 (fun _ _ => (sqrtC n%:R)^-1).
have u : uniform n v.
  move=> i hi; rewrite /amp ent_mk // normrV; last by rewrite unitfE sqrtC_eq0 gt_eqF.
  by rewrite exprVn ger0_norm ?sqrtC_ge0 ?ler0n // sqrtCK div1r.
have nv : normalised n v.
  split=> //; rewrite /norm2 (eq_bigr (fun _ => 1 / n%:R)) => [|i _]; last by rewrite u.
  by rewrite sumr_const card_ord div1r -[LHS]mulr_natr mulVf // gt_eqF.
exists v; split=> //; split=> //.
have [r [e _ _ _ h]] := C63_computational nv; exists r; split=> //.
rewrite (proj2 h u) => e1; have := congr1 (fun x => x * n%:R) e1; rewrite divfK ?gt_eqF // -natrM.
by move/eqP; rewrite pnatr_eq1 muln_eq1 => /andP[/eqP e2 _]; rewrite e2 in n1.
Qed.

(** ** C64 *)

Definition bellKet a b : mat C := mk 4 1 (fun k _ => bellAmp C a b (1 < k)%N (odd k)).

Lemma bellE a b s : bellName a b s -> @BellStates C s = Ok (bellKet a b).
Proof.
have K (l : seq C) : (forall k, (k < 4)%N -> 1 / sqrtC 2%:R * nth 0 l k = bellAmp C a b (1 < k)%N (odd k)) ->
    Ok (scalem (1 / sqrtC 2%:R) (mk 4 1 (fun i _ => nth 0 l i))) = Ok (bellKet a b) :> result (mat C).
  move=> h; congr Ok; apply: mat_ext => // i j hi hj; rewrite ent_scalem !ent_mk //; exact: h.
by move=> h; case: h K => K; rewrite /BellStates /=; apply: K; case=> [|[|[|[|k]]]] //= _;
  rewrite /bellAmp /= ?mulr0 ?mulr1 // mulrN1 mulN1r div1r.
Qed.

Lemma amp_bell a b (i j : bool) : amp (bellKet a b) (2 * i + j) = bellAmp C a b i j.
Proof. by case: i j => [] []; rewrite /amp ent_mk. Qed.

Lemma rt2 : sqrtC 2%:R * sqrtC 2%:R = 2%:R :> C. Proof. by rewrite -expr2 sqrtCK. Qed.
Lemma rt2_0 : sqrtC 2%:R <> 0 :> C. Proof. by apply/eqP; rewrite sqrtC_eq0 pnatr_eq0. Qed.
Lemma rt2_c : (sqrtC 2%:R)^* = sqrtC 2%:R :> C. Proof. by rewrite geC0_conj // sqrtC_ge0 ler0n. Qed.
Lemma sgn_c b : (sgn C b)^* = sgn C b. Proof. by case: b; rewrite /sgn ?rmorphN /= ?rmorph1. Qed.
Lemma amp_c a b i j : (bellAmp C a b i j)^* = bellAmp C a b i j.
Proof.
rewrite /bellAmp; case: eqP => _; rewrite ?rmorph0 // rmorphM /= fmorphV /= rt2_c; case: i => //.
  by rewrite sgn_c.
by rewrite rmorph1.
Qed.
Lemma half2 : (sqrtC 2%:R)^-1 * (sqrtC 2%:R)^-1 = 2%:R^-1 :> C.
Proof. by rewrite -invfM rt2. Qed.

Lemma hh : 2%:R^-1 + 2%:R^-1 = 1 :> C.
Proof. by rewrite -[2%:R^-1]div1r -mulrDl -[1 + 1]/(2%:R) divff // pnatr_eq0. Qed.

Lemma sum4 (f : nat -> C) : \sum_(i < 4) f i = f 0%N + f 1%N + (f 2%N + f 3%N).
Proof. by rewrite !big_ord_recl big_ord0 /= addr0 !addrA. Qed.
Lemma ampk a b k : amp (bellKet a b) k = if (k < 4)%N then bellAmp C a b (1 < k)%N (odd k) else 0.
Proof. by rewrite /amp ent_mkE andbT. Qed.

(** Each documented name gives the normalised ket
    [(|0a> + (-1)^b |1(1-a)>)/sqrt 2]; any two of the four states are orthogonal. *)
Theorem C64_kets a b s : bellName a b s -> exists v,
  [/\ @BellStates C s = Ok v, normalised 4 v, forall i j : bool, amp v (2 * i + j) = bellAmp C a b i j
    & forall a' b' s' v', bellName a' b' s' -> @BellStates C s' = Ok v' ->
        innerProd v (Some v') = Ok ((a == a') && (b == b'))%:R].
Proof.
move=> h; exists (bellKet a b); split; first exact: bellE.
- split=> //; rewrite /norm2 (sum4 (fun i => `|amp (bellKet a b) i| ^+ 2)) !ampk /bellAmp /= !normE.
  by case: a b {h} => [] []; rewrite /sgn /= !(mul0r, add0r, addr0) !rmorphM /= !fmorphV /= !rt2_c ?rmorphN ?rmorph1 ?mulN1r ?mulrNN ?mul1r half2 hh.
- exact: amp_bell.
move=> a' b' s' v' h'; rewrite (bellE h') => /(@Ok_inj _ _ _) <-.
rewrite (@innerE _ 4) //; congr Ok; rewrite /overlap (sum4 (fun i => (amp (bellKet a' b') i)^* * amp (bellKet a b) i)) !ampk /bellAmp /=.
by case: a b a' b' {h h'} => [] [] [] []; rewrite /sgn /= !(mul0r, mulr0, add0r, addr0, rmorph0) // !rmorphM /= !fmorphV /= !rt2_c ?rmorphN ?rmorph1 ?mulN1r ?mulrN ?mulNr ?opprK ?mul1r ?half2 ?subrr ?addNr ?hh.
Qed.

Lemma isIdx1 d (u : seq nat) : isIdx [:: d] u -> exists2 i, u = [:: i] & (i < d)%N.
Proof. by case: u => [//|i [|? ?]] //=; rewrite /isIdx /= ?andbT ?andbF // => h; exists i. Qed.

(** Either qubit of a Bell state on its own is maximally mixed. *)
Theorem C64_reduced a b s v k : bellName a b s -> @BellStates C s = Ok v -> (k < 2)%N ->
  partialTrace [:: Posz k] [:: 2; 2]%N v = Ok (scalem (1 / 2%:R) (idm C 2)).
Proof.
move=> h; rewrite (bellE h) => /(@Ok_inj _ _ _) <- hk.
have hv : isKet 4 (bellKet a b) by [].
have -> : partialTrace [:: Posz k] [:: 2; 2]%N (bellKet a b) = partialTrace [:: Posz k] [:: 2; 2]%N (proj 4 (bellKet a b)).
  have [//|rho [e ->]] := @C36_ket C [:: Posz k] [:: 2; 2]%N (bellKet a b) 4 _ hv.
  by move: e; rewrite (densityE hv) => -[->].
have vk : validKeep [:: 2; 2]%N [:: k] by split=> //=; rewrite hk.
have sq : square (prodn [:: 2; 2]%N) (proj 4 (bellKet a b)) by [].
have [R [-> hR]] := partialTraceE vk sq; congr Ok; apply: (isPT_unique hR).
have key (i j : nat) : (i < 2)%N -> (j < 2)%N -> ent (scalem (1 / 2%:R) (idm C 2)) i j = (i == j)%:R / 2%:R.
  by move=> hi hj; rewrite ent_scalem ent_idm hi andbT div1r mulrC.
have P i j : (i < 4)%N -> (j < 4)%N -> ent (proj 4 (bellKet a b)) i j
    = bellAmp C a b (1 < i)%N (odd i) * bellAmp C a b (1 < j)%N (odd j).
  by move=> hi hj; rewrite ent_proj // !ampk hi hj amp_c.
case: k hk vk {hR} => [|[|k]] // _ vk; rewrite /keepMask /=.
  split=> // u w /isIdx1[i -> hi] /isIdx1[j -> hj] /=; rewrite !muln1 !addn0 !key // !big_ord_recl big_ord0 addr0 /= !muln1 !addn0 P; try by move: i j hi hj => [|[|i]] [|[|j]].
  rewrite P; try by move: i j hi hj => [|[|i]] [|[|j]].
  by move: i j a b hi hj {h hv sq P vk} => [|[|i]] [|[|j]] [] [] // _ _; rewrite /bellAmp /sgn /= !(mul0r, mulr0, add0r, addr0) //
    ?mulr1n ?mulr0n ?mul1r ?mulN1r ?mulrNN ?mul0r ?half2.
split=> // u w /isIdx1[i -> hi] /isIdx1[j -> hj] /=; rewrite !muln1 !addn0 !key // !big_ord_recl big_ord0 addr0 /= ?muln1 ?addn0 ?mul0n ?add0n ?mul1n P; try by move: i j hi hj => [|[|i]] [|[|j]].
rewrite P; try by move: i j hi hj => [|[|i]] [|[|j]].
by move: i j a b hi hj {h hv sq P vk} => [|[|i]] [|[|j]] [] [] // _ _; rewrite /bellAmp /sgn /= !(mul0r, mulr0, add0r, addr0) //
    ?mulr1n ?mulr0n ?mul1r ?mulN1r ?mulrNN ?mul0r ?half2.
Qed.

(** The Bell states are the common eigenstates of [sigma_x x sigma_x] and
    [sigma_z x sigma_z]: the bits of the name are the signs of the eigenvalues. *)
Theorem C64_stabilisers a b s v X Z XX ZZ : bellName a b s -> @BellStates C s = Ok v ->
  sigmax = Ok X -> sigmaz = Ok Z ->
  tensorProd [:: TMat X; TMat X] = Ok XX -> tensorProd [:: TMat Z; TMat Z] = Ok ZZ ->
  eigenKet 4 XX (sgn C b) v /\ eigenKet 4 ZZ (sgn C a) v.
Proof.
move=> h; rewrite (bellE h) => /(@Ok_inj _ _ _) <-; rewrite sigmaxE sigmazE.
move=> /(@Ok_inj _ _ _) <- /(@Ok_inj _ _ _) <- /= /(@Ok_inj _ _ _) <- /(@Ok_inj _ _ _) <-.
split=> i hi; rewrite /applied (sum4 (fun j => ent (kron _ _) i j * amp (bellKet a b) j)) !ent_kron // !ampk hi /=.
  by move: i a b hi {h} => [|[|[|[|i]]]] [] [] // _; rewrite !ent_mkE /bellAmp /sgn /= !(mul0r, mulr0, add0r, addr0, mul1r, mulN1r, mulNr, opprK).
by move: i a b hi {h} => [|[|[|[|i]]]] [] [] // _; rewrite !ent_mkE /bellAmp /sgn /= !(mul0r, mulr0, add0r, addr0, mul1r, mulr1, mulN1r, mulrN1, mulNr, opprK, oppr0).
Qed.

(** The usual circuit: a Hadamard gate on the first qubit and a CNOT turn the
    computational basis states into the Bell states. *)
Theorem C64_circuit a b s v : bellName a b s -> @BellStates C s = Ok v ->
  exists H U HI e, [/\ Hadamard C = Ok H, CNOT C = Ok U, tensorProd [:: TMat H; TInt 2] = Ok HI,
    basis C 4 (2 * b + a) = Ok e & matMulInputs [:: U; HI; e] = Ok v].
Proof.
move=> h; rewrite (bellE h) => /(@Ok_inj _ _ _) <-.
have hb : (2 * b + a < 4)%N by case: a b {h} => [] [].
rewrite HadamardE CNOTE basisE //.
set H := m2 _ _ _ _; exists H, (cnotm C), (kron H (idm C 2)), (unit_vec C 4 (2 * b + a)%N); split=> //.
rewrite /= !mmulE //=; congr Ok; apply: mat_ext => // i j hi; rewrite ltnS leqn0 => /eqP ->.
rewrite ent_cnot_mul // ent_mulm (bigD1 (Ordinal hb)) //= big1 ?addr0 => [|k hk]; last first.
  by rewrite ent_unit // (_ : (k : nat) == _ = false) ?mulr0 //; apply/negbTE; rewrite -val_eqE in hk.
rewrite ent_unit // eqxx mulr1 ent_kron // -/(amp (bellKet a b) i) ampk hi.
by move: i a b hi {h hb} => [|[|[|[|i]]]] [] [] // _; rewrite !ent_mkE /bellAmp /sgn /= ?mulr0 ?mulr1 ?mul1r ?mulN1r.
Qed.

(** Any other name is not rejected: a 1x1 zero matrix is returned. *)
Theorem C64_unknown_refuted s : ~ (exists a b, bellName a b s) -> @BellStates C s = Ok (zerom C 1 1).
Proof.
move=> h; rewrite /BellStates /=.
by do 8!(case: String.eqb_spec => [e|_] /=; first by case: h; rewrite e; do 2!eexists; constructor).
Qed.

End Props.

(** ** The hypotheses are met *)
Lemma AC_rt2 : (sqrtC 2%:R)^-1 ^+ 2 = 2%:R^-1 :> algC.
Proof. by rewrite exprVn sqrtCK. Qed.

(** [sigma_x] has standard deviation 1 in the lower level and 0 in the state
    [(1, 1)/sqrt 2]. *)
Example C62_ex : exists X v w, [/\ @sigmax AC = Ok X, hermitian 2 X, normalised 2 v & normalised 2 w] /\
  standardDev X v = Ok (1, 0) /\ standardDev X w = Ok (0, 1).
Proof.
have eX := @sigmaxE AC; set X := m2 _ _ _ _ in eX.
have hX : hermitian 2 X.
  by split=> // -[|[|i]] [|[|j]] // _ _; rewrite !ent_mk //= ?rmorph0 ?rmorph1.
pose v : mat AC := mk 2 1 (fun i _ => (i == 1%N)%:R).
pose w : mat AC := mk 2 1 (fun i _ => (sqrtC 2%:R)^-1).
have r2 : 0 <= (sqrtC 2%:R)^-1 :> algC by rewrite invr_ge0 sqrtC_ge0 ler0n.
have nv : normalised 2 v.
  by split=> //; rewrite /norm2 !big_ord_recl big_ord0 /amp !ent_mk //= normr0 normr1 expr0n expr1n addr0 add0r.
have nw : normalised 2 w.
  split=> //; rewrite /norm2 !big_ord_recl big_ord0 /amp !ent_mk //= ger0_norm // AC_rt2 addr0; exact: (@hh AC).
exists X, v, w; split=> //.
have qv : quadratic 2 X v = 0.
  by rewrite /quadratic !big_ord_recl !big_ord0 /amp !ent_mk //= !(mulr0n, mulr1n, conjC0, mul0r, mulr0, addr0, add0r).
have qw : quadratic 2 X w = 1.
  rewrite /quadratic !big_ord_recl !big_ord0 /amp !ent_mk //= !geC0_conj // !(mulr1, mul0r, mulr0, addr0, add0r) -expr2 AC_rt2; exact: (@hh AC).
have n21 : 2%N <> 1%N by [].
have [s [e [-> [_ [ee [s0 [s2 _]]]]]]] := @C62_ket AC 2 X v _ n21 hX nv (densityE (proj1 nv)).
have [s' [e' [-> [_ [ee' [_ [s2' _]]]]]]] := @C62_ket AC 2 X w _ n21 hX nw (densityE (proj1 nw)).
rewrite ee qv in s2 *; rewrite ee' qw in s2' *; split; congr (Ok (_, _)).
  apply/eqP; rewrite -(@eqr_expn2 _ 2) ?ler01 // s2 expr1n; apply/eqP.
  rewrite !big_ord_recl !big_ord0 /applied !big_ord_recl !big_ord0 /amp !ent_mk //=.
  by rewrite !(mulr0n, mulr1n, mul0r, mulr0, mul1r, mulr1, addr0, add0r, subr0, oppr0, normr0, normr1, expr0n, expr1n) /= ?(mulr0n, addr0).
apply/eqP; rewrite -sqrf_eq0 s2'; apply/eqP.
rewrite !big_ord_recl !big_ord0 /applied !big_ord_recl !big_ord0 /amp !ent_mk //=.
by rewrite !(mul0r, mulr0, mul1r, addr0, add0r, subrr, normr0, expr0n) /= ?(mulr0n, addr0).
Qed.

Example C63_ex : exists v : mat AC, normalised 2 v /\ localised 2 v /\ iprKetNB v = Ok 1.
Proof.
have e := @basisE AC 2 1 isT; exists (unit_vec AC 2 1%N).
have nv : normalised 2 (unit_vec AC 2 1%N).
  by split=> //; rewrite /norm2 !big_ord_recl big_ord0 !amp_unit //= /kd /= normr0 normr1 expr0n expr1n addr0 add0r.
have l : localised 2 (unit_vec AC 2 1%N).
  exists 1%N; split=> //; rewrite ?amp_unit // ?normr1 // => -[|[|j]] // _ _; by rewrite amp_unit.
split=> //; split=> //; have [r [-> _ _ h _]] := C63_computational nv; by rewrite (proj2 h l).
Qed.

Example C64_ex : bellName true true "Psi-" /\ bellName false false "00" /\ ~ exists a b, bellName a b "phi+".
Proof. by split; [constructor|split; [constructor|case=> a [b h]; inversion h]]. Qed.

Print Assumptions C62_density.
Print Assumptions C62_ket.
Print Assumptions C62_uncertainty.
Print Assumptions C63_computational.
Print Assumptions C63_basis.
Print Assumptions C63_agree.
Print Assumptions C63_phase.
Print Assumptions C63_zero.
Print Assumptions C63_documented_refuted.
Print Assumptions C64_kets.
Print Assumptions C64_reduced.
Print Assumptions C64_stabilisers.
Print Assumptions C64_circuit.
Print Assumptions C64_unknown_refuted.
