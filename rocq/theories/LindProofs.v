(** One small step of the Lindblad equation keeps positivity.  The step is
    [(1 + u G) rho (1 + u G)^+ + u sum_k r_k c_k rho c_k^+] with
    [G = -iH - 1/2 sum_k r_k c_k^+ c_k]: it is [rho + u L(rho) + u^2 G rho G^+]. *)
From mathcomp Require Import all_ssreflect all_algebra.
From Verif Require Py.
From Verif Require Import CField MatModel MatLib MatSpec ExpmInst EvolSpec EvolProofs StateProofs.
Set Implicit Arguments.
Unset Strict Implicit.
Unset Printing Implicit Defensive.
Import GRing.Theory Num.Theory.
Local Open Scope ring_scope.

Section Lind.
Variable C : numClosedFieldType.
Add Field Cf : (@C_field C).
Ltac cring := cnorm1 C; ring.

(** [A M A^+] *)
Definition sandwich n (A M : nat -> nat -> C) i j : C :=
  \sum_(k < n) \sum_(l < n) A i k * M k l * (A j l)^*.

Lemma bf_sandwich n (A M : nat -> nat -> C) v :
  bf n (sandwich n A M) v v =
  bf n M (fun k => \sum_(i < n) (A i k)^* * v i) (fun k => \sum_(i < n) (A i k)^* * v i).
Proof.
rewrite /bf /sandwich.
transitivity (\sum_(i < n) \sum_(j < n) \sum_(k < n) \sum_(l < n) (v i)^* * (A i k * M k l * (A j l)^*) * v j).
  apply: eq_bigr => i _; apply: eq_bigr => j _; rewrite big_distrr big_distrl /=.
  by apply: eq_bigr => k _; rewrite big_distrr big_distrl.
transitivity (\sum_(k < n) \sum_(l < n) \sum_(i < n) \sum_(j < n) (v i)^* * (A i k * M k l * (A j l)^*) * v j).
  transitivity (\sum_(i < n) \sum_(k < n) \sum_(l < n) \sum_(j < n) (v i)^* * (A i k * M k l * (A j l)^*) * v j).
    apply: eq_bigr => i _; rewrite exchange_big /=; apply: eq_bigr => k _; exact: exchange_big.
  by rewrite exchange_big /=; apply: eq_bigr => k _; exact: exchange_big.
apply: eq_bigr => k _; apply: eq_bigr => l _.
rewrite rmorph_sum /= !big_distrl /=; apply: eq_bigr => i _.
rewrite big_distrr /=; apply: eq_bigr => j _; rewrite rmorphM /= conjCK; cring.
Qed.

Lemma psd_sandwich n (A M : nat -> nat -> C) : psd n M -> psd n (sandwich n A M).
Proof. by move=> h v; rewrite bf_sandwich; apply: h. Qed.

Lemma bf_ext n (M N : nat -> nat -> C) v : (forall i j, (i < n)%N -> (j < n)%N -> M i j = N i j) -> bf n M v v = bf n N v v.
Proof. by move=> h; apply: eq_bigr => i _; apply: eq_bigr => j _; rewrite h. Qed.

Lemma psd_ext n (M N : nat -> nat -> C) : (forall i j, (i < n)%N -> (j < n)%N -> M i j = N i j) -> psd n M -> psd n N.
Proof. by move=> h p v; rewrite -(bf_ext v h); apply: p. Qed.

Lemma psd_add n (M N : nat -> nat -> C) : psd n M -> psd n N -> psd n (fun i j => M i j + N i j).
Proof.
move=> p q v; have -> : bf n (fun i j => M i j + N i j) v v = bf n M v v + bf n N v v.
  rewrite /bf -big_split /=; apply: eq_bigr => i _; rewrite -big_split /=; apply: eq_bigr => j _; cring.
by rewrite addr_ge0 ?p ?q.
Qed.

Lemma psd_scale n (a : C) (M : nat -> nat -> C) : 0 <= a -> psd n M -> psd n (fun i j => a * M i j).
Proof.
move=> h p v; have -> : bf n (fun i j => a * M i j) v v = a * bf n M v v.
  rewrite /bf big_distrr /=; apply: eq_bigr => i _; rewrite big_distrr /=; apply: eq_bigr => j _; cring.
by rewrite mulr_ge0 ?p.
Qed.

Lemma psd_zerof n : psd n (fun _ _ => 0 : C).
Proof. by move=> v; rewrite /bf big1 // => i _; rewrite big1 // => j _; rewrite mulr0 mul0r. Qed.

(** The drift [G]. *)
Definition drift n (H : mat C) (crs : seq (mat C * C)) i k : C :=
  - 'i * ent H i k - (1 / 2%:R) * \sum_(p <- crs) p.2 * (\sum_(l < n) (ent p.1 l i)^* * ent p.1 l k).

Definition jumps n (crs : seq (mat C * C)) (rho : nat -> nat -> C) i j : C :=
  \sum_(p <- crs) p.2 * sandwich n (ent p.1) rho i j.

Lemma lindblad_drift n (H : mat C) (crs : seq (mat C * C)) (rho : mat C) i j : hermitian n H -> (forall r, r \in map snd crs -> r^* = r) ->
  (i < n)%N -> (j < n)%N ->
  lindblad n H crs rho i j =
  \sum_(k < n) drift n H crs i k * ent rho k j + \sum_(k < n) ent rho i k * (drift n H crs j k)^*
  + jumps n crs (ent rho) i j.
Proof.
move=> [_ hH] hr hi hj; rewrite /lindblad /jumps.
elim: crs hr => [|p crs IH] hr.
  rewrite !big_nil !addr0 /hamiltonianPart /prod2.
  have -> : \sum_(k < n) drift n H [::] i k * ent rho k j = - 'i * \sum_(k < n) ent H i k * ent rho k j.
    by rewrite big_distrr /=; apply: eq_bigr => k _; rewrite /drift big_nil mulr0 subr0 mulrA.
  have -> : \sum_(k < n) ent rho i k * (drift n H [::] j k)^* = 'i * \sum_(k < n) ent rho i k * ent H k j.
    rewrite big_distrr /=; apply: eq_bigr => k _.
    by rewrite /drift big_nil mulr0 subr0 rmorphM rmorphN conjCi opprK -hH //; cring.
  by cring.
rewrite !big_cons [LHS]addrCA IH; last by move=> q hq; apply: hr; rewrite map_cons in_cons hq orbT.
have hp : p.2^* = p.2 by apply: hr; rewrite map_cons mem_head.
have e1 a b : drift n H (p :: crs) a b = drift n H crs a b - (1 / 2%:R) * (p.2 * \sum_(l < n) (ent p.1 l a)^* * ent p.1 l b).
  by rewrite /drift big_cons; cring.
have s1 : \sum_(k < n) drift n H (p :: crs) i k * ent rho k j =
   \sum_(k < n) drift n H crs i k * ent rho k j
   - (1 / 2%:R) * (p.2 * \sum_(k < n) \sum_(l < n) (ent p.1 k i)^* * ent p.1 k l * ent rho l j).
  under [LHS]eq_bigr => k _ do rewrite e1 mulrBl.
  rewrite sumrB; congr (_ - _).
  transitivity (\sum_(k < n) \sum_(l < n) (1 / 2%:R) * (p.2 * ((ent p.1 l i)^* * ent p.1 l k * ent rho k j))).
    apply: eq_bigr => k _; rewrite !big_distrr big_distrl /=; apply: eq_bigr => l _; cring.
  rewrite exchange_big /= !big_distrr /=; apply: eq_bigr => l _; rewrite !big_distrr /=; apply: eq_bigr => k _; by [].
have c1 b : (\sum_(l < n) (ent p.1 l j)^* * ent p.1 l b)^* = \sum_(l < n) (ent p.1 l b)^* * ent p.1 l j.
  by rewrite rmorph_sum; apply: eq_bigr => l _; rewrite rmorphM /= conjCK mulrC.
have s2 : \sum_(k < n) ent rho i k * (drift n H (p :: crs) j k)^* =
   \sum_(k < n) ent rho i k * (drift n H crs j k)^*
   - (1 / 2%:R) * (p.2 * \sum_(k < n) \sum_(l < n) ent rho i k * (ent p.1 l k)^* * ent p.1 l j).
  rewrite [LHS](_ : _ = \sum_(k < n) (ent rho i k * (drift n H crs j k)^* -
      (1 / 2%:R) * (p.2 * \sum_(l < n) ent rho i k * (ent p.1 l k)^* * ent p.1 l j))).
    by rewrite sumrB -!big_distrr.
  apply: eq_bigr => k _; rewrite e1 rmorphB !rmorphM /= c1 hp rmorph1 fmorphV rmorph_nat.
  rewrite mulrBr; congr (_ - _).
  have -> : \sum_(l < n) ent rho i k * (ent p.1 l k)^* * ent p.1 l j = ent rho i k * \sum_(l < n) (ent p.1 l k)^* * ent p.1 l j.
    by rewrite big_distrr /=; apply: eq_bigr => l _; rewrite mulrA.
  by cring.
rewrite s1 s2 /dissipation /sandwich.
set X1 := \sum_(k < n) \sum_(l < n) ent p.1 i k * _ * _.
set X2 := \sum_(k < n) \sum_(l < n) (ent p.1 k i)^* * _ * _.
set X3 := \sum_(k < n) \sum_(l < n) ent rho i k * _ * _.
set Y1 := \sum_(k < n) drift _ _ _ _ _ * _; set Y2 := \sum_(k < n) _ * _^*; set Y3 := \sum_(q <- crs) _.
by cring.
Qed.

Lemma sum_id n (f : nat -> C) k : (k < n)%N -> \sum_(i < n) (nat_of_bool (k == i :> nat))%:R * f i = f k.
Proof.
move=> hk; rewrite (bigD1 (Ordinal hk)) //= eqxx mul1r big1 ?addr0 // => i.
by rewrite -val_eqE /= eq_sym => /negbTE ->; rewrite mul0r.
Qed.

(** The step as a sum of two positive parts. *)
Lemma step_psd n (H : mat C) (crs : seq (mat C * C)) (rho : mat C) (u : C) : hermitian n H -> (forall r, r \in map snd crs -> 0 <= r) -> 0 <= u ->
  psd n (ent rho) ->
  psd n (fun i j => ent rho i j + u * lindblad n H crs rho i j + u ^+ 2 * sandwich n (drift n H crs) (ent rho) i j).
Proof.
move=> hH hr hu hp.
have hr' r : r \in map snd crs -> r^* = r by move=> h; apply: geC0_conj; apply: hr.
have cu : u^* = u by exact: geC0_conj.
pose A i k : C := (i == k)%:R + u * drift n H crs i k.
have hJ : psd n (jumps n crs (ent rho)).
  rewrite /jumps; elim: crs hr {hr' A} => [|p crs IH] hr.
    by apply: (psd_ext _ (@psd_zerof n)) => i j _ _; rewrite big_nil.
  apply: (@psd_ext n (fun i j => p.2 * sandwich n (ent p.1) (ent rho) i j + \sum_(q <- crs) q.2 * sandwich n (ent q.1) (ent rho) i j)).
    by move=> i j _ _; rewrite big_cons.
  apply: psd_add; first by apply: psd_scale; [apply: hr; rewrite map_cons mem_head | apply: psd_sandwich].
  by apply: IH => q hq; apply: hr; rewrite map_cons in_cons hq orbT.
apply: (@psd_ext n (fun i j => sandwich n A (ent rho) i j + u * jumps n crs (ent rho) i j)); last first.
  by apply: psd_add; [apply: psd_sandwich | apply: psd_scale].
move=> i j hi hj; rewrite lindblad_drift //.
have -> : sandwich n A (ent rho) i j =
    ent rho i j + u * (\sum_(k < n) drift n H crs i k * ent rho k j)
    + u * (\sum_(k < n) ent rho i k * (drift n H crs j k)^*) + u ^+ 2 * sandwich n (drift n H crs) (ent rho) i j.
  set D := drift n H crs.
  transitivity (\sum_(k < n) A i k * (ent rho k j + u * \sum_(l < n) ent rho k l * (D j l)^*)).
    apply: eq_bigr => k _.
    have -> : ent rho k j = \sum_(l < n) (nat_of_bool (j == l :> nat))%:R * ent rho k l by rewrite (sum_id (ent rho k)).
    rewrite !big_distrr -big_split big_distrr /=; apply: eq_bigr => l _.
    by rewrite /A rmorphD rmorphM /= cu conjC_nat -/D; cring.
  transitivity (\sum_(k < n) ((nat_of_bool (i == k :> nat))%:R * (ent rho k j + u * \sum_(l < n) ent rho k l * (D j l)^*)
     + (u * (D i k * ent rho k j) + u ^+ 2 * (D i k * \sum_(l < n) ent rho k l * (D j l)^*)))).
    by apply: eq_bigr => k _; rewrite /A -/D; cring.
  rewrite !big_split /= (sum_id (fun k => ent rho k j + u * \sum_(l < n) ent rho k l * (D j l)^*)) // -!big_distrr /=.
  have -> : \sum_(k < n) D i k * (\sum_(l < n) ent rho k l * (D j l)^*) = sandwich n D (ent rho) i j.
    by apply: eq_bigr => k _; rewrite big_distrr /=; apply: eq_bigr => l _; rewrite mulrA.
  set S1 := \sum_(k < n) D i k * _; set S2 := \sum_(l < n) _ * _; by cring.
set S1 := \sum_(k < n) drift _ _ _ _ _ * _; set S2 := \sum_(k < n) _ * _^*; by cring.
Qed.

Lemma scale_Mat r c (a : C) (D : 'M[C]_(r, c)) : scalem a (Mat D) = Mat (a *: D).
Proof. by apply: mat_ext => // i j hi hj; rewrite ent_scalem !ent_in !mxE. Qed.
Lemma add_Mat r c (D D' : 'M[C]_(r, c)) : addm (Mat D) (Mat D') = Mat (D + D').
Proof. by apply: mat_ext => // i j hi hj; rewrite ent_addm // !ent_in !mxE. Qed.

(** The super-operator of the second-order part. *)
Definition second n (H : mat C) (crs : seq (mat C * C)) : mat C :=
  let G := mk n n (drift n H crs) in kron (trm (hc G)) G.

Lemma act_second n H crs rho i j : square n rho -> (i < n)%N -> (j < n)%N ->
  act n (second n H crs) rho i j = sandwich n (drift n H crs) (ent rho) i j.
Proof.
move=> hr hi hj; rewrite act_kron // (prod3E _ _ _ _ (n := n)) //; last by case: hr.
apply: eq_bigr => k _; apply: eq_bigr => l _; by rewrite ent_hc !ent_mk.
Qed.

Lemma act_id n rho i j : square n rho -> (i < n)%N -> (j < n)%N -> act n (idm C (n * n)) rho i j = ent rho i j.
Proof.
move=> [r1 r2] hi hj; rewrite /act mul1m /= ?r1 ?r2 // ent_vecm r1 r2 idx_lt // idx_mod // idx_div //.
Qed.

(** The whole step [1 + u t L + u^2 t^2 G.G^+] as a matrix acting on vectors. *)
Lemma step_vec n (H : mat C) (crs : seq (mat C * C)) (DL DK : 'M[C]_(n * n)) (t u : C) (v : 'cV[C]_(n * n)) :
  hermitian n H -> (forall r, r \in map snd crs -> 0 <= r) -> 0 <= t -> 0 <= u ->
  (forall rho i j, square n rho -> (i < n)%N -> (j < n)%N -> act n (Mat DL) rho i j = lindblad n H crs rho i j) ->
  second n H crs = Mat DK ->
  psd n (ent (unvecm n (Mat v))) ->
  psd n (ent (unvecm n (Mat ((1%:M + u *: (t *: DL) + u ^+ 2 *: (t ^+ 2 *: DK)) *m v)))).
Proof.
move=> hH hr ht hu hL hK hp.
set rho := unvecm n (Mat v) in hp *.
have sr : square n rho by [].
have ut : 0 <= u * t by apply: mulr_ge0.
apply: (@psd_ext n _ _ _ (step_psd hH hr ut hp)) => i j hi hj.
have ev : vecm rho = Mat v by rewrite vecK.
set S := 1%:M + _ + _.
have -> : ent (unvecm n (Mat (S *m v))) i j = act n (Mat S) rho i j.
  by rewrite /act ev (mulm_Mat S v) ent_mk.
rewrite /S -!add_Mat -!scale_Mat -idm_Mat !act_add // !act_scale act_id // hL // -hK act_second //.
by rewrite exprMn !mulrA.
Qed.

End Lind.
