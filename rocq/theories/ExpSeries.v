(** The exponential of complex matrices as the sum of its power series, with
    the laws that other files assume of scipy's [expm].  Models no code. *)
From Coq Require Import Reals Lra ClassicalEpsilon.
From mathcomp Require Import all_ssreflect all_algebra.
From mathcomp Require Import complex.
From Verif Require Import RC.
Set Implicit Arguments.
Unset Strict Implicit.
Unset Printing Implicit Defensive.
Import GRing.Theory Num.Theory Order.TTheory.
Local Open Scope ring_scope.

(** * Partial sums, in any algebra over a field *)
Section Partial.
Variables (F : numFieldType) (A : algType F).
Implicit Types (x y : A).

Definition fi (k : nat) : F := (k`!)%:R^-1.
Definition psum (N : nat) x : A := \sum_(0 <= k < N) fi k *: x ^+ k.
Definition pq x y p q : A := (fi p * fi q) *: (x ^+ p * y ^+ q).
Definition rest (N : nat) x y : A := \sum_(0 <= p < N) \sum_(N - p <= q < N) pq x y p q.

Lemma fact_neq0 k : (k`!)%:R != 0 :> F.
Proof. by rewrite pnatr_eq0 -lt0n fact_gt0. Qed.

Lemma triangle N (f : nat -> nat -> A) :
  \sum_(0 <= p < N) \sum_(0 <= q < N - p) f p q = \sum_(0 <= m < N) \sum_(0 <= i < m.+1) f i (m - i)%N.
Proof.
elim: N => [|N IH]; first by rewrite !big_nil.
rewrite [RHS]big_nat_recr //= -IH [in RHS]big_nat_recr //= big_nat_recr //= subSnn big_nat1 subnn.
rewrite addrA; congr (_ + _); rewrite -big_split /=; apply: eq_big_nat => p /andP[_ hp].
by rewrite subSn ?(ltnW hp) // big_nat_recr.
Qed.

Lemma psumM N x y : psum N x * psum N y = \sum_(0 <= p < N) \sum_(0 <= q < N) pq x y p q.
Proof.
rewrite /psum mulr_suml; apply: eq_bigr => p _; rewrite mulr_sumr; apply: eq_bigr => q _.
by rewrite -scalerAl -scalerAr scalerA.
Qed.

Lemma psumD N x y : x * y = y * x ->
  psum N (x + y) = \sum_(0 <= m < N) \sum_(0 <= i < m.+1) pq x y i (m - i)%N.
Proof.
move=> h; apply: eq_big_nat => m _; rewrite addrC exprDn_comm // scaler_sumr big_mkord.
apply: eq_bigr => i _; rewrite /pq -scaler_nat scalerA.
have hi : (i <= m)%N by rewrite -ltnS ltn_ord.
have -> : y ^+ (m - i) * x ^+ i = x ^+ i * y ^+ (m - i) by apply: commrX; apply/commr_sym/commrX.
congr (_ *: _); rewrite /fi -(bin_fact hi) !natrM.
have h1 := fact_neq0 i; have h2 := fact_neq0 (m - i).
have h3 : 'C(m, i)%:R != 0 :> F by rewrite pnatr_eq0 -lt0n bin_gt0.
by rewrite !invfM [LHS]mulrC mulVKf.
Qed.

Lemma psum_rest N x y : x * y = y * x -> psum N x * psum N y - psum N (x + y) = rest N x y.
Proof.
move=> h; rewrite psumM psumD // -triangle -sumrB; apply: eq_bigr => p _.
by rewrite [X in X - _](@big_cat_nat _ _ _ (N - p)) ?leq_subr //= addrC addKr.
Qed.

End Partial.

(** * Absolute values and row sums *)
Local Notation C := RC.
Definition cabs (x : C) : R := complex.Re `|x|.
Lemma cabsE (x : C) : `|x| = (cabs x)%:C%C.
Proof. by rewrite /cabs normc_def. Qed.
Lemma RC_inj (x y : R) : x%:C%C = y%:C%C :> C -> x = y. Proof. by case. Qed.
Lemma RC_le (x y : R) : (x%:C%C <= y%:C%C :> C) = (x <= y).
Proof. by rewrite lecR. Qed.
Lemma cabs_ge0 x : 0 <= cabs x.
Proof. by rewrite -RC_le -cabsE normr_ge0. Qed.
Lemma cabs0 : cabs 0 = 0. Proof. by apply: RC_inj; rewrite -cabsE normr0. Qed.
Lemma cabsD x y : cabs (x + y) <= cabs x + cabs y.
Proof. by rewrite -RC_le rmorphD /= -!cabsE ler_norm_add. Qed.
Lemma cabsM x y : cabs (x * y) = cabs x * cabs y.
Proof. by apply: RC_inj; rewrite rmorphM /= -!cabsE normrM. Qed.
Lemma cabsN x : cabs (- x) = cabs x.
Proof. by rewrite /cabs normrN. Qed.
Lemma cabsB x y : cabs (x - y) = cabs (y - x).
Proof. by rewrite -cabsN opprB. Qed.
Lemma cabs_eq0 x : (cabs x == 0) = (x == 0).
Proof. by rewrite -[RHS]normr_eq0 cabsE -(inj_eq (@RC_inj)). Qed.
Lemma cabs_real (x : R) : 0 <= x -> cabs x%:C%C = x.
Proof. by move=> h; apply: RC_inj; rewrite -cabsE ger0_norm // lecR. Qed.
Lemma cabs_conj x : cabs x^*%C = cabs x.
Proof. by rewrite /cabs normcJ. Qed.
Lemma cabs_sum I (r : seq I) P (f : I -> C) :
  cabs (\sum_(i <- r | P i) f i) <= \sum_(i <- r | P i) cabs (f i).
Proof.
elim/big_rec2: _ => [|i x y _ h]; first by rewrite cabs0.
by apply: (le_trans (cabsD _ _)); rewrite ler_add2l.
Qed.
Lemma cabs_Re (x : C) : `|complex.Re x| <= cabs x.
Proof. by have := normc_ge_Re x; rewrite cabsE lecR. Qed.
Lemma cabs_i : cabs ('i%C : C) = 1.
Proof.
rewrite /cabs normc_def /= expr0n /= add0r expr1n sqrtr1.
by [].
Qed.
Lemma cabs_Im (x : C) : `|complex.Im x| <= cabs x.
Proof.
have := cabs_Re (x * 'i%C); rewrite cabsM.
rewrite cabs_i.
by rewrite mulr1; case: x => a b /=; rewrite !mulr0 mulr1 sub0r normrN.
Qed.
Lemma cabs_ReIm (x : C) : cabs x <= `|complex.Re x| + `|complex.Im x|.
Proof.
case: x => a b /=; have -> : (a +i* b)%C = a%:C%C + 'i%C * b%:C%C :> C.
  apply/eqP; rewrite eq_complex /= !mul0r !mul1r.
  by rewrite subr0 addr0 !add0r !eqxx.
apply: (le_trans (cabsD _ _)); rewrite cabsM cabs_i mul1r; apply: ler_add; rewrite -RC_le -cabsE normc_def /= expr0n addr0 sqrtr_sqr //.
Qed.
Lemma cabs_fi k : cabs (fi C k) = fi [numFieldType of R] k.
Proof.
have -> : fi C k = (fi [numFieldType of R] k)%:C%C by rewrite /fi fmorphV rmorph_nat.
by rewrite cabs_real // invr_ge0 ler0n.
Qed.

(** * Limits *)
Definition cvg (f : nat -> C) (l : C) : Prop :=
  forall e : R, 0 < e -> exists N, forall n, (N <= n)%N -> cabs (f n - l) < e.
(** A sequence of bounds tends to zero. *)
Definition null (f : nat -> R) : Prop :=
  forall e : R, 0 < e -> exists N, forall n, (N <= n)%N -> `|f n| < e.

Lemma cvg_unique f l l' : cvg f l -> cvg f l' -> l = l'.
Proof.
move=> h h'; apply/eqP; rewrite -subr_eq0 -cabs_eq0; apply/negPn/negP => hne.
have hp : 0 < cabs (l - l') / 2%:R by rewrite divr_gt0 ?ltr0n // lt_neqAle eq_sym hne cabs_ge0.
have [N hN] := h _ hp; have [M hM] := h' _ hp.
have h1 := hN (maxn N M) (leq_maxl _ _); have h2 := hM (maxn N M) (leq_maxr _ _).
have : cabs (l - l') < cabs (l - l').
  have e : cabs (l - l') <= cabs (f (maxn N M) - l) + cabs (f (maxn N M) - l').
    rewrite [X in _ <= X + _]cabsB; apply: le_trans (cabsD _ _).
    by rewrite addrA subrK.
  apply: (le_lt_trans e); rewrite [X in _ < X](splitr (cabs (l - l'))).
  by apply: ltr_add.
by rewrite ltxx.
Qed.

Lemma null_cvg f l b : (forall n, cabs (f n - l) <= b n) -> null b -> cvg f l.
Proof.
move=> h hb e he; have [N hN] := hb e he; exists N => n hn.
by apply: (le_lt_trans (h n)); apply: (le_lt_trans (ler_norm _)); apply: hN.
Qed.

Lemma cvg_null f l : cvg f l -> null (fun n => cabs (f n - l)).
Proof. by move=> h e he; have [N hN] := h e he; exists N => n hn; rewrite ger0_norm ?cabs_ge0 // hN. Qed.

Lemma nullD f g : null f -> null g -> null (fun n => f n + g n).
Proof.
move=> hf hg e he; have h2 : 0 < e / 2%:R by rewrite divr_gt0 ?ltr0n.
have [N hN] := hf _ h2; have [M hM] := hg _ h2; exists (maxn N M) => n hn.
apply: (le_lt_trans (ler_norm_add _ _)); rewrite (splitr e); apply: ltr_add.
  by apply: hN; apply: leq_trans hn; apply: leq_maxl.
by apply: hM; apply: leq_trans hn; apply: leq_maxr.
Qed.

Lemma nullM f g (a : R) : null f -> (forall n, `|g n| <= a) -> null (fun n => f n * g n).
Proof.
move=> hf hg e he.
have ha : 0 < a + 1 by rewrite ltr_paddl ?ltr01 //; apply: le_trans (hg 0%N).
have [|N hN] := hf (e / (a + 1)); first by rewrite divr_gt0.
exists N => n hn; rewrite normrM.
have h1 := hN n hn; rewrite ltr_pdivl_mulr // in h1; apply: le_lt_trans h1.
apply: ler_wpmul2l; first exact: normr_ge0.
by apply: (le_trans (hg n)); rewrite ler_addl ler01.
Qed.

Lemma null_le f g : (forall n, `|f n| <= g n) -> null g -> null f.
Proof.
move=> h hg e he; have [N hN] := hg e he; exists N => n hn.
by apply: (le_lt_trans (h n)); apply: le_lt_trans (hN n hn); apply: ler_norm.
Qed.

Lemma cvgC l : cvg (fun=> l) l.
Proof. by move=> e he; exists 0%N => n _; rewrite subrr cabs0. Qed.

Lemma cvg_ext f g l : (forall n, f n = g n) -> cvg f l -> cvg g l.
Proof. by move=> h hf e he; have [N hN] := hf e he; exists N => n hn; rewrite -h hN. Qed.

Lemma cvgD f g l m : cvg f l -> cvg g m -> cvg (fun n => f n + g n) (l + m).
Proof.
move=> hf hg; apply: (@null_cvg _ _ (fun n => cabs (f n - l) + cabs (g n - m))); last first.
  by apply: nullD; apply: cvg_null.
by move=> n; rewrite opprD addrACA; apply: cabsD.
Qed.

Lemma cvgZ f l (a : C) : cvg f l -> cvg (fun n => a * f n) (a * l).
Proof.
move=> hf; apply: (@null_cvg _ _ (fun n => cabs (f n - l) * cabs a)).
  by move=> n; rewrite -mulrBr cabsM mulrC.
by apply: (@nullM _ _ (cabs a)); [apply: cvg_null | move=> n; rewrite ger0_norm ?cabs_ge0].
Qed.

Lemma cvgN f l : cvg f l -> cvg (fun n => - f n) (- l).
Proof.
move=> /(cvgZ (-1)); rewrite mulN1r; apply: cvg_ext => n; by rewrite mulN1r.
Qed.

Lemma cvgB f g l m : cvg f l -> cvg g m -> cvg (fun n => f n - g n) (l - m).
Proof. by move=> hf hg; apply: cvgD => //; apply: cvgN. Qed.

Lemma cvg_sum I (r : seq I) P (f : I -> nat -> C) l :
  (forall i, cvg (f i) (l i)) -> cvg (fun n => \sum_(i <- r | P i) f i n) (\sum_(i <- r | P i) l i).
Proof.
move=> h; elim: r => [|i r IH].
  by rewrite big_nil; apply: (cvg_ext _ (cvgC 0)) => n; rewrite big_nil.
rewrite big_cons; case hP: (P i).
  by apply: (cvg_ext _ (cvgD (h i) IH)) => n; rewrite big_cons hP.
by apply: (cvg_ext _ IH) => n; rewrite big_cons hP.
Qed.

Lemma cvg_conj f l : cvg f l -> cvg (fun n => (f n)^*%C) l^*%C.
Proof.
move=> h e he; have [N hN] := h e he; exists N => n hn.
by rewrite -rmorphB /= cabs_conj hN.
Qed.

Lemma cvg_bounded f l : cvg f l -> exists N, forall n, (N <= n)%N -> cabs (f n) <= cabs l + 1.
Proof.
move=> h; have [N hN] := h 1 ltr01; exists N => n hn.
have -> : f n = (f n - l) + l by rewrite subrK.
by apply: (le_trans (cabsD _ _)); rewrite addrC ler_add2l; apply: ltW; apply: hN.
Qed.

Lemma cvgM f g l m : cvg f l -> cvg g m -> cvg (fun n => f n * g n) (l * m).
Proof.
move=> hf hg; have [N0 hb] := cvg_bounded hg.
have h0 : cvg (fun n => l * (g n - m)) 0.
  by have := cvgZ l (cvgB hg (cvgC m)); rewrite subrr mulr0.
move=> e he; have h2 : 0 < e / 2%:R by rewrite divr_gt0 ?ltr0n.
have hm : 0 < cabs m + 1 by rewrite ltr_paddl ?ltr01 ?cabs_ge0.
have [|N hN] := hf (e / 2%:R / (cabs m + 1)); first by rewrite divr_gt0.
have [M hM] := h0 _ h2.
exists (maxn N0 (maxn N M)) => n; rewrite !geq_max => /and3P[n0 n1 n2].
have -> : f n * g n - l * m = (f n - l) * g n + l * (g n - m).
  by rewrite mulrBl mulrBr addrA subrK.
apply: (le_lt_trans (cabsD _ _)); rewrite [X in _ < X](splitr e); apply: ltr_add.
  rewrite cabsM; have := hN n n1; rewrite ltr_pdivl_mulr // => h; apply: le_lt_trans h.
  by apply: ler_wpmul2l; [apply: cabs_ge0 | apply: hb].
by have := hM n n2; rewrite subr0.
Qed.

(** A non-negative limit. *)
Lemma cvg_ge0 f l : (forall n, 0 <= f n) -> cvg f l -> 0 <= l.
Proof.
move=> h hf.
have hr : l^*%C = l.
  apply: (@cvg_unique (fun n => (f n)^*%C)); first exact: cvg_conj.
  apply: (cvg_ext _ hf) => n; have := h n; rewrite lecE /= => /andP[/eqP hi _].
  by case: (f n) hi => a b /= ->; rewrite oppr0.
have hi : complex.Im l = 0.
  move: hr; case: (l) => a b [] /eqP; rewrite eq_sym -addr_eq0 -mulr2n -mulr_natl mulf_eq0 pnatr_eq0 /=.
  by move/eqP.
rewrite lecE /= hi eqxx /=; rewrite leNgt; apply/negP => hn.
have [|N hN] := hf (- complex.Re l); first by rewrite oppr_gt0.
have := hN N (leqnn _); rewrite ltNge => /negP; apply.
apply: le_trans (cabs_Re _); apply: le_trans (ler_norm _).
have := h N; rewrite lecE /= => /andP[_ h0].
by case: (f N) h0 => a b /= h0; case: (l) => c d /=; rewrite ler_addr.
Qed.

(** Completeness. *)
Lemma cauchy_cvg f :
  (forall e : R, 0 < e -> exists N, forall n m, (N <= n)%N -> (N <= m)%N -> cabs (f n - f m) < e) ->
  exists l, cvg f l.
Proof.
move=> h.
have part (p : C -> R) : (forall x y, p (x - y) = p x - p y) -> (forall x, `|p x| <= cabs x) ->
    exists l : R, null (fun n => p (f n) - l).
  move=> hB hp; have [|l hl] := R_complete (fun n => p (f n)).
    move=> e /RltP he; have [N hN] := h e he; exists N => n m /ssrnat.leP hn /ssrnat.leP hm.
    by apply/RltP; apply: (le_lt_trans _ (hN n m hn hm)); apply: le_trans (hp _); rewrite hB.
  exists l => e /RltP he; have [N hN] := hl e he; exists N => n hn.
  by apply/RltP; apply: hN; apply/ssrnat.leP.
have [|x hx] := part (fun x => complex.Re x) _ cabs_Re; first by move=> x y; rewrite raddfB.
have [|y hy] := part (fun x => complex.Im x) _ cabs_Im; first by move=> ? ?; rewrite raddfB.
exists (x +i* y)%C.
apply: (@null_cvg _ _ (fun n => `|complex.Re (f n) - x| + `|complex.Im (f n) - y|)).
  move=> n; apply: (le_trans (cabs_ReIm _)); rewrite !raddfB /=; exact: lexx.
apply: nullD; [move=> e he; have [N hN] := hx e he | move=> e he; have [N hN] := hy e he];
  by exists N => n hn; rewrite normr_id hN.
Qed.

Definition Clim (f : nat -> C) : C := epsilon (inhabits 0) (cvg f).
Lemma ClimP f : (exists l, cvg f l) -> cvg f (Clim f).
Proof. exact: epsilon_spec. Qed.
Lemma ClimE f l : cvg f l -> Clim f = l.
Proof. by move=> h; apply: (@cvg_unique f) => //; apply: ClimP; exists l. Qed.
