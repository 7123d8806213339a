(** The exponential of complex square matrices: convergence of the power
    series, its laws, and a limit of products.  Models no code. *)
From Coq Require Import Reals Lra.
From mathcomp Require Import all_ssreflect all_algebra.
From mathcomp Require Import complex.
From Verif Require Import RC ExpSeries.
Set Implicit Arguments.
Unset Strict Implicit.
Unset Printing Implicit Defensive.
Import GRing.Theory Num.Theory Order.TTheory.
Local Open Scope ring_scope.
Local Notation C := RC.
Local Notation RF := [numFieldType of R].

(** * The real series *)
Definition bs (N : nat) (a : R) : R := \sum_(0 <= k < N) fi RF k * a ^+ k.

Lemma factE k : Factorial.fact k = k`!.
Proof. by elim: k => //= k ->; rewrite factS mulSn. Qed.

Lemma fi_ge0 k : 0 <= fi RF k. Proof. by rewrite invr_ge0 ler0n. Qed.

Lemma bs_term k a : fi RF k * a ^+ k = Rmult (Rinv (INR (Factorial.fact k))) (pow a k).
Proof. by rewrite RmulE RexpE factE /fi (RinvE (fact_neq0 RF k)) RnatE. Qed.

Lemma bs_sum N a : bs N.+1 a = sum_f_R0 (fun i => Rmult (Rinv (INR (Factorial.fact i))) (pow a i)) N.
Proof.
elim: N => [|N IH]; first by rewrite /bs big_nat1 bs_term.
by rewrite /bs big_nat_recr //= -IH bs_term.
Qed.

Lemma bs_cvg a : null (fun N => bs N a - exp a).
Proof.
move=> e /RltP he; have [N hN] := proj2_sig (exist_exp a) e he.
exists N.+1 => -[//|n] hn; apply/RltP; rewrite RnormE bs_sum; apply: hN; apply/ssrnat.leP; exact: hn.
Qed.

Lemma bs_mono a N M : 0 <= a -> (N <= M)%N -> bs N a <= bs M a.
Proof.
move=> ha hNM; rewrite /bs (@big_cat_nat _ _ _ N 0 M) //= ler_addl.
by apply: sumr_ge0 => k _; rewrite mulr_ge0 ?fi_ge0 ?exprn_ge0.
Qed.

Lemma bs_le a N : 0 <= a -> bs N a <= exp a.
Proof.
move=> ha; rewrite leNgt; apply/negP => h.
have [|M hM] := bs_cvg a (e := bs N a - exp a); first by rewrite subr_gt0.
have := hM (maxn N M) (leq_maxr _ _); rewrite ltNge => /negP; apply.
apply: le_trans (ler_norm _); rewrite ler_add2r; apply: bs_mono => //; exact: leq_maxl.
Qed.

Lemma bs_psum N (a : R) : bs N a = psum N (a : R_numFieldType^o). Proof. by []. Qed.

(** [exp a exp b = exp (a + b)]: the products of partial sums catch up. *)
Lemma bs_prod a b : null (fun N => bs N a * bs N b - bs N (a + b)).
Proof.
have ha := bs_cvg a; have hb := bs_cvg b; have hab := bs_cvg (a + b).
have hB : exists c : R, forall N, `|bs N b| <= c.
  exists (exp `|b|) => N; apply: le_trans (bs_le N (normr_ge0 b)).
  apply: (le_trans (ler_norm_sum _ _ _)); apply: ler_sum => k _.
  by rewrite normrM normrX (ger0_norm (fi_ge0 k)).
case: hB => c hc.
apply: (@null_le _ (fun N => `|(bs N a - exp a) * bs N b| + (`|(bs N b - exp b) * exp a| + `|bs N (a + b) - exp (a + b)|))).
  move=> N.
  have -> : bs N a * bs N b - bs N (a + b) =
     (bs N a - exp a) * bs N b + ((bs N b - exp b) * exp a - (bs N (a + b) - exp (a + b))).
    by rewrite [exp (a + b)]exp_plus; rring.
  apply: (le_trans (ler_norm_add _ _)); rewrite ler_add2l.
  by apply: (le_trans (ler_norm_add _ _)); rewrite normrN.
have nn f : null f -> null (fun N => `|f N|) by move=> h e he; have [N hN] := h e he; exists N => n hn; rewrite normr_id hN.
apply: nullD; first by apply: nn; apply: (nullM ha hc).
apply: nullD; last exact: nn.
by apply: nn; apply: (@nullM _ _ `|exp a| hb) => N.
Qed.

(** * Row sums of matrices *)
Section Mx.
Variable n : nat.
Local Notation M := 'M[C]_n.+1.
Implicit Types (A B : M) (a b : R).

Definition nb A a : Prop := forall i, \sum_j cabs (A i j) <= a.

Lemma nb_le A a b : nb A a -> a <= b -> nb A b.
Proof. by move=> h hab i; apply: le_trans (h i) hab. Qed.
Lemma nb_ge0 A a : nb A a -> 0 <= a.
Proof. by move=> h; apply: le_trans (h ord0); apply: sumr_ge0 => j _; apply: cabs_ge0. Qed.
Lemma nb_ent A a i j : nb A a -> cabs (A i j) <= a.
Proof.
move=> h; apply: le_trans (h i); rewrite (bigD1 j) //= ler_addl.
by apply: sumr_ge0 => k _; apply: cabs_ge0.
Qed.
Lemma nb_ex A : exists a, nb A a.
Proof.
exists (\sum_i \sum_j cabs (A i j)) => i; rewrite [X in _ <= X](bigD1 i) //= ler_addl.
by apply: sumr_ge0 => k _; apply: sumr_ge0 => j _; apply: cabs_ge0.
Qed.
Lemma nb0 : nb 0 0.
Proof. by move=> i; rewrite big1 ?lexx // => j _; rewrite mxE cabs0. Qed.
Lemma cabs1 : cabs 1 = 1.
Proof. by rewrite -[1]/((1 : R)%:C%C) cabs_real ?ler01. Qed.
Lemma nb1 : nb 1 1.
Proof.
move=> i; rewrite (bigD1 i) //= mxE eqxx big1 ?addr0 ?cabs1 ?lexx // => j hj.
by rewrite mxE eq_sym (negbTE hj) cabs0.
Qed.
Lemma nbD A B a b : nb A a -> nb B b -> nb (A + B) (a + b).
Proof.
move=> h1 h2 i; apply: le_trans (ler_add (h1 i) (h2 i)); rewrite -big_split /=.
by apply: ler_sum => j _; rewrite mxE; apply: cabsD.
Qed.
Lemma nbN A a : nb A a -> nb (- A) a.
Proof. by move=> h i; apply: le_trans (h i); apply: ler_sum => j _; rewrite mxE cabsN lexx. Qed.
Lemma nbB A B a b : nb A a -> nb B b -> nb (A - B) (a + b).
Proof. by move=> h1 h2; apply: nbD => //; apply: nbN. Qed.
Lemma nbZ (c : C) A a : nb A a -> nb (c *: A) (cabs c * a).
Proof.
move=> h i; have := ler_wpmul2l (cabs_ge0 c) (h i); apply: le_trans; rewrite mulr_sumr.
by apply: ler_sum => j _; rewrite mxE cabsM lexx.
Qed.
Lemma nbM A B a b : nb A a -> nb B b -> nb (A * B) (a * b).
Proof.
move=> h1 h2 i.
apply: (@le_trans _ _ (\sum_j \sum_k cabs (A i k) * cabs (B k j))).
  apply: ler_sum => j _; rewrite mxE; apply: (le_trans (cabs_sum _ _ _)).
  by apply: ler_sum => k _; rewrite cabsM lexx.
rewrite exchange_big /=; apply: (@le_trans _ _ (\sum_k cabs (A i k) * b)).
  by apply: ler_sum => k _; rewrite -mulr_sumr; apply: ler_wpmul2l; [apply: cabs_ge0 | apply: h2].
by rewrite -mulr_suml; apply: ler_wpmul2r; [apply: nb_ge0 h2 | apply: h1].
Qed.
Lemma nbX A a k : nb A a -> nb (A ^+ k) (a ^+ k).
Proof.
by move=> h; elim: k => [|k IH]; [rewrite !expr0; apply: nb1 | rewrite !exprS; apply: nbM].
Qed.
Lemma nb_sum (I : eqType) (r : seq I) (F : I -> M) (f : I -> R) :
  (forall i, i \in r -> nb (F i) (f i)) -> nb (\sum_(i <- r) F i) (\sum_(i <- r) f i).
Proof.
elim: r => [|i r IH] h; first by rewrite !big_nil; apply: nb0.
rewrite !big_cons; apply: nbD; first by apply: h; rewrite mem_head.
by apply: IH => j hj; apply: h; rewrite in_cons hj orbT.
Qed.

(** * Convergence of matrices, entry by entry *)
Definition mcvg (F : nat -> M) (L : M) : Prop := forall i j, cvg (fun N => F N i j) (L i j).

Lemma mcvg_unique F L L' : mcvg F L -> mcvg F L' -> L = L'.
Proof. by move=> h h'; apply/matrixP => i j; apply: cvg_unique (h i j) (h' i j). Qed.
Lemma mcvg_ext F G L : (forall N, F N = G N) -> mcvg F L -> mcvg G L.
Proof. by move=> e h i j; apply: (cvg_ext _ (h i j)) => N; rewrite e. Qed.
Lemma mcvgC A : mcvg (fun=> A) A. Proof. by move=> i j; apply: cvgC. Qed.
Lemma mcvgD F G L K : mcvg F L -> mcvg G K -> mcvg (fun N => F N + G N) (L + K).
Proof. by move=> h1 h2 i j; rewrite mxE; apply: (cvg_ext _ (cvgD (h1 i j) (h2 i j))) => N; rewrite mxE. Qed.
Lemma mcvgM F G L K : mcvg F L -> mcvg G K -> mcvg (fun N => F N * G N) (L * K).
Proof.
move=> h1 h2 i j; rewrite mxE.
by apply: (cvg_ext _ (cvg_sum (index_enum _) predT (fun k => cvgM (h1 i k) (h2 k j)))) => N; rewrite mxE.
Qed.
Lemma mcvg_nb F L (b : nat -> R) : (forall N, nb (F N - L) (b N)) -> null b -> mcvg F L.
Proof.
move=> h hb i j; apply: (null_cvg _ hb) => N; have := nb_ent i j (h N); by rewrite !mxE.
Qed.
Lemma cvg_shift f l k : cvg f l -> cvg (fun N => f (k + N)%N) l.
Proof.
move=> h e he; have [N hN] := h e he; exists N => m hm.
by apply: hN; apply: (leq_trans hm); apply: leq_addl.
Qed.
Lemma cabs_dist x y : `|cabs x - cabs y| <= cabs (x - y).
Proof.
have h u v : cabs u <= cabs v + cabs (u - v) by rewrite addrC -{1}[u](subrK v); apply: cabsD.
rewrite ler_norml; apply/andP; split; last by rewrite ler_subl_addl; apply: h.
by rewrite ler_oppl opprB ler_subl_addl cabsB; apply: h.
Qed.
Lemma cvg_cabs f l : cvg f l -> cvg (fun N => (cabs (f N))%:C%C) (cabs l)%:C%C.
Proof.
move=> h; apply: (@null_cvg _ _ (fun N => cabs (f N - l))); last exact: cvg_null.
move=> N; rewrite -rmorphB /=; apply: le_trans (cabs_dist _ _).
by rewrite -RC_le -cabsE normc_def /= expr0n addr0 sqrtr_sqr.
Qed.
Lemma mcvg_bound F L a k : mcvg F L -> (forall N, (k <= N)%N -> nb (F N) a) -> nb L a.
Proof.
move=> h hb i; rewrite -subr_ge0 -RC_le.
have hl : cvg (fun N => a%:C%C - \sum_j (cabs (F (k + N)%N i j))%:C%C) (a%:C%C - \sum_j (cabs (L i j))%:C%C).
  by apply: cvgB; [apply: cvgC | apply: cvg_sum => j; apply: cvg_cabs; apply: (cvg_shift k (h i j))].
rewrite rmorphB rmorph_sum; apply: (cvg_ge0 _ hl) => N.
by rewrite -rmorph_sum -rmorphB -[0]/((0 : R)%:C%C) RC_le subr_ge0; apply: hb; apply: leq_addr.
Qed.

(** * The exponential *)
Definition mexp A : M := \matrix_(i, j) Clim (fun N => psum N A i j).

Lemma nb_psum A a k N : nb A a -> (k <= N)%N -> nb (psum N A - psum k A) (bs N a - bs k a).
Proof.
move=> h hk.
have -> : psum N A - psum k A = \sum_(k <= i < N) fi C i *: A ^+ i.
  by rewrite /psum (@big_cat_nat _ _ _ k 0 N) //= addrC addKr.
rewrite [X in nb _ X](_ : _ = \sum_(k <= i < N) fi RF i * a ^+ i); last first.
  by rewrite /bs (@big_cat_nat _ _ _ k 0 N) //=; rring.
by apply: nb_sum => i _; rewrite -cabs_fi; apply: nbZ; apply: nbX.
Qed.

Lemma mexp_cvg A : mcvg (fun N => psum N A) (mexp A).
Proof.
move=> i j; rewrite mxE; apply: ClimP; apply: cauchy_cvg => e he.
have [a ha] := nb_ex A.
have [|N hN] := bs_cvg a (e := e / 2%:R); first by rewrite divr_gt0 ?ltr0n.
have key p q : (N <= p)%N -> (p <= q)%N -> cabs (psum q A i j - psum p A i j) < e.
  move=> hp hpq; have := nb_ent i j (nb_psum ha hpq); rewrite !mxE => h; apply: (le_lt_trans h).
  have -> : bs q a - bs p a = (bs q a - exp a) - (bs p a - exp a) by rewrite opprB addrA subrK.
  apply: (le_lt_trans (ler_norm _)); apply: (le_lt_trans (ler_norm_sub _ _)); rewrite (splitr e).
  by apply: ltr_add; apply: hN => //; apply: leq_trans hpq.
exists N => p q hp hq; case: (leqP p q) => h; last by apply: key => //; apply: ltnW.
by rewrite cabsB; apply: key.
Qed.

Lemma nb_mexp_rest A a k : nb A a -> nb (mexp A - psum k A) (exp a - bs k a).
Proof.
move=> h; have h0 := nb_ge0 h.
apply: (@mcvg_bound (fun N => psum N A - psum k A) _ _ k).
  by apply: mcvgD; [apply: mexp_cvg | apply: mcvgC].
by move=> N hN; apply: (nb_le (nb_psum h hN)); rewrite ler_add2r bs_le.
Qed.

Lemma mexpE A L : mcvg (fun N => psum N A) L -> mexp A = L.
Proof. exact/mcvg_unique/mexp_cvg. Qed.

Lemma mexpD A B : A * B = B * A -> mexp (A + B) = mexp A * mexp B.
Proof.
move=> hAB; have [a ha] := nb_ex A; have [b hb] := nb_ex B.
have a0 := nb_ge0 ha; have b0 := nb_ge0 hb.
have hM := mcvgM (mexp_cvg A) (mexp_cvg B).
apply: mexpE => i j; have h1 := hM i j.
have h2 : cvg (fun N => rest N A B i j) 0.
  apply: (null_cvg _ (bs_prod a b)) => N; rewrite subr0.
  have -> : bs N a * bs N b - bs N (a + b) = \sum_(0 <= p < N) \sum_(N - p <= q < N) (fi RF p * fi RF q) * (a ^+ p * b ^+ q).
    by have := @psum_rest _ [algType R of R_numFieldType^o] N a b (mulrC _ _); rewrite -!bs_psum => ->.
  apply: nb_ent; apply: nb_sum => p _; apply: nb_sum => q _.
  by rewrite -!cabs_fi -cabsM; apply: nbZ; apply: nbM; apply: nbX.
have := cvgB h1 h2; rewrite subr0; apply: cvg_ext => N.
have -> : rest N A B i j = (psum N A * psum N B) i j - psum N (A + B) i j.
  by rewrite -psum_rest // [LHS]mxE; congr (_ + _); rewrite mxE.
by rewrite opprB addrC subrK.
Qed.

Lemma psum0 N : psum N.+1 (0 : M) = 1.
Proof.
rewrite /psum big_nat_recl //= expr0 /fi fact0 invr1 scale1r big1 ?addr0 // => k _.
by rewrite exprS mul0r scaler0.
Qed.
Lemma mexp0 : mexp 0 = 1.
Proof.
apply: mexpE => i j e he; exists 1%N => -[//|N] _; by rewrite psum0 subrr cabs0.
Qed.
Lemma mexpN A : mexp A * mexp (- A) = 1.
Proof. by rewrite -mexpD ?subrr ?mexp0 // mulrN mulNr. Qed.

Lemma mexpX A N : mexp (N%:R *: A) = mexp A ^+ N.
Proof.
elim: N => [|N IH]; first by rewrite scale0r mexp0 expr0.
rewrite exprS -IH -mexpD; last by rewrite -scalerAl -scalerAr.
by rewrite -[N.+1]addn1 natrD scalerDl scale1r addrC.
Qed.

Lemma mexp_similar A P Q : P * Q = 1 -> Q * P = 1 -> mexp (P * A * Q) = P * mexp A * Q.
Proof.
move=> h1 h2; apply: mexpE; apply: mcvg_ext (mcvgM (mcvgM (mcvgC P) (mexp_cvg A)) (mcvgC Q)) => N.
rewrite /psum mulr_sumr mulr_suml; apply: eq_bigr => k _.
rewrite -scalerAr -scalerAl; congr (_ *: _).
elim: k => [|k IH]; first by rewrite !expr0 mulr1 h1.
by rewrite [in RHS]exprS -IH exprS !mulrA -[_ * Q * P]mulrA h2 mulr1.
Qed.

Lemma mexp_map A : mexp (map_mx (fun x : C => x^*%C) A) = map_mx (fun x : C => x^*%C) (mexp A).
Proof.
apply: mexpE => i j; rewrite mxE; apply: (cvg_ext _ (cvg_conj (mexp_cvg A i j))) => N.
rewrite /psum !summxE rmorph_sum; apply: eq_bigr => k _; rewrite !mxE rmorphM /=.
have -> : (fi C k)^*%C = fi C k by rewrite /fi conjc_inv conjc_nat.
by rewrite -[map_mx _ A]/(map_mx (@conjc_rmorphism R_rcfType) A) -rmorphX mxE.
Qed.

Lemma mexp_tr A : mexp A^T = (mexp A)^T.
Proof.
apply: mexpE => i j; rewrite mxE; apply: (cvg_ext _ (mexp_cvg A j i)) => N.
rewrite /psum !summxE; apply: eq_bigr => k _; rewrite !mxE; congr (_ * _).
have -> : A^T ^+ k = (A ^+ k)^T.
  by elim: k => [|k IH]; [rewrite !expr0 trmx1 | rewrite exprS IH exprSr; apply/esym/trmx_mul].
by rewrite mxE.
Qed.

(** A row with [w A = 0] is left unchanged. *)
Lemma mexp_comm A B : B * A = A * B -> B * mexp A = mexp A * B.
Proof.
move=> h; apply: (@mcvg_unique (fun N => B * psum N A)); first by apply: mcvgM; [apply: mcvgC | apply: mexp_cvg].
apply: (@mcvg_ext (fun N => psum N A * B)); last by apply: mcvgM; [apply: mexp_cvg | apply: mcvgC].
move=> N; rewrite /psum mulr_sumr mulr_suml; apply: eq_bigr => k _.
by rewrite -scalerAl -scalerAr; congr (_ *: _); apply: esym; apply: commrX.
Qed.

Lemma mexp_fix A (w : 'rV[C]_n.+1) : w *m A = 0 -> w *m mexp A = w.
Proof.
move=> h; apply/rowP => j; rewrite mxE; apply: (@cvg_unique (fun N => (w *m psum N A) 0 j)).
  apply: (cvg_ext _ (cvg_sum (index_enum _) predT (fun k => cvgM (cvgC (w 0 k)) (mexp_cvg A k j)))) => N.
  by rewrite mxE.
move=> e he; exists 1%N => -[//|N] _.
rewrite /psum big_nat_recl //= expr0 /fi fact0 invr1 scale1r mulmxDr mulmx1 mulmx_sumr big1 ?addr0 ?subrr ?cabs0 // => k _.
by rewrite -scalemxAr exprS mulmxA h mul0mx scaler0.
Qed.

(** * The exponential as a limit of products
    When [1 + X/N + Y/N^2] keeps a closed set of vectors for every [N], so does
    the exponential of [X]. *)
Lemma nb_exp1 A a : nb A a -> nb (mexp A - (1 + A)) (a ^+ 2 * exp a).
Proof.
move=> h; have h0 := nb_ge0 h.
have -> : 1 + A = psum 2 A.
  by rewrite /psum big_nat_recr //= big_nat1 expr0 expr1 /fi fact0 factS fact0 muln1 invr1 !scale1r.
apply: (nb_le (nb_mexp_rest 2 h)).
rewrite leNgt; apply/negP => hlt.
set d := exp a - bs 2 a - a ^+ 2 * exp a; have hd : 0 < d by rewrite subr_gt0.
have [N hN] := bs_cvg a hd; have := hN N.+2; rewrite leqW // => /(_ isT).
rewrite ltNge => /negP; apply; rewrite distrC.
apply: le_trans (ler_norm _); rewrite /d -addrA -opprD ler_add2l ler_opp2.
have -> : bs N.+2 a = bs 2 a + \sum_(0 <= k < N) fi RF k.+2 * a ^+ k.+2.
  rewrite /bs (@big_cat_nat _ _ _ 2 0 N.+2) //=; congr (_ + _).
  by rewrite (big_addn 0 N.+2 2) subn2 /=; apply: eq_bigr => k _; rewrite addn2.
rewrite ler_add2l.
apply: (@le_trans _ _ (a ^+ 2 * bs N a)); last by apply: ler_wpmul2l; [rewrite exprn_ge0 | apply: bs_le].
rewrite /bs mulr_sumr; apply: ler_sum => k _; rewrite [X in _ <= X]mulrCA -exprD add2n.
apply: ler_wpmul2r; first by rewrite exprn_ge0.
rewrite /fi lef_pinv ?posrE ?ltr0n ?fact_gt0 // ler_nat.
by rewrite !factS mulnA leq_pmull.
Qed.

Lemma nb_powB A B m e N : 0 <= e -> nb A m -> nb B m -> nb (A - B) e ->
  nb (A ^+ N - B ^+ N) (N%:R * m ^+ N.-1 * e).
Proof.
move=> he hA hB hAB; have hm := nb_ge0 hA; elim: N => [|N IH].
  by rewrite !expr0 subrr !mul0r; apply: nb0.
have -> : A ^+ N.+1 - B ^+ N.+1 = A * (A ^+ N - B ^+ N) + (A - B) * B ^+ N.
  by rewrite !exprS mulrBr mulrBl addrA subrK.
apply: (nb_le (nbD (nbM hA IH) (nbM hAB (nbX N hB)))).
rewrite -addn1 natrD !mulrDl mul1r addn1 /= [e * _]mulrC ler_add2r.
case: N {IH} => [|N] /=; first by rewrite !mul0r mulr0 lexx.
by rewrite exprS !mulrA [m * _]mulrC lexx.
Qed.

Definition ui (N : nat) : R := N.+1%:R^-1.
Lemma ui_ge0 N : 0 <= ui N. Proof. by rewrite invr_ge0 ler0n. Qed.
Lemma ui_le1 N : ui N <= 1.
Proof. by rewrite /ui invf_le1 ?ltr0n // ler1n. Qed.
Lemma uiN N : N.+1%:R * ui N = 1.
Proof. by rewrite divff // pnatr_eq0. Qed.
Lemma ui_null : null ui.
Proof.
move=> e he; exists (Num.bound e^-1) => N hN; rewrite ger0_norm ?ui_ge0 // /ui.
rewrite -[e]invrK ltf_pinv ?posrE ?ltr0n ?invr_gt0 //.
apply: (@lt_le_trans _ _ (Num.bound e^-1)%:R); last by rewrite ler_nat leqW.
by apply: archi_boundP; rewrite invr_ge0 ltW.
Qed.

Lemma exp1p (u : R) : 0 <= u -> 1 + u <= exp u.
Proof.
move=> h; have := bs_le 2 h; rewrite /bs big_nat_recr //= big_nat1 expr0 expr1 /fi fact0 factS fact0 muln1.
by rewrite invr1 !mul1r.
Qed.

Lemma expX (u : R) N : exp (N%:R * u) = exp u ^+ N.
Proof.
elim: N => [|N IH]; first by rewrite mul0r expr0 -[0]/R0 exp_0.
by rewrite -[N.+1]addn1 natrD mulrDl mul1r [LHS]exp_plus -RmulE IH addn1 exprSr.
Qed.

Lemma exp_mono (u v : R) : u <= v -> exp u <= exp v.
Proof.
rewrite le_eqVlt => /orP[/eqP ->|/RltP h]; first exact: lexx.
by apply: ltW; apply/RltP; apply: exp_increasing.
Qed.

Definition kstep (X Y : M) (N : nat) : M := 1 + (ui N)%:C%C *: X + ((ui N) ^+ 2)%:C%C *: Y.

Lemma mexp_limit X Y : mcvg (fun N => kstep X Y N ^+ N.+1) (mexp X).
Proof.
have [x hx] := nb_ex X; have [y hy] := nb_ex Y; have x0 := nb_ge0 hx; have y0 := nb_ge0 hy.
set c := x ^+ 2 * exp x + y; set z := x + c.
have c0 : 0 <= c by rewrite addr_ge0 // mulr_ge0 ?exprn_ge0 //; apply/RleP/Rlt_le/exp_pos.
have z0 : 0 <= z by rewrite addr_ge0.
apply: (@mcvg_nb _ _ (fun N => ui N * (exp z * c))); last first.
  by apply: (nullM ui_null) => N; apply: lexx.
move=> N; set u := ui N; have u0 : 0 <= u := ui_ge0 N; have u1 : u <= 1 := ui_le1 N.
have cu (w : R) : 0 <= w -> cabs w%:C%C = w by exact: cabs_real.
have huX : nb (u%:C%C *: X) (u * x) by have := nbZ u%:C%C hx; rewrite cu.
have huY : nb ((u ^+ 2)%:C%C *: Y) (u ^+ 2 * y) by have := nbZ (u ^+ 2)%:C%C hy; rewrite cu ?exprn_ge0.
set E := mexp (u%:C%C *: X).
have -> : mexp X = E ^+ N.+1.
  rewrite /E -mexpX scalerA; have -> : N.+1%:R * u%:C%C = 1 :> C.
    have -> : N.+1%:R = (N.+1%:R : R)%:C%C :> C by rewrite rmorph_nat.
    by rewrite -rmorphM /= uiN.
  by rewrite scale1r.
have uu : u ^+ 2 <= u by rewrite expr2 -[X in _ <= X]mulr1; apply: ler_wpmul2l.
have hE1 := nb_exp1 huX.
have hb : (u * x) ^+ 2 * exp (u * x) <= u ^+ 2 * (x ^+ 2 * exp x).
  rewrite exprMn -mulrA; apply: ler_wpmul2l; first by rewrite exprn_ge0.
  apply: ler_wpmul2l; first by rewrite exprn_ge0.
  by apply: exp_mono; rewrite -[X in _ <= X]mul1r; apply: ler_wpmul2r.
have e0 : 0 <= x ^+ 2 * exp x by rewrite mulr_ge0 ?exprn_ge0 //; apply/RleP/Rlt_le/exp_pos.
have hK : nb (kstep X Y N) (1 + u * z).
  have h : nb (kstep X Y N) _ := nbD (nbD nb1 huX) huY; apply: (nb_le h); rewrite -addrA ler_add2l /z mulrDr ler_add2l.
  apply: (@le_trans _ _ (u * y)); first by apply: ler_wpmul2r.
  by apply: ler_wpmul2l => //; rewrite /c ler_addr.
have hE : nb E (1 + u * z).
  have := nbD hE1 (nbD nb1 huX); rewrite subrK => h; apply: (nb_le h).
  rewrite addrCA ler_add2l addrC /z mulrDr ler_add2l; apply: (le_trans hb).
  apply: (@le_trans _ _ (u * (x ^+ 2 * exp x))); first by apply: ler_wpmul2r.
  by apply: ler_wpmul2l => //; rewrite /c ler_addl.
have hEK : nb (kstep X Y N - E) (u ^+ 2 * c).
  have := nbD (nbN hE1) huY.
  have -> : - (E - (1 + u%:C%C *: X)) + (u ^+ 2)%:C%C *: Y = kstep X Y N - E.
    by rewrite opprB addrAC.
  by move=> h; apply: (nb_le h); rewrite /c mulrDr ler_add2r.
have m0 : 0 <= u ^+ 2 * c by rewrite mulr_ge0 ?exprn_ge0.
apply: (nb_le (nb_powB N.+1 m0 hK hE hEK)) => /=.
have hm : (1 + u * z) ^+ N <= exp z.
  have uz : 0 <= u * z by rewrite mulr_ge0.
  apply: (@le_trans _ _ ((1 + u * z) ^+ N.+1)).
    rewrite exprSr -[X in X <= _]mulr1; apply: ler_wpmul2l; last by rewrite ler_addl.
    by rewrite exprn_ge0 // addr_ge0 // ler01.
  have -> : exp z = exp (u * z) ^+ N.+1 by rewrite -expX mulrA uiN mul1r.
  by apply: ler_expn2r; rewrite ?nnegrE ?addr_ge0 ?ler01 //; [apply/RleP/Rlt_le/exp_pos | apply: exp1p].
have -> : N.+1%:R * (1 + u * z) ^+ N * (u ^+ 2 * c) = u * ((1 + u * z) ^+ N * c) * (N.+1%:R * u).
  by rewrite expr2; rring.
rewrite uiN mulr1; apply: ler_wpmul2l => //.
by apply: ler_wpmul2r.
Qed.

Lemma mexp_preserves X Y (P : 'cV[C]_n.+1 -> Prop) :
  (forall N v, P v -> P (kstep X Y N *m v)) ->
  (forall (f : nat -> 'cV[C]_n.+1) (l : 'cV[C]_n.+1), (forall N, P (f N)) -> (forall i, cvg (fun N => f N i 0) (l i 0)) -> P l) ->
  forall v, P v -> P (mexp X *m v).
Proof.
move=> hK hcl v hv; apply: (hcl (fun N => kstep X Y N ^+ N.+1 *m v)).
  move=> N; elim: N.+1 => [|k IH]; first by rewrite expr0 mul1mx.
  by rewrite exprS -[_ * _]/(_ *m _) -mulmxA; apply: hK.
move=> i; rewrite mxE.
apply: (cvg_ext _ (cvg_sum (index_enum _) predT (fun k => cvgM (mexp_limit X Y i k) (cvgC (v k 0))))) => N.
by rewrite mxE.
Qed.

End Mx.
