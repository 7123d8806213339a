(** The recurrences of the Wigner functions of [|m><n|], and the loops that use
    them. *)
From mathcomp Require Import all_ssreflect all_algebra.
From Verif Require Py.
From Verif Require Import MatModel OperModel StateModel PhaseModel MatLib MatSpec MatProofs StateSpec StateProofs CField PhaseSpec.
Set Implicit Arguments.
Unset Strict Implicit.
Unset Printing Implicit Defensive.
Import Order.TTheory GRing.Theory Num.Theory.
Local Open Scope ring_scope.

Section Rec.
Variable C : numClosedFieldType.
Add Field Cphase : (@C_field C).
Ltac cring := cnorm1 C; ring.
Implicit Types x y : C.

(** [x^(n-k)/(n-k)!], zero for [k > n] *)
Definition dp x (n k : nat) : C := if (k <= n)%N then x ^+ (n - k) / ((n - k)`!)%:R else 0.
Lemma factC n : (n`!)%:R != 0 :> C. Proof. by rewrite pnatr_eq0 -lt0n fact_gt0. Qed.
Lemma dpS x n k : dp x n.+1 k.+1 = dp x n k. Proof. by rewrite /dp ltnS subSS. Qed.
Lemma dp_rec x n k : n.+1%:R * dp x n.+1 k = x * dp x n k + k%:R * dp x n.+1 k.
Proof.
rewrite /dp; case: (ltngtP k n.+1) => h.
- have hk : (k <= n)%N by rewrite -ltnS.
  rewrite hk subSn // factS natrM -{1}(subnK (leqW hk)) natrD mulrDl subSn //; congr (_ + _).
  have h1 : ((n - k).+1%:R : C) != 0 by rewrite pnatr_eq0.
  by rewrite exprS -mulf_div [LHS]mulrA [(n - k).+1%:R * _]mulrC divfK.
- by rewrite !mulr0 leqNgt (ltnW h) /= mulr0 addr0.
- by rewrite h ltnn mulr0 add0r.
Qed.

(** The polynomials without the square roots. *)
Definition up x y m n : C := \sum_(k < m.+1) (-1) ^+ k / (k`!)%:R * (dp x n k * dp y m k).
Lemma up_wide K x y m n : (m < K)%N -> up x y m n = \sum_(k < K) (-1) ^+ k / (k`!)%:R * (dp x n k * dp y m k).
Proof.
move=> h; rewrite /up (big_ord_widen _ (fun k => (-1) ^+ k / (k`!)%:R * (dp x n k * dp y m k)) h) [LHS]big_mkcond.
by apply: eq_bigr => k _; case: ifP => // /negbT; rewrite -leqNgt => hk; rewrite {2}/dp leqNgt hk /= !mulr0.
Qed.
Lemma up_min x y m n : up x y m n = \sum_(k < (minn m n).+1) (-1) ^+ k / (k`!)%:R * (dp x n k * dp y m k).
Proof.
have h : ((minn m n).+1 <= m.+1)%N by rewrite ltnS geq_minl.
rewrite (big_ord_widen _ (fun k => (-1) ^+ k / (k`!)%:R * (dp x n k * dp y m k)) h) [RHS]big_mkcond.
apply: eq_bigr => k _; case: ifP => // /negbT; rewrite ltnS leq_min -ltnS ltn_ord /= => hk.
by rewrite {1}/dp (negbTE hk) mul0r mulr0.
Qed.
Lemma up_sum K x y m n : \sum_(k < K) (-1) ^+ k / (k`!)%:R * (n.+1%:R * dp x n.+1 k * dp y m k) =
  x * (\sum_(k < K) (-1) ^+ k / (k`!)%:R * (dp x n k * dp y m k)) +
  (\sum_(k < K) (-1) ^+ k / (k`!)%:R * (k%:R * dp x n.+1 k * dp y m k)).
Proof.
rewrite mulr_sumr -big_split /=; apply: eq_bigr => k _.
by rewrite dp_rec mulrDl mulrDr -[x * _ * _]mulrA [_ * (x * _)]mulrCA.
Qed.
Lemma up_scale K c x y m n : c * (\sum_(k < K) (-1) ^+ k / (k`!)%:R * (dp x n k * dp y m k)) =
  \sum_(k < K) (-1) ^+ k / (k`!)%:R * (c * dp x n k * dp y m k).
Proof. by rewrite mulr_sumr; apply: eq_bigr => k _; rewrite mulrCA [c * (_ * _)]mulrA. Qed.
Lemma up_rec0 x y n : n.+1%:R * up x y 0 n.+1 = x * up x y 0 n.
Proof. by rewrite /up up_scale up_sum big_ord1 [in X in _ + X]big_ord1 !mul0r mulr0 addr0. Qed.
Lemma up_rec x y m n : n.+1%:R * up x y m.+1 n.+1 = x * up x y m.+1 n - up x y m n.
Proof.
rewrite /up up_scale up_sum; congr (_ + _); rewrite big_ord_recl /= !mul0r mulr0 add0r -sumrN.
apply: eq_bigr => k _; rewrite /bump /= add1n !dpS exprS mulN1r factS natrM invfM.
have h : (k.+1%:R : C) != 0 by rewrite pnatr_eq0.
rewrite !mulNr; congr (- _); rewrite -!mulrA; congr (_ * _); rewrite mulrCA; congr (_ * _).
by rewrite mulKf.
Qed.
(** The same in the other index. *)
Lemma up_sym x y m n : up x y m n = up y x n m.
Proof.
rewrite (@up_wide (m + n).+1) ?ltnS ?leq_addr // [RHS](@up_wide (m + n).+1) ?ltnS ?leq_addl //.
by apply: eq_bigr => k _; rewrite [dp x n k * _]mulrC.
Qed.
Lemma up_rec' x y m n : m.+1%:R * up x y m.+1 n.+1 = y * up x y m n.+1 - up x y m n.
Proof. by rewrite up_sym up_rec !(up_sym x y). Qed.

(** ** The Wigner functions of [|m><n|] *)
Section Elem.
Variables (w0 a : C).
Definition rt n : C := sqrtC (n`!)%:R.
Definition sq n : C := sqrtC n%:R.
Definition w m n : C := w0 * (rt m * rt n * up (2%:R * a) (2%:R * a^*) m n).
Lemma rtS n : rt n.+1 = sq n.+1 * rt n. Proof. by rewrite /rt factS natrM sqrtCM // nnegrE ler0n. Qed.
Lemma sqsq n : sq n * sq n = n%:R. Proof. by rewrite -expr2 sqrtCK. Qed.
Lemma sqN0 n : sq n.+1 != 0. Proof. by rewrite sqrtC_eq0 pnatr_eq0. Qed.

Lemma w_first n : w 0 n.+1 = 2%:R * a * w 0 n / sq n.+1.
Proof.
apply: (mulIf (sqN0 n)); rewrite divfK ?sqN0 // /w rtS.
transitivity (w0 * (rt 0 * rt n * (n.+1%:R * up (2%:R * a) (2%:R * a^*) 0 n.+1))); first by rewrite -(sqsq n.+1); cring.
by rewrite up_rec0; cring.
Qed.
Lemma w_inner m n : w m.+1 n.+1 = (2%:R * a * w m.+1 n - sq m.+1 * w m n) / sq n.+1.
Proof.
apply: (mulIf (sqN0 n)); rewrite divfK ?sqN0 // /w !rtS.
transitivity (w0 * (sq m.+1 * rt m * rt n * (n.+1%:R * up (2%:R * a) (2%:R * a^*) m.+1 n.+1))); first by rewrite -(sqsq n.+1); cring.
by rewrite up_rec; cring.
Qed.
Lemma w_diag m : w m.+1 m.+1 = (2%:R * a^* * w m m.+1 - sq m.+1 * w m m) / sq m.+1.
Proof.
apply: (mulIf (sqN0 m)); rewrite divfK ?sqN0 // /w !rtS.
transitivity (w0 * (sq m.+1 * rt m * rt m * (m.+1%:R * up (2%:R * a) (2%:R * a^*) m.+1 m.+1))); first by rewrite -(sqsq m.+1); cring.
by rewrite up_rec'; cring.
Qed.
Lemma w00 : w 0 0 = w0.
Proof. by rewrite /w /up big_ord1 /dp /= /rt fact0 sqrtC1 !expr0 !divr1 !mulr1. Qed.

Section Loops.
Variables (rho : mat C) (M : nat).
Local Notation term m n := (2%:R * 'Re (ent rho m n * w m n)).

Lemma first_inv k b l W : (0 < b)%N -> (forall j, (j < b)%N -> l`_j = w 0 j) ->
  let s := foldl (wFirst rho a) (l, W) (iota b k) in
  (forall j, (j < b + k)%N -> s.1`_j = w 0 j) /\ s.2 = W + \sum_(n <- iota b k) term 0 n.
Proof.
elim: k b l W => [|k IH] b l W hb hl /=; first by rewrite addn0 big_nil addr0.
have ex : 2%:R * a * l`_b.-1 / sqrtC b%:R = w 0 b.
  by case: b hb hl => // b _ hl; rewrite w_first hl.
rewrite /wFirst /= ex; have [|h1 h2] := IH b.+1 (wset l b (w 0 b)) (W + term 0 b) isT.
  move=> j; rewrite ltnS leq_eqVlt nth_set_nth /= => /orP[/eqP ->|hj]; first by rewrite eqxx.
  by rewrite (ltn_eqF hj) hl.
split; first by move=> j; rewrite addnS -addSn; apply: h1.
by rewrite h2 big_cons addrA.
Qed.

Lemma inner_inv m k b l W temp : (m.+1 < b)%N -> (b + k <= M)%N ->
  (forall j, (m < j < b)%N -> l`_j = w m.+1 j) -> (forall j, (b <= j < M)%N -> l`_j = w m j) -> temp = w m b.-1 ->
  let s := foldl (wInner rho a m.+1) (l, W, temp) (iota b k) in
  (forall j, (m < j < b + k)%N -> s.1.1`_j = w m.+1 j) /\ s.1.2 = W + \sum_(n <- iota b k) term m.+1 n.
Proof.
elim: k b l W temp => [|k IH] b l W temp hb hM hl hl' ht /=; first by rewrite addn0 big_nil addr0.
have ex : (2%:R * a * l`_b.-1 - sqrtC m.+1%:R * temp) / sqrtC b%:R = w m.+1 b.
  by case: b hb hM hl hl' ht => // b hb hM hl hl' ->; rewrite w_inner hl // ltnSn andbT -ltnS.
rewrite ex; have [||j hj|j hj||h1 h2] := IH b.+1 (wset l b (w m.+1 b)) (W + term m.+1 b) l`_b.
- exact: ltnW.
- by rewrite addSn -addnS.
- move/andP: hj => [hj1]; rewrite ltnS leq_eqVlt nth_set_nth /= => /orP[/eqP ->|hj]; first by rewrite eqxx.
  by rewrite (ltn_eqF hj) hl // hj1.
- move/andP: hj => [hj1 hj2]; rewrite nth_set_nth /= (gtn_eqF hj1) hl' // hj2 ltnW //.
- by rewrite hl' // leqnn /=; apply: leq_trans hM; rewrite addnS ltnS leq_addr.
split; first by move=> j; rewrite addnS -addSn; apply: h1.
by rewrite h2 big_cons addrA.
Qed.

Lemma outer_step m l W : (m.+1 < M)%N -> (forall j, (m <= j < M)%N -> l`_j = w m j) ->
  let s := wOuter rho a M (l, W) m.+1 in
  (forall j, (m < j < M)%N -> s.1`_j = w m.+1 j) /\
  s.2 = W + ('Re (ent rho m.+1 m.+1 * w m.+1 m.+1) + \sum_(n <- iota m.+2 (M - m.+2)) term m.+1 n).
Proof.
move=> hm hl; rewrite /wOuter /= (hl m.+1) ?leqnSn // (hl m) ?leqnn ?(ltnW hm) //.
rewrite -[sqrtC m.+1%:R]/(sq m.+1) -w_diag /range.
have [||j hj|j hj||h1 h2] := @inner_inv m (M - m.+2) m.+2 (wset l m.+1 (w m.+1 m.+1)) (W + 'Re (ent rho m.+1 m.+1 * w m.+1 m.+1)) (w m m.+1).
- by [].
- by rewrite subnKC.
- move/andP: hj => [h1 h2]; have -> : j = m.+1 by apply/eqP; rewrite eqn_leq h1 -ltnS h2.
  by rewrite nth_set_nth /= eqxx.
- move/andP: hj => [h1 h2]; rewrite nth_set_nth /= (gtn_eqF h1) hl // h2 andbT; exact: ltnW (ltnW h1).
- by [].
split; first by move=> j hj; apply: h1; rewrite subnKC.
by rewrite h2 addrA.
Qed.

Definition wrow m : C := 'Re (ent rho m m * w m m) + \sum_(n <- iota m.+1 (M - m.+1)) term m n.
Lemma outer_inv k m l W : (m.+1 + k <= M)%N -> (forall j, (m <= j < M)%N -> l`_j = w m j) ->
  (foldl (wOuter rho a M) (l, W) (iota m.+1 k)).2 = W + \sum_(p <- iota m.+1 k) wrow p.
Proof.
elim: k m l W => [|k IH] m l W hM hl; first by rewrite big_nil addr0.
have hm : (m.+1 < M)%N by apply: leq_trans hM; rewrite addnS ltnS leq_addr.
have := outer_step W hm hl; rewrite [foldl _ _ _]/= big_cons.
case: (wOuter _ _ _ _ _) => l' W' /= [h1 ->]; rewrite IH ?addrA //; first by rewrite addSn -addnS.
Qed.
End Loops.
End Elem.
End Rec.

Section Sum.
Variable C : numClosedFieldType.
Lemma ReD2 (z : C) : z + z^* = 2%:R * 'Re z.
Proof. by rewrite {1 2}(Crect z) conjC_rect ?Creal_Re ?Creal_Im // addrACA subrr addr0 -mulr2n mulr_natl. Qed.
Lemma herm_sum (f : nat -> nat -> C) M : (forall m n, f n m = (f m n)^*) ->
  \sum_(m < M) \sum_(n < M) f m n =
  \sum_(m < M) ('Re (f m m) + \sum_(n <- iota m.+1 (M - m.+1)) 2%:R * 'Re (f m n)).
Proof.
move=> hf; elim: M => [|M IH]; first by rewrite !big_ord0.
rewrite !big_ord_recr /= subnn big_nil addr0.
have -> : \sum_(i < M) \sum_(n < M.+1) f i n = \sum_(i < M) \sum_(n < M) f i n + \sum_(i < M) f i M.
  by rewrite -big_split /=; apply: eq_bigr => i _; rewrite big_ord_recr.
rewrite IH -!addrA addrA -addrA.
have -> : \sum_(i < M) ('Re (f i i) + \sum_(n <- iota i.+1 (M.+1 - i.+1)) 2%:R * 'Re (f i n)) =
    \sum_(i < M) ('Re (f i i) + \sum_(n <- iota i.+1 (M - i.+1)) 2%:R * 'Re (f i n)) + \sum_(i < M) 2%:R * 'Re (f i M).
  rewrite -big_split /=; apply: eq_bigr => i _; rewrite -addrA; congr (_ + _).
  by rewrite subSn // -[(M - i.+1).+1]addn1 iotaD big_cat /= big_seq1 subnKC.
rewrite -addrA; congr (_ + _); rewrite addrA -big_split /=; congr (_ + _).
  by apply: eq_bigr => i _; rewrite (hf i M) ReD2.
by apply/esym/Creal_ReP/CrealP; rewrite -hf.
Qed.
End Sum.
