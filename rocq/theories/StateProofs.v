(** Proofs about states: positive matrices, superpositions, density matrices. *)
From mathcomp Require Import all_ssreflect all_algebra.
From Verif Require Py.
From Verif Require Import MatModel MatLib OperModel StateModel MatSpec MatProofs CField OperProofs EvolProofs StateSpec.
Set Implicit Arguments.
Unset Strict Implicit.
Unset Printing Implicit Defensive.
Import Order.TTheory GRing.Theory Num.Theory.
Local Open Scope ring_scope.

Section Psd.
Variable C : numClosedFieldType.
Add Field Cf : (@C_field C).
Ltac cring := cnorm1 C; ring.
Ltac cfield := cnorm1 C; field.

Definition kd (k : nat) : nat -> C := fun i => (i == k)%:R.

Lemma sum_kd n k (f : nat -> C) : (k < n)%N -> \sum_(i < n) kd k i * f i = f k.
Proof.
move=> hk; rewrite (bigD1 (Ordinal hk)) //= /kd eqxx mul1r big1 ?addr0 // => i.
by rewrite -val_eqE /= => /negbTE ->; rewrite mul0r.
Qed.

Lemma kd_real k i : (kd k i)^* = kd k i. Proof. by rewrite /kd conjC_nat. Qed.

(** Sesquilinear form of a matrix given by its entries. *)
Definition bf n (M : nat -> nat -> C) (u v : nat -> C) : C :=
  \sum_(i < n) \sum_(j < n) (u i)^* * M i j * v j.

Definition herm n (M : nat -> nat -> C) : Prop :=
  forall i j, (i < n)%N -> (j < n)%N -> M i j = (M j i)^*.
Definition psd n (M : nat -> nat -> C) : Prop := forall v, 0 <= bf n M v v.

Lemma bf_row n M u v : bf n M u v = \sum_(i < n) (u i)^* * (\sum_(j < n) M i j * v j).
Proof.
apply: eq_bigr => i _; rewrite big_distrr /=; apply: eq_bigr => j _; by rewrite mulrA.
Qed.

Lemma bf_kdl n M k v : (k < n)%N -> bf n M (kd k) v = \sum_(j < n) M k j * v j.
Proof.
move=> hk; rewrite bf_row.
under eq_bigr => i _ do rewrite kd_real.
by rewrite (sum_kd (fun i => \sum_(j < n) M i j * v j) hk).
Qed.

Lemma bf_kd n M k l : (k < n)%N -> (l < n)%N -> bf n M (kd k) (kd l) = M k l.
Proof.
move=> hk hl; rewrite bf_kdl //.
under eq_bigr => j _ do rewrite mulrC.
exact: (sum_kd (M k) hl).
Qed.

Lemma bf_conj n M u v : herm n M -> (bf n M u v)^* = bf n M v u.
Proof.
move=> h; rewrite /bf rmorph_sum /=.
under eq_bigr => i _ do rewrite rmorph_sum /=.
rewrite exchange_big /=; apply: eq_bigr => j _; apply: eq_bigr => i _.
by rewrite !rmorphM /= conjCK (h i j) // conjCK; cring.
Qed.

Lemma bf_sub n M t u v :
  bf n M (fun i => u i - t * v i) (fun i => u i - t * v i)
  = bf n M u u - t * bf n M u v - t^* * bf n M v u + t^* * t * bf n M v v.
Proof.
rewrite /bf !big_distrr /= -!sumrB -big_split /=; apply: eq_bigr => i _.
rewrite !big_distrr /= -!sumrB -big_split /=; apply: eq_bigr => j _.
rewrite rmorphB rmorphM /=; cring.
Qed.

Lemma psd_diag n M k : psd n M -> (k < n)%N -> 0 <= M k k.
Proof. by move=> h hk; rewrite -(bf_kd M hk hk); apply: h. Qed.

(** Positivity implies hermiticity. *)
Lemma psd_herm n M : psd n M -> herm n M.
Proof.
move=> p i j hi hj.
have R t : (M i i - t * M i j - t^* * M j i + t^* * t * M j j)^* = M i i - t * M i j - t^* * M j i + t^* * t * M j j.
  by have := p (fun l => kd i l - t * kd j l); rewrite bf_sub !bf_kd // => /geC0_conj.
have ri : (M i i)^* = M i i by rewrite geC0_conj // (psd_diag p).
have rj : (M j j)^* = M j j by rewrite geC0_conj // (psd_diag p).
have e1 := R 1; have e2 := R 'i; move: e1 e2.
rewrite !(rmorphD, rmorphN, rmorphM, rmorph1, conjCK) /= !conjCi ri rj.
move: (M i j) (M j i) (M i i) (M j j) => x y a b; move: x^* y^* => x' y' e1 e2.
have e3 : x + y = x' + y'.
  have := congr1 (fun z => - z + a + b) e1; rewrite !mul1r => h.
  transitivity (- (a - x - y + b) + a + b); [cring|rewrite -h; cring].
have e4 : 'i * (x - y) = - 'i * (x' - y').
  have := congr1 (fun z => - z + a + 'i * - 'i * b) e2 => h.
  transitivity (- (a - 'i * x - - 'i * y + - 'i * 'i * b) + a + 'i * - 'i * b); [cring|rewrite -h; cring].
have i0 : 'i != 0 :> C by exact: neq0Ci.
have e5 : x - y = y' - x'.
  by apply: (mulfI i0); rewrite e4; cring.
have : 2%:R * x = 2%:R * y'.
  transitivity ((x + y) + (x - y)); [cring|rewrite e3 e5; cring].
by apply: mulfI; rewrite pnatr_eq0.
Qed.

(** Schur complement with respect to the diagonal entry [k]. *)
Definition schur (M : nat -> nat -> C) k i j : C := M i j - M i k * M k j / M k k.

Lemma schur_herm n M k : herm n M -> (k < n)%N -> herm n (schur M k).
Proof.
move=> h hk i j hi hj; rewrite /schur rmorphB !rmorphM /= fmorphV /=.
by rewrite -(h k k) // -(h i j) // -(h i k) // -(h k j) //; cring.
Qed.

Lemma schur_psd n M k : herm n M -> psd n M -> (k < n)%N -> M k k != 0 -> psd n (schur M k).
Proof.
move=> h p hk d v.
pose b := bf n M (kd k) v.
have hb : bf n M v (kd k) = b^* by rewrite /b bf_conj.
have kk : (M k k)^* = M k k by rewrite -h.
suff -> : bf n (schur M k) v v = bf n M (fun i => v i - (b / M k k) * kd k i) (fun i => v i - (b / M k k) * kd k i).
  exact: p.
rewrite bf_sub bf_kd // -/b hb rmorphM /= fmorphV /= kk.
have -> : bf n (schur M k) v v = bf n M v v - b^* * b / M k k.
  rewrite -hb /b bf_kdl // bf_row.
  have -> : bf n M v (kd k) = \sum_(i < n) (v i)^* * M i k.
    rewrite bf_row; apply: eq_bigr => i _; congr (_ * _).
    under eq_bigr => j _ do rewrite mulrC.
    exact: (sum_kd (M i) hk).
  rewrite bf_row !big_distrl /= -sumrB; apply: eq_bigr => i _.
  have -> : \sum_(j < n) schur M k i j * v j
      = \sum_(j < n) M i j * v j - M i k / M k k * \sum_(j < n) M k j * v j.
    by rewrite big_distrr /= -sumrB; apply: eq_bigr => j _; rewrite /schur; cring.
  move: (\sum_(j < n) M i j * v j) (\sum_(j < n) M k j * v j) => X Y; cring.
move/eqP: d => d; cfield; exact: d.
Qed.

Lemma normE (x : C) : `|x| ^+ 2 = x * x^*.
Proof. by rewrite normCK. Qed.

Lemma psd_zero n M i j : herm n M -> psd n M -> (i < n)%N -> (j < n)%N -> M i i = 0 -> M i j = 0.
Proof.
move=> h p hi hj z; apply/eqP/negP => /negP nz.
pose q := M i j * (M i j)^*.
have q0 : q != 0 by rewrite mul_conjC_eq0.
have qr : q^* = q by rewrite /q rmorphM /= conjCK mulrC.
have jr : (M j j)^* = M j j by rewrite -h.
pose s := (M j j + 1) / (2%:R * q).
have := p (fun l => kd j l - (s * M i j) * kd i l).
rewrite bf_sub !bf_kd // z (h j i) // mulr0 addr0.
have sr : s^* = s by rewrite /s rmorphM /= fmorphV /= rmorphD rmorphM /= rmorph1 conjC_nat qr jr.
rewrite rmorphM /= sr.
have -> : M j j - s * M i j * (M i j)^* - s * (M i j)^* * M i j = M j j - s * (2%:R * q) by rewrite /q; cring.
rewrite /s divfK; last by rewrite mulf_neq0 // pnatr_eq0.
rewrite opprD addrA subrr add0r => hneg.
have : 0 < (1 : C) by exact: ltr01.
by rewrite -oppr_lt0 => /(le_lt_trans hneg); rewrite ltxx.
Qed.

Lemma psd_cs n M i j : herm n M -> psd n M -> (i < n)%N -> (j < n)%N ->
  `|M i j| ^+ 2 <= M i i * M j j.
Proof.
move=> h p hi hj; case: (eqVneq (M i i) 0) => [z|nz].
  by rewrite (psd_zero h p hi hj z) normr0 expr0n /= z mul0r.
have := psd_diag (schur_psd h p hi nz) hj.
rewrite /schur subr_ge0 ler_pdivr_mulr; last by rewrite lt0r nz (psd_diag p).
by rewrite normE (h j i) // mulrC [M j j * _]mulrC.
Qed.

(** Every positive matrix is a sum of rank-one matrices. *)
Lemma psd_decomp n M : herm n M -> psd n M ->
  exists vs : seq (nat -> C), forall i j, (i < n)%N -> (j < n)%N -> M i j = \sum_(v <- vs) v i * (v j)^*.
Proof.
suff H : forall m M, (m <= n)%N -> herm n M -> psd n M ->
    (forall i j, (i < n)%N -> (j < n)%N -> (m <= i)%N || (m <= j)%N -> M i j = 0) ->
    exists vs : seq (nat -> C), forall i j, (i < n)%N -> (j < n)%N -> M i j = \sum_(v <- vs) v i * (v j)^*.
  move=> h p; apply: (H n) => // i j hi hj; by rewrite leqNgt hi leqNgt hj.
elim=> [|m IH] {}M hm h p z.
  by exists [::] => i j hi hj; rewrite big_nil; apply: z.
have hmn : (m < n)%N by [].
case: (eqVneq (M m m) 0) => [zm|nz].
  apply: (IH M) => // [|i j hi hj]; first exact: ltnW.
  rewrite [(m <= i)%N]leq_eqVlt [(m <= j)%N]leq_eqVlt => /orP[/orP[/eqP e|e]|/orP[/eqP e|e]].
  - by rewrite -e in hi *; exact: psd_zero h p hi hj zm.
  - by apply: z => //; rewrite e.
  - by rewrite -e in hj *; rewrite (h _ _ hi hj) (psd_zero h p hj hi zm) conjC0.
  - by apply: z => //; rewrite e orbT.
have [||||vs e] := IH (schur M m).
- exact: ltnW.
- exact: schur_herm.
- exact: schur_psd.
- move=> i j hi hj; rewrite /schur.
  rewrite [(m <= i)%N]leq_eqVlt [(m <= j)%N]leq_eqVlt => /orP[/orP[/eqP e|e]|/orP[/eqP e|e]].
  + by rewrite -e mulrAC mulfV // mul1r subrr.
  + by rewrite (z i j) ?e // (z i m) ?e // !mul0r subr0.
  + by rewrite -e mulfK // subrr.
  + by rewrite (z i j) ?e ?orbT // (z m j) ?e ?orbT // mulr0 mul0r subr0.
exists ((fun i => M i m / sqrtC (M m m)) :: vs) => i j hi hj.
rewrite big_cons -e // /schur.
have pm : 0 <= M m m by apply: psd_diag p hmn.
rewrite rmorphM /= fmorphV /= -(h m j) //.
have -> : (sqrtC (M m m))^* = sqrtC (M m m) by rewrite geC0_conj // sqrtC_ge0.
have sq : sqrtC (M m m) * sqrtC (M m m) = M m m by rewrite -expr2 sqrtCK.
have nz' : sqrtC (M m m) <> 0 by move=> e0; move: sq nz; rewrite e0 mul0r => <-; rewrite eqxx.
rewrite -[X in _ = _ + (_ - _ / X)]sq; cfield; exact: nz'.
Qed.

(** Cauchy-Schwarz *)
Lemma cauchy n (a b : nat -> C) :
  `|\sum_(i < n) (a i)^* * b i| ^+ 2 <= (\sum_(i < n) `|a i| ^+ 2) * (\sum_(i < n) `|b i| ^+ 2).
Proof.
set A := \sum_(i < n) `|a i| ^+ 2; set B := \sum_(i < n) `|b i| ^+ 2; set c := \sum_(i < n) _.
have A0 : 0 <= A by apply: sumr_ge0 => i _; rewrite exprn_ge0.
have Ar : A^* = A by rewrite geC0_conj.
have key : 0 <= A * (A * B - `|c| ^+ 2).
  have -> : A * (A * B - `|c| ^+ 2) = \sum_(i < n) `|A * b i - c * a i| ^+ 2.
    under eq_bigr => i _.
      rewrite normE rmorphB !rmorphM /= Ar.
      have -> : (A * b i - c * a i) * (A * (b i)^* - c^* * (a i)^*)
        = A * A * (b i * (b i)^*) - A * c^* * ((a i)^* * b i) - A * c * ((a i) * (b i)^*)
          + c * c^* * (a i * (a i)^*) by cring.
      rewrite -!normE; over.
    rewrite big_split /= !sumrB -!big_distrr /= -/A -/B -/c.
    have -> : \sum_(i < n) a i * (b i)^* = c^*.
      rewrite /c rmorph_sum; apply: eq_bigr => i _; by rewrite rmorphM /= conjCK.
    rewrite normE; cring.
  by apply: sumr_ge0 => i _; rewrite exprn_ge0.
case: (eqVneq A 0) => [z|nz]; last first.
  by move: key; rewrite pmulr_rge0 ?subr_ge0 // lt0r nz.
have -> : c = 0.
  rewrite /c big1 // => i _.
  suff -> : a i = 0 by rewrite conjC0 mul0r.
  have /eqP := z; rewrite psumr_eq0 => [|j _]; last by rewrite exprn_ge0.
  by move/allP/(_ i (mem_index_enum _)) => /=; rewrite expf_eq0 /= normr_eq0 => /eqP.
by rewrite normr0 expr0n /= z mul0r.
Qed.

(** [v^+ M v <= |v|^2 Tr M] for positive [M]. *)
Lemma psd_max n M v : herm n M -> psd n M ->
  bf n M v v <= (\sum_(i < n) `|v i| ^+ 2) * \sum_(i < n) M i i.
Proof.
move=> h p; have [vs e] := psd_decomp h p.
have -> : bf n M v v = \sum_(w <- vs) `|\sum_(i < n) (v i)^* * w i| ^+ 2.
  rewrite /bf (eq_bigr (fun i : 'I_n => \sum_(w <- vs) \sum_(j < n) ((v i)^* * w i) * (v j * (w j)^*))); last first.
    move=> i _; rewrite exchange_big /=; apply: eq_bigr => j _.
    by rewrite e // big_distrr big_distrl /=; apply: eq_bigr => w _; cring.
  rewrite exchange_big /=; apply: eq_bigr => w _.
  rewrite normE rmorph_sum big_distrl /=; apply: eq_bigr => i _.
  rewrite big_distrr /=; apply: eq_bigr => j _.
  by rewrite rmorphM /= conjCK.
have -> : \sum_(i < n) M i i = \sum_(w <- vs) \sum_(i < n) `|w i| ^+ 2.
  rewrite exchange_big /=; apply: eq_bigr => i _; rewrite e //.
  by apply: eq_bigr => w _; rewrite normE.
rewrite big_distrr /=; apply: ler_sum => w _; exact: cauchy.
Qed.

Lemma psd_mul n M N : herm n M -> psd n M -> herm n N -> psd n N ->
  0 <= \sum_(i < n) \sum_(j < n) M i j * N j i <= (\sum_(i < n) M i i) * (\sum_(i < n) N i i).
Proof.
move=> h p h' p'; have [vs e] := psd_decomp h p.
have -> : \sum_(i < n) \sum_(j < n) M i j * N j i = \sum_(w <- vs) bf n N w w.
  rewrite (eq_bigr (fun i : 'I_n => \sum_(w <- vs) \sum_(j < n) (w i * (w j)^*) * N j i)); last first.
    move=> i _; rewrite exchange_big /=; apply: eq_bigr => j _.
    by rewrite e // big_distrl.
  rewrite exchange_big /=; apply: eq_bigr => w _; rewrite /bf exchange_big /=.
  by apply: eq_bigr => i _; apply: eq_bigr => j _; cring.
apply/andP; split; first by apply: sumr_ge0 => w _; exact: p'.
have -> : \sum_(i < n) M i i = \sum_(w <- vs) \sum_(i < n) `|w i| ^+ 2.
  rewrite exchange_big /=; apply: eq_bigr => i _; rewrite e //.
  by apply: eq_bigr => w _; rewrite normE.
rewrite big_distrl /=; apply: ler_sum => w _; exact: psd_max.
Qed.

(** A positive matrix with [|M_ij|^2 = M_ii M_jj] throughout has rank one. *)
Lemma psd_rank1 n M k : herm n M -> psd n M -> (k < n)%N -> M k k != 0 ->
  (forall i, (i < n)%N -> `|M k i| ^+ 2 = M k k * M i i) ->
  forall i j, (i < n)%N -> (j < n)%N -> M i j = M i k * M k j / M k k.
Proof.
move=> h p hk nz e i j hi hj; apply/eqP; rewrite -subr_eq0 -/(schur M k i j).
apply/eqP; apply: (psd_zero (schur_herm h hk) (schur_psd h p hk nz)) => //.
by rewrite /schur (h i k) // [(M k i)^* * _]mulrC -normE e // mulrAC mulfV // mul1r subrr.
Qed.
End Psd.

Section St.
Variable C : numClosedFieldType.
Implicit Types (v u M S : mat C) (d : seq (nat * C)).
Add Field Cg : (@C_field C).
Ltac cring := cnorm1 C; ring.
Ltac cfield := cnorm1 C; field.

Lemma mapr_ok (X Y : Type) (f : X -> result Y) g (P : X -> Prop) xs :
  (forall x, P x -> f x = Ok (g x)) -> (forall x, List.In x xs -> P x) -> mapr f xs = Ok (map g xs).
Proof.
move=> h; elim: xs => [//|x xs IH] hx /=.
by rewrite h; [rewrite /= IH // => y hy; apply: hx; right | apply: hx; left].
Qed.

Lemma mapr_eq (X : eqType) (Y : Type) (f : X -> result Y) g (xs : seq X) :
  {in xs, forall x, f x = Ok (g x)} -> mapr f xs = Ok (map g xs).
Proof.
elim: xs => [//|x xs IH] h /=.
rewrite h ?mem_head //= IH // => y hy; apply: h; by rewrite in_cons hy orbT.
Qed.

Lemma mapr_size (X Y : Type) (f : X -> result Y) (xs : seq X) ys : mapr f xs = Ok ys -> size ys = size xs.
Proof.
elim: xs ys => [|x xs IH] ys /=; first by move=> /(@Ok_inj _ _ _) <-.
case: (f x) => //= y; case: (mapr f xs) IH => //= zs IH /(@Ok_inj _ _ _) <- /=; congr _.+1; exact: IH.
Qed.

Lemma mapr_err (X : eqType) (Y : Type) (f : X -> result Y) e (xs : seq X) :
  (forall x, x \in xs -> (exists y, f x = Ok y) \/ f x = Err e) ->
  (exists2 x, x \in xs & f x = Err e) -> mapr f xs = Err e.
Proof.
elim: xs => [_ [x]|x xs IH h [z]] //; rewrite in_cons => /orP[/eqP ->|hz] fz /=; first by rewrite fz.
case: (h x (mem_head _ _)) => [[y ->]|->] //=.
by rewrite IH //; [move=> w hw; apply: h; rewrite in_cons hw orbT | exists z].
Qed.

(** ** Basis *)
Lemma basisE n i : (i < n)%N -> basis C n i = Ok (unit_vec C n i).
Proof.
move=> hi; rewrite /basis /csc /= hi /=; congr Ok.
apply: mk_ext => // k l hk hl; rewrite big_cons big_nil /= xpair_eqE.
by move: hl; rewrite ltnS leqn0 => /eqP ->; rewrite eqxx andbT eq_sym; case: eqP => _; rewrite ?addr0.
Qed.

Lemma basis_out n i : (n <= i)%N -> basis C n i = Err Py.ValueError.
Proof. by move=> h; rewrite /basis /csc /= ltnNge h. Qed.

Lemma ent_unit n k i : (i < n)%N -> ent (unit_vec C n k) i 0 = (i == k)%:R.
Proof. by move=> hi; rewrite ent_mk. Qed.

Lemma amp_unit n k i : (i < n)%N -> amp (unit_vec C n k) i = kd C k i.
Proof. exact: ent_unit. Qed.

Lemma completeBasisE n : completeBasis C n = Ok [seq unit_vec C n i | i <- iota 0 n].
Proof.
rewrite /completeBasis /range subn0; apply: mapr_eq => i; rewrite mem_iota /= add0n => hi; exact: basisE.
Qed.

(** ** Inner and outer products *)
Lemma innerE n u v : isKet n u -> isKet n v -> innerProd u (Some v) = Ok (overlap n v u).
Proof.
move=> [ru cu] [rv cv]; rewrite /innerProd mmulE /=; last by rewrite ru rv.
congr Ok; rewrite trace_sq /= ?cu ?cv // big_ord1 ent_mulm /= rv.
by apply: eq_bigr => i _; rewrite ent_hc.
Qed.

Lemma overlapvv n v : overlap n v v = norm2 n v.
Proof. by apply: eq_bigr => i _; rewrite normCKC. Qed.

Lemma overlapC n u v : overlap n v u = (overlap n u v)^*.
Proof. by rewrite /overlap rmorph_sum; apply: eq_bigr => i _; rewrite rmorphM /= conjCK mulrC. Qed.

Lemma norm2_ge0 n v : 0 <= norm2 n v.
Proof. by apply: sumr_ge0 => i _; rewrite exprn_ge0. Qed.

Lemma normKet n v : isKet n v -> norm v = Ok (sqrtC (norm2 n v)).
Proof. by move=> h; rewrite /norm -[innerProd v None]/(innerProd v (Some v)) (innerE h h) /= overlapvv. Qed.

Definition proj n v : mat C := mk n n (fun i j => amp v i * (amp v j)^*).

Lemma densityE n v : isKet n v -> densityMatrix v = Ok (proj n v).
Proof.
move=> [rv cv]; rewrite /densityMatrix /outerProd mmulE //; congr Ok.
apply: mat_ext => /=; rewrite ?rv // => i j hi hj; rewrite ent_mulm cv big_ord1 ent_hc ent_mk //; congruence.
Qed.

(** ** Sums of matrices *)

Lemma pysum_aux r c (Ms : seq (mat C)) M : hasShape M r c -> (forall N, List.In N Ms -> hasShape N r c) ->
  exists S, foldl (@padd C) (Ok (PMat M)) Ms = Ok (PMat S) /\ hasShape S r c
            /\ forall i j, ent S i j = ent M i j + \sum_(N <- Ms) ent N i j.
Proof.
elim: Ms M => [|N Ms IH] M hM hs /=.
  by exists M; split => //; split => // i j; rewrite big_nil addr0.
have hN : hasShape N r c by apply: hs; left.
case: (hM) (hN) => rM cM [rN cN].
rewrite maddE ?rM ?cM //=.
have [|K hK|S [e [sS eS]]] := IH (addm M N).
- by split; rewrite /= ?rM ?cM.
- by apply: hs; right.
exists S; split => //; split => // i j.
by rewrite eS ent_addm ?rM ?cM // big_cons addrA.
Qed.

Lemma pysumE r c (Ms : seq (mat C)) : Ms <> [::] -> (forall M, List.In M Ms -> hasShape M r c) ->
  exists S, pysum Ms = Ok (PMat S) /\ hasShape S r c /\ forall i j, ent S i j = \sum_(M <- Ms) ent M i j.
Proof.
case: Ms => [//|M Ms] _ h; rewrite /pysum /=.
have [||S [e [sS eS]]] := @pysum_aux r c Ms M.
- by apply: h; left.
- by move=> N hN; apply: h; right.
by exists S; split => //; split => // i j; rewrite eS big_cons.
Qed.

(** ** Weights *)
Lemma weightOf_cons p d i : weightOf (p :: d) i = (if p.1 == i then p.2 else 0) + weightOf d i.
Proof. by rewrite /weightOf big_cons; case: ifP; rewrite ?add0r. Qed.

Lemma weightOf_out d i : i \notin [seq p.1 | p <- d] -> weightOf d i = 0.
Proof.
move=> h; rewrite /weightOf big_seq_cond big1 // => p /andP[hp /eqP e].
by case/negP: h; rewrite -e; apply: map_f.
Qed.

(** Sum over the basis of a function of the weight. *)
Lemma sum_weights n d (f : C -> C) : isDict d -> keysBelow n d -> f 0 = 0 ->
  \sum_(i < n) f (weightOf d i) = \sum_(p <- d) f p.2.
Proof.
move=> + + f0; elim: d => [|p d IH] /=.
  by move=> _ _; rewrite big_nil big1 // => i _; rewrite /weightOf big_nil f0.
rewrite /isDict /keysBelow /= => /andP[np u] /andP[hp k].
rewrite big_cons -IH // (bigD1 (Ordinal hp)) //= [in RHS](bigD1 (Ordinal hp)) //=.
rewrite weightOf_cons eqxx weightOf_out // f0 add0r addr0; congr (_ + _).
apply: eq_bigr => i; rewrite -val_eqE /= => /negbTE ne.
by rewrite weightOf_cons eq_sym ne add0r.
Qed.

Lemma weight_map d (g : C -> C) i : isDict d -> g 0 = 0 ->
  weightOf [seq (p.1, g p.2) | p <- d] i = g (weightOf d i).
Proof.
move=> + g0; elim: d => [|p d IH]; first by rewrite /weightOf !big_nil g0.
rewrite /isDict /= => /andP[np u]; rewrite !weightOf_cons /= IH //.
case: eqP => [e|_]; last by rewrite !add0r.
by rewrite -e weightOf_out // g0 !addr0.
Qed.

Lemma weight_ge0 d i : nonNegative d -> 0 <= weightOf d i.
Proof.
rewrite /nonNegative all_map => /allP h; rewrite /weightOf big_seq_cond sumr_ge0 // => p /andP[hp _].
exact: h.
Qed.

(** The unnormalised superposition. *)
Lemma super_sum n d : d <> [::] -> keysBelow n d ->
  exists S, (do bs <- mapr (basis C n) [seq p.1 | p <- d]; weightedSum bs (Some [seq p.2 | p <- d])) = Ok (PMat S)
    /\ isKet n S /\ forall i, (i < n)%N -> amp S i = weightOf d i.
Proof.
move=> ne k.
rewrite (@mapr_eq _ _ _ (unit_vec C n)) /=; last first.
  by move=> i hi; apply: basisE; move/allP: k; apply.
rewrite /weightedSum.
have -> : [seq scalem p.1 p.2 | p <- zip [seq p.2 | p <- d] [seq unit_vec C n i | i <- [seq p.1 | p <- d]]]
   = [seq scalem p.2 (unit_vec C n p.1) | p <- d].
  by elim: d {ne k} => [//|p d IH] /=; rewrite IH.
have [||S [e [sS eS]]] := @pysumE n 1 [seq scalem p.2 (unit_vec C n p.1) | p <- d].
- by case: d ne {k}.
- by move=> M /List.in_map_iff[p [<- _]].
exists S; split => //; split => // i hi.
rewrite /amp eS big_map /weightOf [in RHS]big_mkcond /=; apply: eq_bigr => p _.
by rewrite ent_scalem ent_unit // eq_sym; case: eqP; rewrite ?mulr1 ?mulr0.
Qed.

Lemma normaliseE n S : isKet n S -> n <> 1%N -> norm2 n S <> 0 ->
  normalise (PMat S) = Ok (scalem (1 / sqrtC (norm2 n S)) S).
Proof.
move=> h n1 nz; case: (h) => rS cS.
rewrite /normalise rS cS; case: eqP => [//|_]; rewrite (normKet h) /= .
by rewrite sqrtC_eq0; case: eqP.
Qed.

Lemma normalise1 S : isKet 1 S -> amp S 0 <> 0 -> normalise (PMat S) = Ok (scalem (1 / amp S 0) S).
Proof.
move=> h nz; case: (h) => rS cS.
rewrite /normalise rS cS /= trace_sq ?rS ?cS // big_ord1; by case: eqP.
Qed.

Lemma norm2_scale n a v : norm2 n (scalem a v) = `|a| ^+ 2 * norm2 n v.
Proof.
by rewrite /norm2 big_distrr; apply: eq_bigr => i _; rewrite /amp ent_scalem normrM exprMn.
Qed.

(** Normalising a ket: the amplitudes are multiplied by a common factor, which
    is positive for more than one level. *)
Lemma normalise_ket n S : isKet n S -> norm2 n S <> 0 ->
  exists a, normalise (PMat S) = Ok (scalem a S) /\ a <> 0 /\ norm2 n (scalem a S) = 1
    /\ (0 <= a /\ a = 1 / sqrtC (norm2 n S) \/ n = 1%N /\ a = 1 / amp S 0).
Proof.
move=> h nz.
have nz' : sqrtC (norm2 n S) != 0 by rewrite sqrtC_eq0; apply/eqP.
case: (eqVneq n 1%N) => [n1|n1].
  move: h nz nz'; rewrite n1 => h nz nz'.
  have nz0 : amp S 0 <> 0 by move=> e; apply: nz; rewrite /norm2 big_ord1 e normr0 expr0n.
  exists (1 / amp S 0); rewrite normalise1 //; split=> //; split.
    by rewrite div1r => /eqP; rewrite invr_eq0 => /eqP.
  split; last by right.
  rewrite norm2_scale /norm2 big_ord1 -exprMn -normrM div1r mulVf ?normr1 ?expr1n //; exact/eqP.
exists (1 / sqrtC (norm2 n S)); rewrite (normaliseE h) //; last exact/eqP.
have p : 0 <= 1 / sqrtC (norm2 n S) by rewrite divr_ge0 ?ler01 // sqrtC_ge0 norm2_ge0.
split=> //; split; first by move/eqP; rewrite div1r invr_eq0 (negbTE nz').
split; last by left.
rewrite norm2_scale ger0_norm // div1r exprVn sqrtCK mulVf //; exact/eqP.
Qed.

(** ** Tensor products of kets *)
Lemma kron_ket m n u v : isKet m u -> isKet n v ->
  isKet (m * n) (kron u v) /\
  forall i, (i < m * n)%N -> amp (kron u v) i = amp u (i %/ n) * amp v (i %% n).
Proof.
move=> [ru cu] [rv cv]; split; first by split; rewrite /= ?ru ?rv ?cu ?cv.
by move=> i hi; rewrite /amp ent_kron_in ?ru ?rv ?cu ?cv ?muln1 // divn1 modn1.
Qed.

Lemma norm2_kron m n u v : isKet m u -> isKet n v -> norm2 (m * n) (kron u v) = norm2 m u * norm2 n v.
Proof.
move=> hu hv; have [_ e] := kron_ket hu hv.
rewrite /norm2; under eq_bigr => i _ do rewrite e // normrM exprMn.
rewrite (sum_divmod m n (fun i j => `|amp u i| ^+ 2 * `|amp v j| ^+ 2)).
by rewrite big_distrl; apply: eq_bigr => i _; rewrite big_distrr.
Qed.

Lemma kron_unit m n i j : (i < m)%N -> (j < n)%N ->
  kron (unit_vec C m i) (unit_vec C n j) = unit_vec C (m * n) (i * n + j)%N.
Proof.
move=> hi hj; apply: mat_ext => //= k l hk hl.
have n0 : (0 < n)%N by apply: leq_ltn_trans hj.
have l0 : l = 0%N by move: hl; rewrite muln1 ltnS leqn0 => /eqP.
rewrite ent_kron_in //= l0 div0n mod0n !ent_mk ?ltn_mod // ?ltn_divLR // -natrM mulnb; congr (_%:R : C).
congr nat_of_bool; apply/andP/eqP => [[/eqP a /eqP b]|->].
  by rewrite (divn_eq k n) a b.
by rewrite divnMDl // divn_small // addn0 modnMDl modn_small.
Qed.

Lemma tens_unit dims idx : isIdx dims idx ->
  tens [seq unit_vec C p.1 p.2 | p <- zip dims idx] = unit_vec C (prodn dims) (enc dims idx).
Proof.
elim: dims idx => [|d ds IH] [|i us] //= => [_|/andP[hi hus]].
  apply: mat_ext => //= k l hk hl.
  have -> : k = 0%N by case: k hk.
  by have -> : l = 0%N by [case: l hl]; rewrite ent_idm !ent_mk.
have {}hus : isIdx ds us by exact: hus.
by rewrite IH // kron_unit //; apply: enc_lt.
Qed.

(** One factor with its dimension. *)
Fixpoint ketList (dims : seq nat) (vs : seq (mat C)) : Prop :=
  match dims, vs with
  | [::], [::] => True
  | d :: ds, v :: vs' => isKet d v /\ ketList ds vs'
  | _, _ => False
  end.

Lemma tens_kets dims vs : ketList dims vs ->
  [/\ isKet (prodn dims) (tens vs), norm2 (prodn dims) (tens vs) = \prod_(p <- zip dims vs) norm2 p.1 p.2
    & forall idx, isIdx dims idx -> amp (tens vs) (enc dims idx) = \prod_(p <- zip vs idx) amp p.1 p.2].
Proof.
elim: dims vs => [|d ds IH] [|v vs] //= => [_|[hv hvs]].
  split; first by split.
  - by rewrite big_nil /norm2 big_ord1 /amp ent_mk // normr1 expr1n.
  - by case=> // _; rewrite big_nil /amp ent_mk.
have [k1 k2 k3] := IH vs hvs.
have [h1 h2] := kron_ket hv k1.
split => //; first by rewrite norm2_kron // k2 big_cons.
case=> [//|i us] /= /andP[hi hus]; have {}hus : isIdx ds us by exact: hus.
have lt := enc_lt hus.
have lt2 : (i * prodn ds + enc ds us < d * prodn ds)%N.
  by apply: (@leq_trans (i * prodn ds + prodn ds)); rewrite ?ltn_add2l // -mulSnr leq_mul2r hi orbT.
rewrite foldr_muln h2 // big_cons -k3 //.
by rewrite divnMDl ?(leq_ltn_trans (leq0n _) lt) // divn_small // addn0 modnMDl modn_small.
Qed.

(** ** superPos *)
Lemma superPos_aux n d : d <> [::] -> isDict d -> keysBelow n d -> \sum_(p <- d) `|p.2| ^+ 2 <> 0 ->
  exists v a, (do bs <- mapr (basis C n) [seq p.1 | p <- d];
               do s <- weightedSum bs (Some [seq p.2 | p <- d]); normalise s) = Ok v
    /\ normalised n v /\ a <> 0 /\ (forall i, (i < n)%N -> amp v i = a * weightOf d i)
    /\ (0 <= a /\ a = 1 / sqrtC (\sum_(p <- d) `|p.2| ^+ 2) \/ n = 1%N /\ a = 1 / weightOf d 0).
Proof.
move=> ne u k nz.
have [S [eS [hS aS]]] := super_sum ne k.
have nS : norm2 n S = \sum_(p <- d) `|p.2| ^+ 2.
  rewrite -(@sum_weights n d (fun x => `|x| ^+ 2)) ?normr0 ?expr0n //.
  by apply: eq_bigr => i _; rewrite aS.
have nz' : norm2 n S <> 0 by rewrite nS.
have [a [e [na [n1 ha]]]] := normalise_ket hS nz'.
exists (scalem a S), a; split.
  by case: (mapr _ _) eS => //= bs ->.
split; first by split => //; case: hS => rS cS; split.
split => //; split; first by move=> i hi; rewrite /amp ent_scalem -/(amp S i) aS.
case: ha => [[p e']|[n1' e']]; [by left; rewrite -nS | right].
by rewrite e' aS ?n1'.
Qed.

Lemma sqrt_map_norm d : nonNegative d ->
  \sum_(p <- [seq (p.1, sqrtC p.2) | p <- d]) `|p.2| ^+ 2 = total d.
Proof.
rewrite /nonNegative all_map => /allP h; rewrite big_map /total big_seq [in RHS]big_seq.
by apply: eq_bigr => p hp /=; rewrite ger0_norm ?sqrtC_ge0 ?sqrtCK //; apply: h.
Qed.

Lemma map_keys (g : C -> C) d : [seq p.1 | p <- [seq (p.1, g p.2) | p <- d]] = [seq p.1 | p <- d].
Proof. by rewrite -map_comp. Qed.

(** [dictOnes]: one entry of weight 1 for each distinct element. *)
Lemma dictOnes_spec l : let d := @dictOnes C l in
  isDict d /\ (forall i, (i \in [seq p.1 | p <- d]) = (i \in l)) /\ (forall p, p \in d -> p.2 = 1).
Proof.
rewrite /dictOnes /=.
suff H : forall acc : seq (nat * C), isDict acc -> (forall p, p \in acc -> p.2 = 1) ->
   let d := foldl (fun d k => if k \in [seq p.1 | p <- d] then d else rcons d (k, 1)) acc l in
   isDict d /\ (forall i, (i \in [seq p.1 | p <- d]) = (i \in [seq p.1 | p <- acc]) || (i \in l))
   /\ (forall p, p \in d -> p.2 = 1).
  by have [//|//|a [b c]] := H [::].
elim: l => [|k l IH] acc u h /=; first by split => //; split => // i; rewrite in_nil orbF.
case: ifP => hk.
  have [a [b c]] := IH acc u h; split => //; split => // i; rewrite b in_cons.
  by case: eqP => // ->; rewrite hk.
have [||a [b c]] := IH (rcons acc (k, 1)).
- by rewrite /isDict map_rcons rcons_uniq /= hk.
- by move=> p; rewrite mem_rcons in_cons => /orP[/eqP ->|/h].
split => //; split => // i; by rewrite b map_rcons mem_rcons !in_cons orbA [(_ == _) || _]orbC.
Qed.

Lemma dictOnes_weight l i : weightOf (@dictOnes C l) i = (i \in l)%:R.
Proof.
have [u [k o]] := dictOnes_spec l.
rewrite -k; move: (@dictOnes C l) u o {k} => d; elim: d => [|p d IH].
  by rewrite /weightOf big_nil.
rewrite /isDict /= => /andP[np u] o; rewrite weightOf_cons IH //; last first.
  by move=> q hq; apply: o; rewrite in_cons hq orbT.
rewrite in_cons eq_sym (o p) ?mem_head //; case: eqP => [->|_]; last by rewrite add0r.
by rewrite (negbTE np) addr0.
Qed.

Lemma dictOnes_total l (f : C -> C) : \sum_(p <- @dictOnes C l) f p.2 = (size (undup l))%:R * f 1.
Proof.
have [u [k o]] := dictOnes_spec l.
rewrite big_seq (eq_bigr (fun _ => f 1)) => [|p /o ->] //.
rewrite -big_seq big_const_seq count_predT iter_addr_0 mulr_natl.
have -> : size (@dictOnes C l) = size (undup l); last by [].
rewrite -(size_map fst); apply/eqP; rewrite -uniq_size_uniq ?undup_uniq //.
by move=> i; rewrite mem_undup k.
Qed.

End St.
