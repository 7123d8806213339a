(** Lemmas about the matrices of MatModel.v. *)
From mathcomp Require Import all_ssreflect all_algebra.
From Verif Require Import MatModel.
Set Implicit Arguments.
Unset Strict Implicit.
Unset Printing Implicit Defensive.
Import GRing.Theory Num.Theory.
Local Open Scope ring_scope.

Section Lib.
Variable C : numClosedFieldType.
Implicit Types A B D E : mat C.

Lemma ent_in r c (X : 'M[C]_(r, c)) i j (hi : (i < r)%N) (hj : (j < c)%N) :
  ent (Mat X) i j = X (Ordinal hi) (Ordinal hj).
Proof. by rewrite /ent /= (insubT (fun x => x < r)%N hi) (insubT (fun x => x < c)%N hj). Qed.

Lemma ent_out A i j : ~~ ((i < rows A) && (j < cols A))%N -> ent A i j = 0.
Proof.
rewrite /ent; case: insubP => [i' hi _|//]; case: insubP => [j' hj _|//].
by rewrite hi hj.
Qed.

Lemma ent_mk r c f i j : (i < r)%N -> (j < c)%N -> ent (mk r c f) i j = f i j :> C.
Proof. by move=> hi hj; rewrite /mk ent_in mxE. Qed.

Lemma ent_mkE r c f i j : ent (mk r c f) i j = if (i < r)%N && (j < c)%N then f i j else 0 :> C.
Proof. by case: ifP => [/andP[hi hj]|/negbT h]; [rewrite ent_mk | rewrite ent_out]. Qed.

Lemma rows_mk r c f : rows (mk r c f : mat C) = r. Proof. by []. Qed.
Lemma cols_mk r c f : cols (mk r c f : mat C) = c. Proof. by []. Qed.

(** Matrices are equal when they have the same shape and entries. *)
Lemma mat_ext A B :
  rows A = rows B -> cols A = cols B ->
  (forall i j, (i < rows A)%N -> (j < cols A)%N -> ent A i j = ent B i j) -> A = B.
Proof.
case: A => r c X; case: B => r' c' Y /= hr hc; subst r' c' => h.
congr Mat; apply/matrixP => i j.
have := h _ _ (ltn_ord i) (ltn_ord j); rewrite !ent_in.
by have -> : Ordinal (ltn_ord i) = i by [apply: val_inj];
   have -> : Ordinal (ltn_ord j) = j by [apply: val_inj].
Qed.

Lemma mkK A : mk (rows A) (cols A) (ent A) = A.
Proof. by apply: mat_ext => // i j hi hj; rewrite ent_mk. Qed.

Lemma mk_ext r c r' c' (f g : nat -> nat -> C) :
  r = r' -> c = c' -> (forall i j, (i < r)%N -> (j < c)%N -> f i j = g i j) -> mk r c f = mk r' c' g.
Proof. by move=> <- <- h; apply: mat_ext => // i j hi hj; rewrite !ent_mk //; apply: h. Qed.

(** ** Entries of the operations, without bounds *)

Lemma ent_scalem a A i j : ent (scalem a A) i j = a * ent A i j.
Proof.
rewrite ent_mkE; case: ifP => // /negbT h.
by rewrite ent_out // mulr0.
Qed.

Lemma ent_addm A B i j : rows A = rows B -> cols A = cols B ->
  ent (addm A B) i j = ent A i j + ent B i j.
Proof.
move=> hr hc; rewrite ent_mkE; case: ifP => // /negbT h.
by rewrite !ent_out ?addr0 // -hr -hc.
Qed.

Lemma ent_subm A B i j : rows A = rows B -> cols A = cols B ->
  ent (subm A B) i j = ent A i j - ent B i j.
Proof.
move=> hr hc; rewrite ent_mkE; case: ifP => // /negbT h.
by rewrite !ent_out ?subr0 // -hr -hc.
Qed.

Lemma ent_mulm A B i j : ent (mulm A B) i j = \sum_(k < cols A) ent A i k * ent B k j.
Proof.
rewrite ent_mkE; case: ifP => // /negbT; rewrite negb_and => /orP[h|h].
- by rewrite big1 // => k _; rewrite ent_out ?mul0r // negb_and h.
- by rewrite big1 // => k _; rewrite [ent B _ _]ent_out ?mulr0 // negb_and h orbT.
Qed.

Lemma ent_trm A i j : ent (trm A) i j = ent A j i.
Proof.
rewrite ent_mkE; case: ifP => // /negbT h.
by rewrite ent_out // andbC.
Qed.

Lemma ent_conjm A i j : ent (conjm A) i j = (ent A i j)^*.
Proof.
rewrite ent_mkE; case: ifP => // /negbT h.
by rewrite ent_out // conjC0.
Qed.

Lemma ent_hc A i j : ent (hc A) i j = (ent A j i)^*.
Proof. by rewrite ent_conjm ent_trm. Qed.

Lemma ent_idm n i j : ent (idm C n) i j = ((i == j) && (i < n)%N)%:R.
Proof.
rewrite ent_mkE; case: eqP => [->|_] /=; last by case: ifP.
by rewrite andbb; case: ifP.
Qed.

Lemma ent_zerom r c i j : ent (zerom C r c) i j = 0.
Proof. by rewrite ent_mkE; case: ifP. Qed.

Lemma ent_kron A B i j : (0 < rows B)%N -> (0 < cols B)%N ->
  ent (kron A B) i j = ent A (i %/ rows B) (j %/ cols B) * ent B (i %% rows B) (j %% cols B).
Proof.
move=> hr hc; rewrite ent_mkE; case: ifP => // /negbT h.
rewrite [ent A _ _]ent_out ?mul0r //.
by rewrite !ltn_divLR.
Qed.

(** ** Shapes *)
Lemma rows_addm A B : rows (addm A B) = rows A. Proof. by []. Qed.
Lemma cols_addm A B : cols (addm A B) = cols A. Proof. by []. Qed.
Lemma rows_subm A B : rows (subm A B) = rows A. Proof. by []. Qed.
Lemma cols_subm A B : cols (subm A B) = cols A. Proof. by []. Qed.
Lemma rows_scalem a A : rows (scalem a A) = rows A. Proof. by []. Qed.
Lemma cols_scalem a A : cols (scalem a A) = cols A. Proof. by []. Qed.
Lemma rows_mulm A B : rows (mulm A B) = rows A. Proof. by []. Qed.
Lemma cols_mulm A B : cols (mulm A B) = cols B. Proof. by []. Qed.
Lemma rows_trm A : rows (trm A) = cols A. Proof. by []. Qed.
Lemma cols_trm A : cols (trm A) = rows A. Proof. by []. Qed.
Lemma rows_hc A : rows (hc A) = cols A. Proof. by []. Qed.
Lemma cols_hc A : cols (hc A) = rows A. Proof. by []. Qed.
Lemma rows_kron A B : rows (kron A B) = (rows A * rows B)%N. Proof. by []. Qed.
Lemma cols_kron A B : cols (kron A B) = (cols A * cols B)%N. Proof. by []. Qed.
Lemma rows_idm n : rows (idm C n) = n. Proof. by []. Qed.
Lemma cols_idm n : cols (idm C n) = n. Proof. by []. Qed.

Definition shapes := (rows_addm, cols_addm, rows_subm, cols_subm, rows_scalem, cols_scalem,
  rows_mulm, cols_mulm, rows_trm, cols_trm, rows_hc, cols_hc, rows_kron, cols_kron,
  rows_idm, cols_idm, rows_mk, cols_mk).

(** Checked operations succeed on matching shapes. *)
Lemma mmulE A B : cols A = rows B -> mmul A B = Ok (mulm A B).
Proof. by move=> h; rewrite /mmul h eqxx. Qed.
Lemma maddE A B : rows A = rows B -> cols A = cols B -> madd A B = Ok (addm A B).
Proof. by move=> h h'; rewrite /madd h h' !eqxx. Qed.
Lemma msubE A B : rows A = rows B -> cols A = cols B -> msub A B = Ok (subm A B).
Proof. by move=> h h'; rewrite /msub h h' !eqxx. Qed.

Lemma mmul_inv A B X : mmul A B = Ok X -> cols A = rows B /\ X = mulm A B.
Proof. by rewrite /mmul; case: eqP => // h [<-]. Qed.
Lemma madd_inv A B X : madd A B = Ok X -> [/\ rows A = rows B, cols A = cols B & X = addm A B].
Proof. by rewrite /madd; case: eqP => //= h; case: eqP => // h' [<-]. Qed.
Lemma msub_inv A B X : msub A B = Ok X -> [/\ rows A = rows B, cols A = cols B & X = subm A B].
Proof. by rewrite /msub; case: eqP => //= h; case: eqP => // h' [<-]. Qed.

(** ** Ring laws *)
Lemma mulmA A B D : mulm A (mulm B D) = mulm (mulm A B) D.
Proof.
apply: mat_ext => // i j _ _; rewrite !ent_mulm.
under eq_bigr do rewrite ent_mulm big_distrr.
rewrite exchange_big /=; apply: eq_bigr => l _.
by rewrite ent_mulm big_distrl; apply: eq_bigr => k _; rewrite mulrA.
Qed.

Lemma addmC A B : rows A = rows B -> cols A = cols B -> addm A B = addm B A.
Proof. by move=> h h'; apply: mat_ext => // i j _ _; rewrite !ent_addm // addrC. Qed.

Lemma addmA A B D : rows A = rows B -> cols A = cols B -> rows B = rows D -> cols B = cols D ->
  addm A (addm B D) = addm (addm A B) D.
Proof.
move=> h h' h2 h2'; apply: mat_ext => // i j _ _.
by rewrite !ent_addm ?shapes ?h ?h' // addrA.
Qed.

Lemma mul1m A n : n = rows A -> mulm (idm C n) A = A.
Proof.
move=> ->; apply: mat_ext => // i j hi _; rewrite ent_mulm /=.
rewrite (bigD1 (Ordinal hi)) //= ent_idm eqxx hi mul1r big1 ?addr0 // => k hk.
rewrite ent_idm; case: eqP => [e|_]; last by rewrite mul0r.
by move: hk; rewrite -val_eqE /= e eqxx.
Qed.

Lemma mulm1 A n : n = cols A -> mulm A (idm C n) = A.
Proof.
move=> ->; apply: mat_ext => // i j _ hj; rewrite ent_mulm /=.
rewrite (bigD1 (Ordinal hj)) //= ent_idm eqxx hj mulr1 big1 ?addr0 // => k hk.
rewrite ent_idm; case: eqP => [e|_]; last by rewrite mulr0.
by move: hk; rewrite -val_eqE /= e eqxx.
Qed.

Lemma mulmDl A B D : rows A = rows B -> cols A = cols B ->
  mulm (addm A B) D = addm (mulm A D) (mulm B D).
Proof.
move=> h h'; apply: mat_ext => // i j _ _.
rewrite ent_addm ?shapes // !ent_mulm /= -h' -big_split.
by apply: eq_bigr => k _; rewrite ent_addm // mulrDl.
Qed.

Lemma mulmDr A B D : rows B = rows D -> cols B = cols D ->
  mulm A (addm B D) = addm (mulm A B) (mulm A D).
Proof.
move=> h h'; apply: mat_ext => // i j _ _.
rewrite ent_addm ?shapes // !ent_mulm /= -big_split.
by apply: eq_bigr => k _; rewrite ent_addm // mulrDr.
Qed.

Lemma mulmBl A B D : rows A = rows B -> cols A = cols B ->
  mulm (subm A B) D = subm (mulm A D) (mulm B D).
Proof.
move=> h h'; apply: mat_ext => // i j _ _.
rewrite ent_subm ?shapes // !ent_mulm /= -h' -sumrB.
by apply: eq_bigr => k _; rewrite ent_subm // mulrBl.
Qed.

Lemma mulmBr A B D : rows B = rows D -> cols B = cols D ->
  mulm A (subm B D) = subm (mulm A B) (mulm A D).
Proof.
move=> h h'; apply: mat_ext => // i j _ _.
rewrite ent_subm ?shapes // !ent_mulm /= -sumrB.
by apply: eq_bigr => k _; rewrite ent_subm // mulrBr.
Qed.

Lemma scalemAl a A B : mulm (scalem a A) B = scalem a (mulm A B).
Proof.
apply: mat_ext => // i j _ _; rewrite ent_scalem !ent_mulm big_distrr /=.
by apply: eq_bigr => k _; rewrite ent_scalem mulrA.
Qed.

Lemma scalemAr a A B : mulm A (scalem a B) = scalem a (mulm A B).
Proof.
apply: mat_ext => // i j _ _; rewrite ent_scalem !ent_mulm big_distrr /=.
by apply: eq_bigr => k _; rewrite ent_scalem mulrCA.
Qed.

Lemma scalemA a b A : scalem a (scalem b A) = scalem (a * b) A.
Proof. by apply: mat_ext => // i j _ _; rewrite !ent_scalem mulrA. Qed.

Lemma scale1m A : scalem 1 A = A.
Proof. by apply: mat_ext => // i j _ _; rewrite ent_scalem mul1r. Qed.

Lemma scalemDr a A B : rows A = rows B -> cols A = cols B ->
  scalem a (addm A B) = addm (scalem a A) (scalem a B).
Proof. by move=> h h'; apply: mat_ext => // i j _ _; rewrite !(ent_scalem, ent_addm) // mulrDr. Qed.

Lemma scalemDl a b A : scalem (a + b) A = addm (scalem a A) (scalem b A).
Proof. by apply: mat_ext => // i j _ _; rewrite ent_addm // !ent_scalem mulrDl. Qed.

Lemma scalemBr a A B : rows A = rows B -> cols A = cols B ->
  scalem a (subm A B) = subm (scalem a A) (scalem a B).
Proof. by move=> h h'; apply: mat_ext => // i j _ _; rewrite !(ent_scalem, ent_subm) // mulrBr. Qed.

(** ** Adjoint *)
Lemma hcK A : hc (hc A) = A.
Proof. by apply: mat_ext => // i j _ _; rewrite !ent_hc conjCK. Qed.

Lemma hc_mulm A B : cols A = rows B -> hc (mulm A B) = mulm (hc B) (hc A).
Proof.
move=> h; apply: mat_ext => // i j _ _.
rewrite ent_hc !ent_mulm /= -h rmorph_sum.
by apply: eq_bigr => k _; rewrite !ent_hc rmorphM mulrC.
Qed.

Lemma hc_addm A B : rows A = rows B -> cols A = cols B -> hc (addm A B) = addm (hc A) (hc B).
Proof. by move=> h h'; apply: mat_ext => // i j _ _; rewrite !(ent_hc, ent_addm) // rmorphD. Qed.

Lemma hc_subm A B : rows A = rows B -> cols A = cols B -> hc (subm A B) = subm (hc A) (hc B).
Proof. by move=> h h'; apply: mat_ext => // i j _ _; rewrite !(ent_hc, ent_subm) // rmorphB. Qed.

Lemma hc_scalem a A : hc (scalem a A) = scalem a^* (hc A).
Proof. by apply: mat_ext => // i j _ _; rewrite !(ent_hc, ent_scalem) rmorphM. Qed.

Lemma hc_idm n : hc (idm C n) = idm C n.
Proof.
apply: mat_ext => // i j hi hj; rewrite ent_hc !ent_idm /= eq_sym.
by rewrite hi hj rmorph_nat.
Qed.

Lemma trm_mulm A B : cols A = rows B -> trm (mulm A B) = mulm (trm B) (trm A).
Proof.
move=> h; apply: mat_ext => // i j _ _.
rewrite ent_trm !ent_mulm /= -h.
by apply: eq_bigr => k _; rewrite !ent_trm mulrC.
Qed.

(** ** Trace *)
Lemma trace_sq A : rows A = cols A -> trace A = \sum_(i < rows A) ent A i i.
Proof. by move=> h; rewrite /trace -h minnn. Qed.

Lemma trace_addm A B : rows A = rows B -> cols A = cols B -> trace (addm A B) = trace A + trace B.
Proof.
move=> h h'; rewrite /trace /= -h -h' -big_split.
by apply: eq_bigr => k _; rewrite ent_addm.
Qed.

Lemma trace_subm A B : rows A = rows B -> cols A = cols B -> trace (subm A B) = trace A - trace B.
Proof.
move=> h h'; rewrite /trace /= -h -h' -sumrB.
by apply: eq_bigr => k _; rewrite ent_subm.
Qed.

Lemma trace_scalem a A : trace (scalem a A) = a * trace A.
Proof. by rewrite /trace big_distrr; apply: eq_bigr => k _; rewrite ent_scalem. Qed.

Lemma trace_mulmC A B : cols A = rows B -> rows A = cols B -> trace (mulm A B) = trace (mulm B A).
Proof.
move=> h h'; rewrite !trace_sq //= h'.
under eq_bigr do rewrite ent_mulm.
rewrite exchange_big /= h; apply: eq_bigr => k _.
by rewrite ent_mulm; apply: eq_bigr => l _; rewrite mulrC.
Qed.

Lemma trace_hc A : trace (hc A) = (trace A)^*.
Proof.
rewrite /trace minnC rmorph_sum /=; apply: eq_bigr => k _; by rewrite ent_hc.
Qed.

Lemma trace_idm n : trace (idm C n) = n%:R.
Proof.
rewrite trace_sq //= (eq_bigr (fun _ => 1)) ?sumr_const ?card_ord //.
by move=> k _; rewrite ent_idm eqxx ltn_ord.
Qed.

(** ** Sums over a product range *)
Lemma sum_divmod m n (F : nat -> nat -> C) :
  \sum_(k < m * n) F (k %/ n)%N (k %% n)%N = \sum_(i < m) \sum_(j < n) F i j.
Proof.
rewrite -(big_mkord xpredT (fun k => F (k %/ n)%N (k %% n)%N)).
rewrite -(big_mkord xpredT (fun i => \sum_(j < n) F i j)).
case: n => [|n].
  by rewrite muln0 big_geq // big1 // => i _; rewrite big_ord0.
elim: m => [|m IH]; first by rewrite mul0n !big_geq.
rewrite mulSn addnC (@big_cat_nat _ _ _ (m * n.+1)%N) //=; last exact: leq_addr.
rewrite IH big_nat_recr //=; congr (_ + _).
rewrite -{1}[(m * n.+1)%N]add0n big_addn addKn big_mkord.
apply: eq_bigr => j _.
by rewrite addnC divnMDl // modnMDl divn_small ?addn0 // modn_small.
Qed.

(** ** Tensor product *)
Lemma div_lt_l i r b : (i < r * b)%N -> (i %/ b < r)%N.
Proof. by case: b => [|b]; rewrite ?muln0 // => h; rewrite ltn_divLR. Qed.
Lemma mod_lt_l i r b : (i < r * b)%N -> (i %% b < b)%N.
Proof. by case: b => [|b]; rewrite ?muln0 // => h; rewrite ltn_mod. Qed.

Lemma ent_kron_in A B i j : (i < rows A * rows B)%N -> (j < cols A * cols B)%N ->
  ent (kron A B) i j = ent A (i %/ rows B) (j %/ cols B) * ent B (i %% rows B) (j %% cols B).
Proof. by move=> hi hj; rewrite ent_mk. Qed.

Lemma kron_mulm A B D E : cols A = rows D -> cols B = rows E ->
  mulm (kron A B) (kron D E) = kron (mulm A D) (mulm B E).
Proof.
move=> h h'; apply: mat_ext => // i j /= hi hj.
rewrite ent_mulm ent_kron_in //= !ent_mulm.
under eq_bigr => k _.
  rewrite !ent_kron_in //; first last.
  - by rewrite -h -h'; apply: ltn_ord.
  rewrite -h'.
  over.
rewrite /= (sum_divmod (cols A) (cols B) (fun k l =>
  ent A (i %/ rows B) k * ent B (i %% rows B) l * (ent D k (j %/ cols E) * ent E l (j %% cols E)))).
rewrite big_distrl /=; apply: eq_bigr => k _.
by rewrite big_distrr /=; apply: eq_bigr => l _; rewrite mulrACA.
Qed.

Lemma kronA A B D : kron A (kron B D) = kron (kron A B) D.
Proof.
apply: mat_ext => [||i j hi hj]; rewrite ?shapes ?mulnA //.
have hi2 : (i < rows A * rows B * rows D)%N by rewrite -mulnA.
have hj2 : (j < cols A * cols B * cols D)%N by rewrite -mulnA.
rewrite (ent_kron_in hi hj) (ent_kron_in (A := B) (B := D) (mod_lt_l hi) (mod_lt_l hj)).
rewrite (ent_kron_in (A := kron A B) hi2 hj2).
rewrite (ent_kron_in (A := A) (B := B) (div_lt_l hi2) (div_lt_l hj2)) !shapes.
rewrite mulrA; congr (ent A _ _ * ent B _ _ * ent D _ _).
- by rewrite mulnC divnMA.
- by rewrite mulnC divnMA.
- by rewrite modn_divl.
- by rewrite modn_divl.
- by rewrite modn_dvdm // dvdn_mull.
- by rewrite modn_dvdm // dvdn_mull.
Qed.

Lemma hc_kron A B : hc (kron A B) = kron (hc A) (hc B).
Proof.
by apply: mat_ext => // i j hi hj; rewrite ent_hc !ent_kron_in //= !ent_hc rmorphM.
Qed.

Lemma trm_kron A B : trm (kron A B) = kron (trm A) (trm B).
Proof.
by apply: mat_ext => // i j hi hj; rewrite ent_trm !ent_kron_in //= !ent_trm.
Qed.

Lemma trace_kron A B : rows A = cols A -> rows B = cols B -> trace (kron A B) = trace A * trace B.
Proof.
move=> h h'; rewrite !trace_sq /= ?h ?h' //.
under eq_bigr => k _ do rewrite ent_kron_in ?h ?h' //.
rewrite (sum_divmod (cols A) (cols B) (fun k l => ent A k k * ent B l l)).
by rewrite big_distrl; apply: eq_bigr => k _; rewrite big_distrr.
Qed.

Lemma kron_addml A B D : rows A = rows B -> cols A = cols B ->
  kron (addm A B) D = addm (kron A D) (kron B D).
Proof.
move=> h h'; apply: mat_ext => // i j hi hj.
by rewrite ent_addm ?shapes ?h ?h' // !ent_kron_in -?h -?h' //= ent_addm // mulrDl.
Qed.

Lemma kron_addmr A B D : rows B = rows D -> cols B = cols D ->
  kron A (addm B D) = addm (kron A B) (kron A D).
Proof.
move=> h h'; apply: mat_ext => // i j hi hj.
by rewrite ent_addm ?shapes ?h ?h' // !ent_kron_in -?h -?h' //= ent_addm // mulrDr.
Qed.

Lemma kron_submr A B D : rows B = rows D -> cols B = cols D ->
  kron A (subm B D) = subm (kron A B) (kron A D).
Proof.
move=> h h'; apply: mat_ext => // i j hi hj.
by rewrite ent_subm ?shapes ?h ?h' // !ent_kron_in -?h -?h' //= ent_subm // mulrBr.
Qed.

Lemma kron_scaleml a A B : kron (scalem a A) B = scalem a (kron A B).
Proof.
by apply: mat_ext => // i j hi hj; rewrite ent_scalem !ent_kron_in //= ent_scalem mulrA.
Qed.

Lemma kron_scalemr a A B : kron A (scalem a B) = scalem a (kron A B).
Proof.
by apply: mat_ext => // i j hi hj; rewrite ent_scalem !ent_kron_in //= ent_scalem mulrCA.
Qed.

Lemma kron_idm m n : kron (idm C m) (idm C n) = idm C (m * n).
Proof.
apply: mat_ext => // i j /= hi hj.
rewrite ent_kron_in // !ent_idm /= hi (div_lt_l hi) (mod_lt_l hi) !andbT -natrM mulnb.
congr (nat_of_bool _)%:R.
apply/andP/eqP => [[/eqP e /eqP e']|->]; last by [].
by rewrite (divn_eq i n) e e' -divn_eq.
Qed.

Lemma kron1m A : kron (idm C 1) A = A.
Proof.
apply: mat_ext => /=; rewrite ?mul1n // => i j hi hj.
rewrite ent_kron_in ?mul1n //= !divn_small // !modn_small //.
by rewrite ent_idm mul1r.
Qed.

Lemma kronm1 A : kron A (idm C 1) = A.
Proof.
apply: mat_ext => /=; rewrite ?muln1 // => i j hi hj.
by rewrite ent_kron_in ?muln1 //= !divn1 !modn1 ent_idm mulr1.
Qed.

End Lib.

Arguments shapes {C}.
