(** The true matrix exponential exists, is unique, and satisfies the laws used
    elsewhere.  Models no code. *)
From Coq Require Import Reals.
From mathcomp Require Import all_ssreflect all_algebra.
From mathcomp Require Import complex.
From Verif Require Py.
From Verif Require Import RC ExpSeries ExpMatrix MatModel MatLib MatSpec EvolSpec ExpmInst ExpmSpec.
Set Implicit Arguments.
Unset Strict Implicit.
Unset Printing Implicit Defensive.
Import GRing.Theory Num.Theory Order.TTheory.
Local Open Scope ring_scope.
Local Notation C := RC.

Lemma Ok_inj' T (x y : T) : Ok x = Ok y -> x = y. Proof. by case. Qed.

Lemma convergesE f l : converges f l <-> cvg f l.
Proof.
have e (x : C) (r : R) : (`|x| < ofR r) = (cabs x < r) by rewrite cabsE /ofR ltcR.
split=> h r hr; have [N hN] := h r hr; exists N => m hm; first by rewrite -e; apply: hN.
by rewrite e; apply: hN.
Qed.

(** Exponential of any square matrix, also of size zero. *)
Definition gexp n : 'M[C]_n -> 'M[C]_n :=
  match n with 0 => fun A => A | n'.+1 => @mexp n' end.

Definition expmT (A : mat C) : result (mat C) :=
  match A with
  | Mat r c D =>
      match eqVneq r c with
      | EqNotNeq e => Ok (Mat (gexp (castmx (erefl r, esym e) D)))
      | NeqNotEq _ => Err Py.ValueError
      end
  end.

Lemma expmTE n (D : 'M[C]_n) : expmT (Mat D) = Ok (Mat (gexp D)).
Proof.
rewrite /expmT; case: eqVneq => [e|]; last by rewrite eqxx.
by rewrite (eq_irrelevance e (erefl n)) castmx_id.
Qed.

Lemma powEntE n (D : 'M[C]_n.+1) k (i j : 'I_n.+1) : powEnt n.+1 (Mat D) k i j = (D ^+ k) i j.
Proof.
elim: k i => [|k IH] i /=; first by rewrite expr0 mxE.
rewrite exprS mxE; apply: eq_bigr => l _; rewrite IH; congr (_ * _).
by rewrite ent_in; congr (D _ _); apply: val_inj.
Qed.

Lemma psumE n (D : 'M[C]_n.+1) N (i j : 'I_n.+1) :
  \sum_(k < N) powEnt n.+1 (Mat D) k i j / (k`!)%:R = psum N D i j.
Proof.
rewrite /psum summxE big_mkord; apply: eq_bigr => k _.
by rewrite powEntE mxE mulrC.
Qed.

Lemma isExp_Mat n (D : 'M[C]_n) : isExponential n (Mat D) (Mat (gexp D)).
Proof.
split=> // i j hi hj; case: n D hi hj => // n D hi hj.
suff key (x y : 'I_n.+1) : converges (fun N => \sum_(k < N) powEnt n.+1 (Mat D) k x y / (k`!)%:R) (ent (Mat (gexp D)) x y).
  exact: (key (Ordinal hi) (Ordinal hj)).
apply/convergesE; rewrite ent_in.
have -> : gexp D (Ordinal (ltn_ord x)) (Ordinal (ltn_ord y)) = mexp D x y.
  by congr (mexp D _ _); apply: val_inj.
by apply: (cvg_ext _ (mexp_cvg D x y)) => N; rewrite psumE.
Qed.

Lemma isExp_unique n A E F : isExponential n A E -> isExponential n A F -> E = F.
Proof.
move=> [[e1 e2] hE] [[f1 f2] hF]; apply: mat_ext; rewrite ?e1 ?e2 ?f1 ?f2 // => i j hi hj.
by apply: (@cvg_unique _ _ _ (proj1 (convergesE _ _) (hE i j hi hj)) (proj1 (convergesE _ _) (hF i j hi hj))).
Qed.

Lemma expmT_exp : matrixExponential expmT.
Proof. by move=> n A /square_Mat[D ->]; exists (Mat (gexp D)); rewrite expmTE; split=> //; apply: isExp_Mat. Qed.

(** Any two functions that return the exponential agree on square matrices. *)
Lemma expm_Mat expm n (D : 'M[C]_n) : matrixExponential expm -> expm (Mat D) = Ok (Mat (gexp D)).
Proof.
move=> h; have [E [-> hE]] : exists E, expm (Mat D) = Ok E /\ isExponential n (Mat D) E by apply: h.
by rewrite (isExp_unique hE (isExp_Mat D)).
Qed.

(** * Laws for matrices of any size *)
Section G.
Variable n : nat.
Implicit Types A B P Q : 'M[C]_n.

Lemma gexpD A B : A *m B = B *m A -> gexp (A + B) = gexp A *m gexp B.
Proof. case: n A B => [|m] A B h; [exact: (etrans (flatmx0 _) (esym (flatmx0 _))) | exact: mexpD]. Qed.
Lemma gexp0 : gexp (0 : 'M[C]_n) = 1%:M.
Proof. case: n => [|m]; [exact: (etrans (flatmx0 _) (esym (flatmx0 _))) | exact: mexp0]. Qed.
Lemma gexpN A : gexp A *m gexp (- A) = 1%:M.
Proof. by rewrite -gexpD ?subrr ?gexp0 // mulmxN mulNmx. Qed.
Lemma gexpNl A : gexp (- A) *m gexp A = 1%:M.
Proof. by rewrite -{2}[A]opprK gexpN. Qed.
Lemma gexp_map A : gexp (map_mx (@conjC C) A) = map_mx (@conjC C) (gexp A).
Proof. case: n A => [|m] A; [exact: (etrans (flatmx0 _) (esym (flatmx0 _))) | exact: mexp_map]. Qed.
Lemma gexp_tr A : gexp A^T = (gexp A)^T.
Proof. case: n A => [|m] A; [exact: (etrans (flatmx0 _) (esym (flatmx0 _))) | exact: mexp_tr]. Qed.
Lemma gexp_adj A : gexp (adjmx A) = adjmx (gexp A).
Proof. by rewrite /adjmx gexp_tr gexp_map. Qed.
Lemma gexp_similar A P Q : P *m Q = 1%:M -> Q *m P = 1%:M -> gexp (P *m A *m Q) = P *m gexp A *m Q.
Proof. case: n A P Q => [|m] A P Q h1 h2; [exact: (etrans (flatmx0 _) (esym (flatmx0 _))) | exact: mexp_similar]. Qed.
Lemma gexp_comm A B : B *m A = A *m B -> B *m gexp A = gexp A *m B.
Proof. case: n A B => [|m] A B h; [exact: (etrans (flatmx0 _) (esym (flatmx0 _))) | exact: mexp_comm]. Qed.
Lemma gexp_fix A (w : 'rV[C]_n) : w *m A = 0 -> w *m gexp A = w.
Proof. case: n A w => [|m] A w h; [exact: (etrans (thinmx0 _) (esym (thinmx0 _))) | exact: mexp_fix]. Qed.

(** Closed sets of vectors kept by [1 + X/N + Y/N^2] for every [N]. *)
Lemma gexp_preserves X Y (P : 'cV[C]_n -> Prop) :
  (forall (u : R) v, 0 <= u -> P v -> P ((1%:M + ofR u *: X + ofR (u ^+ 2) *: Y) *m v)) ->
  (forall (f : nat -> 'cV[C]_n) (l : 'cV[C]_n), (forall N, P (f N)) ->
     (forall i, cvg (fun N => f N i 0) (l i 0)) -> P l) ->
  forall v, P v -> P (gexp X *m v).
Proof.
case: n X Y P => [|m] X Y P hK hcl v hv.
  by have -> : gexp X *m v = v by exact: (etrans (flatmx0 _) (esym (flatmx0 _))).
apply: (@mexp_preserves m X Y P) => // N w hw.
by apply: hK => //; apply: ui_ge0.
Qed.
End G.

Lemma conjC_RC (x : C) : x^* = (x^*)%C. Proof. by []. Qed.

(** * The laws assumed in EvolSpec.v *)
Lemma laws_true expm : matrixExponential expm ->
  expmTotal expm /\ expmFixes expm /\ expmConj expm /\ expmSimilar expm /\ expmLaws expm.
Proof.
move=> hE; split; last split; last split; last split.
- by move=> n A /square_Mat[D ->]; exists (Mat (gexp D)); rewrite expm_Mat.
- move=> n A E w /square_Mat[D ->]; rewrite expm_Mat // => -[<-] /hasShape_Mat[v ->].
  rewrite !mmulE //= !mulm_Mat zerom_Mat => /(@Ok_inj' _ _ _) /(@Mat_inj _ _ _ _ _) h.
  by rewrite gexp_fix.
- move=> n A E /square_Mat[D ->]; rewrite expm_Mat // => -[<-].
  by rewrite !conj_Mat expm_Mat // gexp_map.
- move=> n A E P Q /square_Mat[D ->]; rewrite expm_Mat // => -[<-] /square_Mat[p ->] /square_Mat[q ->].
  have e (X : 'M[C]_n) : mulm (mulm (Mat p) (Mat X)) (Mat q) = Mat (p *m X *m q) by rewrite (mulm_Mat p X) mulm_Mat.
  move=> /mmul_inv[_ h1] /mmul_inv[_ h2].
  rewrite idm_Mat (mulm_Mat p q) in h1; rewrite idm_Mat (mulm_Mat q p) in h2.
  rewrite (e D) (e (gexp D)) expm_Mat // gexp_similar //; first exact/esym/(Mat_inj h1).
  exact/esym/(Mat_inj h2).
- move=> n A /square_Mat[D ->]; exists (Mat (gexp D)), (Mat (gexp (- D))).
  rewrite scaleN_Mat !hc_Mat !(expm_Mat _ hE) gexp_adj.
  split; first by []; split; first by []; split; first by []; split; first by [].
  by rewrite !mmulE // (mulm_Mat (gexp D)) (mulm_Mat (gexp (- D))) gexpN gexpNl idm_Mat.
Qed.
