(** The two parts of a pure state have the same nonzero eigenvalues. *)
From mathcomp Require Import all_ssreflect all_algebra.
From Verif Require Py.
From Verif Require Import MatModel TraceModel MatLib MatSpec MatProofs TraceSpec TraceProofs ExpmInst EigSpec SpecProofs.
Set Implicit Arguments.
Unset Strict Implicit.
Unset Printing Implicit Defensive.
Import Order.TTheory GRing.Theory Num.Theory.
Local Open Scope ring_scope.

Section Schmidt.
Variable C : numClosedFieldType.
Local Notation adj := (@adjmx C _ _).

Lemma sylvester a b (A : 'M[C]_(a, b)) (B : 'M[C]_(b, a)) x :
  \det (x%:M - A *m B) * x ^+ b = x ^+ a * \det (x%:M - B *m A).
Proof.
pose M := block_mx (x%:M : 'M[C]_a) A B (1%:M : 'M[C]_b).
have e1 : M *m block_mx 1%:M 0 (- B) 1%:M = block_mx (x%:M - A *m B) A 0 1%:M.
  by rewrite mulmx_block !mulmx1 !mulmx0 mul1mx mulmxN !add0r subrr.
have e2 : M *m block_mx 1%:M (- A) 0 x%:M = block_mx x%:M 0 B (x%:M - B *m A).
  rewrite mulmx_block !mulmx1 !mulmx0 !addr0 mul1mx !mulmxN mul_mx_scalar mul_scalar_mx.
  by rewrite addNr [- _ + _]addrC.
have d1 : \det M = \det (x%:M - A *m B).
  by have := congr1 (@determinant _ _) e1; rewrite det_mulmx det_lblock det_ublock !det1 !mulr1.
have := congr1 (@determinant _ _) e2; rewrite det_mulmx det_ublock det_lblock !det_scalar expr1n mul1r.
by rewrite d1.
Qed.

Lemma nonzero_gram a b (A : 'M[C]_(a, b)) (B : 'M[C]_(b, a)) s t :
  isSpectrum a (Mat (A *m B)) s -> isSpectrum b (Mat (B *m A)) t ->
  perm_eq [seq v <- s | v != 0] [seq v <- t | v != 0].
Proof.
move=> /spectrumE[_ hs] /spectrumE[_ ht].
have pz (x : C) k : \prod_(z <- nseq k (0 : C)) (x - z) = x ^+ k.
  by elim: k => [|k IH]; rewrite ?big_nil // big_cons IH subr0 exprS.
have : perm_eq (s ++ nseq b 0) (nseq a 0 ++ t).
  by apply: prod_perm => x; rewrite !big_cat /= !pz -hs -ht sylvester.
move=> /(perm_filter (fun v => v != 0)); rewrite !filter_cat.
have z k : [seq v <- nseq k (0 : C) | v != 0] = [::] by elim: k => //= k ->; rewrite eqxx.
by rewrite !z cats0.
Qed.

Lemma spectrum_tr n (A : 'M[C]_n) s : isSpectrum n (Mat A^T) s -> isSpectrum n (Mat A) s.
Proof.
move=> /spectrumE[sz h]; apply/spectrumE; split=> // x; rewrite -h.
by rewrite -[in RHS]det_tr linearB /= tr_scalar_mx trmxK.
Qed.

Lemma nonzero_perm a b (A : 'M[C]_(a, b)) (B : 'M[C]_(b, a)) s t :
  isSpectrum a (Mat (A *m B)) s -> isSpectrum b (Mat (B *m A)^T) t ->
  perm_eq [seq v <- s | v != 0] [seq v <- t | v != 0].
Proof. by move=> hs /spectrum_tr; apply: nonzero_gram. Qed.

Lemma isPT_gram m dims (psi : nat -> C) rho R R' : size m = size dims ->
  (forall i j, (i < prodn dims)%N -> (j < prodn dims)%N -> ent rho i j = psi i * (psi j)^*) ->
  isPartialTrace m dims rho R -> isPartialTrace (map negb m) dims rho R' ->
  exists X : 'M[C]_(prodn (onKept m dims), prodn (onRest m dims)),
    R = Mat (X *m adj X) /\ R' = Mat (adj X *m X)^T.
Proof.
move=> sz p [sR e] [sR' e'].
pose K := onKept m dims; pose T := onRest m dims.
pose dK i := nth [::] (tuples K) i; pose dT i := nth [::] (tuples T) i.
exists (\matrix_(i, j) psi (enc dims (weave m (dK i) (dT j)))); split.
  apply: mat_ext; [by case: sR | by case: sR |].
  move=> i j; case: (sR) => -> -> hi hj.
  have [u [hu eu]] := enc_surj hi; have [v [hv ev]] := enc_surj hj.
  rewrite ent_in mxE -{1}eu -{1}ev e //.
  have -> : sumDigits (onRest m dims) (fun t => ent rho (enc dims (weave m u t)) (enc dims (weave m v t)))
    = sumDigits T (fun t => psi (enc dims (weave m u (dT (enc T t)))) * (psi (enc dims (weave m v (dT (enc T t)))))^*).
    by apply: sumDigits_ext => t ht; rewrite /dT nth_tuples // !p //; apply: enc_lt; apply: weave_idx.
  rewrite -(sum_enc T (fun k => psi (enc dims (weave m u (dT k))) * (psi (enc dims (weave m v (dT k))))^*)).
  by apply: eq_bigr => k _; rewrite !mxE /= /dK -eu -ev !nth_tuples.
have sN : size (map negb m) = size dims by rewrite size_map.
apply: mat_ext; [by case: sR' | by case: sR' |].
move=> i j; case: (sR') => -> -> hi hj.
have [u [hu eu]] := enc_surj hi; have [v [hv ev]] := enc_surj hj.
rewrite ent_in 2!mxE -{1}eu -{1}ev e' // onRest_negb.
have -> : sumDigits (onKept m dims) (fun t => ent rho (enc dims (weave (map negb m) u t)) (enc dims (weave (map negb m) v t)))
  = sumDigits K (fun t => psi (enc dims (weave m (dK (enc K t)) u)) * (psi (enc dims (weave m (dK (enc K t)) v)))^*).
  by apply: sumDigits_ext => t ht; rewrite /dK nth_tuples // !weave_negb !p //; apply: enc_lt; apply: weave_idx.
rewrite -(sum_enc K (fun k => psi (enc dims (weave m (dK k) u)) * (psi (enc dims (weave m (dK k) v)))^*)).
by apply: eq_bigr => k _; rewrite !mxE /= /dT -eu -ev !nth_tuples // mulrC.
Qed.
End Schmidt.
