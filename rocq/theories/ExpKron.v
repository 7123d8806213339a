(** Exponentials of operators on one factor of a tensor product. Models no code. *)
From Coq Require Import Reals.
From mathcomp Require Import all_ssreflect all_algebra.
From mathcomp Require Import complex.
From Verif Require Py.
From Verif Require Import RC ExpSeries ExpMatrix ExpmSpec MatModel MatLib MatSpec MatProofs ExpmInst ExpmProofs LindProofs.
Set Implicit Arguments.
Unset Strict Implicit.
Unset Printing Implicit Defensive.
Import GRing.Theory Num.Theory Order.TTheory.
Local Open Scope ring_scope.
Local Notation C := RC.

Definition pw n (A : mat C) k : mat C := mk n n (powEnt n A k).

Lemma pwS n A k : square n A -> pw n A k.+1 = mulm A (pw n A k).
Proof.
move=> [h1 h2]; apply: mat_ext; rewrite /= ?h1 // => i j hi hj.
by rewrite ent_mk // ent_mulm h2 /=; apply: eq_bigr => l _; rewrite ent_mk.
Qed.
Lemma pw0 n A : pw n A 0 = idm C n.
Proof. by apply: mat_ext => // i j hi hj; rewrite ent_mk // ent_idm hi andbT. Qed.

Lemma comp_one b a n (i j : nat) : (i < b * n * a)%N -> (j < b * n * a)%N ->
  exists c i' j', [/\ (i' < n)%N, (j' < n)%N & forall X : mat C, square n X -> ent (comp X b a) i j = c * ent X i' j'].
Proof.
move=> hi hj.
have na : (0 < n * a)%N by case: (posnP (n * a)) hi => // e; rewrite -mulnA e muln0.
have a0 : (0 < a)%N by move: na; rewrite muln_gt0 => /andP[].
exists (ent (idm C b) (i %/ (n * a)) (j %/ (n * a)) * ent (idm C a) (i %% (n * a) %% a) (j %% (n * a) %% a)),
  (i %% (n * a) %/ a)%N, (j %% (n * a) %/ a)%N.
have hm k : (k %% (n * a) %/ a < n)%N by rewrite ltn_divLR // ltn_pmod.
split=> // X [x1 x2]; rewrite /comp ent_kron_in /= ?x1 ?x2 ?mulnA //.
rewrite ent_kron_in /= ?x1 ?x2 ?ltn_pmod //.
by rewrite -!mulrA; congr (_ * _); rewrite mulrC.
Qed.

Lemma powEnt_comp b a n (A : mat C) k i j : square n A -> (i < b * n * a)%N -> (j < b * n * a)%N ->
  powEnt (b * n * a) (comp A b a) k i j = ent (comp (pw n A k) b a) i j.
Proof.
move=> hA; have [h1 h2] := hA; have [c1 c2] := comp_shape A b a.
elim: k i => [|k IH] i hi hj; first by rewrite pw0 comp_id ent_idm hi andbT.
rewrite pwS // -comp_mul //= ent_mulm c2 h2; apply: eq_bigr => l _.
by rewrite IH.
Qed.

Lemma isExp_comp b a n (A E : mat C) : square n A -> isExponential n A E ->
  isExponential (b * n * a) (comp A b a) (comp E b a).
Proof.
move=> hA [sE h]; split.
  by have [c1 c2] := comp_shape E b a; case: sE => e1 e2; split; rewrite ?c1 ?c2 ?e1 ?e2.
move=> i j hi hj; have [c [i' [j' [hi' hj' hc]]]] := comp_one hi hj.
rewrite hc //; apply/convergesE; have /convergesE hcv := h _ _ hi' hj'.
apply: (cvg_ext _ (cvgZ c hcv)) => N; rewrite big_distrr /=; apply: eq_bigr => k _.
by rewrite powEnt_comp // hc // ent_mk // mulrA.
Qed.

Lemma expm_comp expm b a n (A E : mat C) : matrixExponential expm -> square n A -> expm A = Ok E ->
  expm (comp A b a) = Ok (comp E b a).
Proof.
move=> hE hA eA; have [F [eF hF]] := hE _ _ hA.
move: eF; rewrite eA => /(@Ok_inj' _ _ _) e; subst F.
have sc : square (b * n * a) (comp A b a).
  by have [c1 c2] := comp_shape A b a; case: hA => e1 e2; split; rewrite ?c1 ?c2 ?e1 ?e2.
have [G [-> hG]] := hE _ _ sc.
by rewrite (isExp_unique hG (isExp_comp b a hA hF)).
Qed.
