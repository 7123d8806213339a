(** The real numbers of Coq's standard library as a real closed field of
    mathcomp, and with it the complex numbers [R[i]] as a [numClosedFieldType].
    This models no code: it gives the instances (true [exp], [cos], [sin] and
    matrix exponential) of what other files take as an oracle. *)
From Coq Require Import Reals Lra ClassicalEpsilon FunctionalExtensionality.
From mathcomp Require Import all_ssreflect all_algebra.
From mathcomp Require Import complex.
Set Implicit Arguments.
Unset Strict Implicit.
Unset Printing Implicit Defensive.
Import GRing.Theory Num.Theory Order.TTheory.
Local Open Scope ring_scope.

Bind Scope ring_scope with R.
#[global] Arguments exp _%ring_scope.
#[global] Arguments cos _%ring_scope.
#[global] Arguments sin _%ring_scope.
#[global] Arguments ln _%ring_scope.

Definition eqr (x y : R) : bool := if Req_EM_T x y then true else false.
Lemma eqrP : Equality.axiom eqr.
Proof. by move=> x y; rewrite /eqr; case: Req_EM_T => h; constructor. Qed.
Canonical R_eqType := Eval hnf in EqType R (EqMixin eqrP).

Definition pickR (P : pred R) (n : nat) : option R :=
  let x := epsilon (inhabits R0) (fun x => P x) in if P x then Some x else None.
Fact pickR_some P n x : pickR P n = Some x -> P x.
Proof. by rewrite /pickR; case: ifP => // h [<-]. Qed.
Fact pickR_ex (P : pred R) : (exists x : R, P x) -> exists n, pickR P n.
Proof. by move=> h; exists 0%N; rewrite /pickR (epsilon_spec (inhabits R0) (fun x => P x) h). Qed.
Fact pickR_ext (P Q : pred R) : P =1 Q -> pickR P =1 pickR Q.
Proof. by move=> h n; have -> : P = Q by apply: functional_extensionality. Qed.
Definition R_choiceMixin : choiceMixin R := Choice.Mixin pickR_some pickR_ex pickR_ext.
Canonical R_choiceType := Eval hnf in ChoiceType R R_choiceMixin.

Fact RplusA : associative Rplus. Proof. by move=> *; rewrite Rplus_assoc. Qed.
Definition R_zmodMixin := ZmodMixin RplusA Rplus_comm Rplus_0_l Rplus_opp_l.
Canonical R_zmodType := Eval hnf in ZmodType R R_zmodMixin.

Fact RmultA : associative Rmult. Proof. by move=> *; rewrite Rmult_assoc. Qed.
Fact R1_neq_0 : R1 != R0. Proof. by apply/eqP/R1_neq_R0. Qed.
Definition R_ringMixin :=
  ComRingMixin RmultA Rmult_comm Rmult_1_l Rmult_plus_distr_r R1_neq_0.
Canonical R_ringType := Eval hnf in RingType R R_ringMixin.
Canonical R_comRingType := Eval hnf in ComRingType R Rmult_comm.

Definition Rinvx (r : R) : R := if r == 0 then 0 else Rinv r.
Fact RmultRinvx (x : R) : x != 0 -> Rinvx x * x = 1.
Proof. by move=> h; rewrite /Rinvx (negbTE h); apply: Rinv_l; apply/eqP. Qed.
Fact Rinvx0 : Rinvx 0 = 0. Proof. by rewrite /Rinvx eqxx. Qed.
Definition R_unitMixin := FieldUnitMixin RmultRinvx Rinvx0.
Canonical R_unitRingType := Eval hnf in UnitRingType R R_unitMixin.
Canonical R_comUnitRingType := Eval hnf in [comUnitRingType of R].
Fact R_field_axiom : GRing.Field.mixin_of R_unitRingType. Proof. exact. Qed.
Canonical R_idomainType := Eval hnf in IdomainType R (FieldIdomainMixin R_field_axiom).
Canonical R_fieldType := Eval hnf in FieldType R R_field_axiom.

Definition Rleb (x y : R) : bool := if Rle_dec x y then true else false.
Definition Rltb (x y : R) : bool := (y != x) && Rleb x y.
Lemma RlebP x y : reflect (Rle x y) (Rleb x y).
Proof. by rewrite /Rleb; case: Rle_dec => h; constructor. Qed.
Fact Rle0D (x y : R) : Rleb 0 x -> Rleb 0 y -> Rleb 0 (x + y).
Proof. by move=> /RlebP h1 /RlebP h2; apply/RlebP; apply: Rplus_le_le_0_compat. Qed.
Fact Rle0M (x y : R) : Rleb 0 x -> Rleb 0 y -> Rleb 0 (x * y).
Proof. by move=> /RlebP h1 /RlebP h2; apply/RlebP; apply: Rmult_le_pos. Qed.
Fact Rle0_anti (x : R) : Rleb 0 x -> Rleb x 0 -> x = 0.
Proof. by move=> /RlebP h1 /RlebP h2; apply: Rle_antisym. Qed.
Fact Rsub_ge0 (x y : R) : Rleb 0 (y - x) = Rleb x y.
Proof.
apply/RlebP/RlebP => h; first by apply: Rminus_le; have := h; rewrite /GRing.add /GRing.opp /GRing.zero /=; lra.
by rewrite /GRing.add /GRing.opp /GRing.zero /=; lra.
Qed.
Fact Rle0_total (x : R) : Rleb 0 x || Rleb x 0.
Proof.
case: (Rle_dec R0 x) => h; first by apply/orP; left; apply/RlebP.
by apply/orP; right; apply/RlebP; apply: Rlt_le; apply: Rnot_le_lt.
Qed.
Fact Rle_total (x y : R) : Rleb x y || Rleb y x.
Proof.
case: (Rle_dec x y) => h; first by apply/orP; left; apply/RlebP.
by apply/orP; right; apply/RlebP; apply: Rlt_le; apply: Rnot_le_lt.
Qed.
Fact RnormN (x : R) : Rabs (- x) = Rabs x. Proof. exact: Rabs_Ropp. Qed.
Fact Rge0_norm (x : R) : Rleb 0 x -> Rabs x = x.
Proof. by move=> /RlebP h; apply: Rabs_pos_eq. Qed.
Fact Rltb_def (x y : R) : Rltb x y = (y != x) && Rleb x y. Proof. by []. Qed.
Definition R_leMixin : realLeMixin R_idomainType :=
  RealLeMixin Rle0D Rle0M Rle0_anti Rsub_ge0 Rle0_total RnormN Rge0_norm Rltb_def.
Canonical R_porderType := POrderType ring_display R R_leMixin.
Canonical R_latticeType := LatticeType R R_leMixin.
Canonical R_distrLatticeType := DistrLatticeType R R_leMixin.
Canonical R_orderType := OrderType R Rle_total.
Canonical R_numDomainType := NumDomainType R R_leMixin.
Canonical R_normedZmodType := NormedZmodType R R R_leMixin.
Canonical R_numFieldType := [numFieldType of R].
Canonical R_realDomainType := [realDomainType of R].
Canonical R_realFieldType := [realFieldType of R].

Lemma RleP (x y : R) : reflect (Rle x y) (x <= y). Proof. exact: RlebP. Qed.
Lemma RltP (x y : R) : reflect (Rlt x y) (x < y).
Proof.
apply: (iffP idP) => [|h].
  by rewrite lt_neqAle => /andP[/eqP h1 /RleP h2]; case: h2.
by rewrite lt_neqAle; apply/andP; split; [apply/eqP; lra | apply/RleP; lra].
Qed.
Lemma RaddE (x y : R) : x + y = Rplus x y. Proof. by []. Qed.
Lemma RoppE (x : R) : - x = Ropp x. Proof. by []. Qed.
Lemma RsubE (x y : R) : x - y = Rminus x y. Proof. by []. Qed.
Lemma RmulE (x y : R) : x * y = Rmult x y. Proof. by []. Qed.
Lemma RinvE (x : R) : x != 0 -> x^-1 = Rinv x.
Proof. by move=> h; rewrite /GRing.inv /= /Rinvx (negbTE h). Qed.
Lemma RnormE (x : R) : `|x| = Rabs x. Proof. by []. Qed.
Lemma RnatE (n : nat) : n%:R = INR n.
Proof. by elim: n => // n IH; rewrite S_INR -IH -addn1 natrD. Qed.
Lemma RexpE (x : R) n : x ^+ n = pow x n.
Proof. by elim: n => //= n <-; rewrite exprS. Qed.

Lemma R_continuous_horner (p : {poly R}) : continuity (fun x => p.[x]).
Proof.
elim/poly_ind: p => [|p c IH].
  have -> : (fun x : R => (0 : {poly R}).[x]) = (fun _ => R0) by apply: functional_extensionality => y; rewrite horner0.
  by move=> x; apply: continuity_pt_const.
have -> : (fun x : R => (p * 'X + c%:P).[x]) = (fun y => Rplus (Rmult p.[y] y) c).
  by apply: functional_extensionality => y; rewrite hornerMXaddC.
move=> x; apply: (@continuity_pt_plus (fun y => Rmult p.[y] y) (fun _ => c)); last by apply: continuity_pt_const.
by apply: (@continuity_pt_mult (fun y => p.[y]) id); [apply: IH | apply: derivable_continuous_pt; apply: derivable_pt_id].
Qed.

Fact R_real_closed : Num.real_closed_axiom R_numDomainType.
Proof.
move=> p a b hab /andP[ha hb].
have [||x [[h1 h2] h3]] := IVT_cor (fun x => p.[x]) a b (@R_continuous_horner p).
- by apply/RleP.
- by apply/RleP; rewrite -RmulE mulr_le0_ge0.
by exists x; [apply/andP; split; apply/RleP | apply/rootP].
Qed.
Canonical R_rcfType := RcfType R R_real_closed.

(** The complex numbers. *)
Notation RC := [numClosedFieldType of R[i]].

Fact R_archimedean : Num.archimedean_axiom R_numDomainType.
Proof.
move=> x; have [h _] := archimed (Rabs x); exists (Z.to_nat (up (Rabs x))); apply/RltP; rewrite RnatE RnormE.
rewrite INR_IZR_INZ Z2Nat.id //; apply: le_IZR; have := Rabs_pos x; lra.
Qed.
Canonical R_archiFieldType := ArchiFieldType R R_archimedean.

(** [ring] and [lra] of the standard library on goals of mathcomp. *)
Ltac rnorm := rewrite ?RaddE ?RoppE ?RmulE; try change (GRing.zero _) with R0 in *; try change (GRing.one _) with R1 in *.
Ltac rring := rnorm; match goal with |- @eq _ ?x ?y => change (@eq R x y) end; ring.
