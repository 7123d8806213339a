(** The standard library's [ring] and [field] tactics for scalars.
    Use: inside a section with [C : numClosedFieldType],
    [Add Field Cfield : (@C_field C)], then [cring] or [cfield]. *)
From mathcomp Require Import all_ssreflect all_algebra.
From Coq Require Export Ring Field.
Set Implicit Arguments.
Unset Strict Implicit.
Unset Printing Implicit Defensive.
Import GRing.Theory Num.Theory.
Local Open Scope ring_scope.

Definition cadd (C : numClosedFieldType) (x y : C) : C := x + y.
Definition cmul (C : numClosedFieldType) (x y : C) : C := x * y.
Definition copp (C : numClosedFieldType) (x : C) : C := - x.
Definition cinv (C : numClosedFieldType) (x : C) : C := x^-1.
Definition csub (C : numClosedFieldType) (x y : C) : C := x - y.
Definition cdiv (C : numClosedFieldType) (x y : C) : C := x / y.
Definition cconj (C : numClosedFieldType) (x : C) : C := x^*.
Definition cnat (C : numClosedFieldType) (n : nat) : C := n%:R.
Definition czero (C : numClosedFieldType) : C := 0.
Definition cone (C : numClosedFieldType) : C := 1.
Definition cexp (C : numClosedFieldType) (x : C) (n : nat) : C := x ^+ n.

Lemma C_ring (C : numClosedFieldType) :
  @ring_theory C (czero C) (cone C) (@cadd C) (@cmul C) (@csub C) (@copp C) eq.
Proof.
split=> *.
- exact: add0r.
- exact: addrC.
- exact: addrA.
- exact: mul1r.
- exact: mulrC.
- exact: mulrA.
- exact: mulrDl.
- by [].
- exact: subrr.
Qed.

Lemma C_field (C : numClosedFieldType) :
  @field_theory C (czero C) (cone C) (@cadd C) (@cmul C) (@csub C) (@copp C) (@cdiv C) (@cinv C) eq.
Proof.
split=> //.
- exact: C_ring.
- by apply/eqP; rewrite oner_eq0.
- by move=> x /eqP h; rewrite /cmul mulVf.
Qed.

Ltac cnorm1 C :=
  repeat match goal with
  | |- context [@GRing.exp _ ?x 2] => change (@GRing.exp _ x 2) with (cmul (C := C) x x)
  | |- context [@GRing.add _ ?x ?y] => change (@GRing.add _ x y) with (cadd (C := C) x y)
  | |- context [@GRing.mul _ ?x ?y] => change (@GRing.mul _ x y) with (cmul (C := C) x y)
  | |- context [@GRing.opp _ ?x] => change (@GRing.opp _ x) with (copp (C := C) x)
  | |- context [@GRing.inv _ ?x] => change (@GRing.inv _ x) with (cinv (C := C) x)
  | |- context [@GRing.natmul _ (GRing.one _) 2] => change (@GRing.natmul _ (GRing.one _) 2) with (cadd (cone C) (cone C))
  | |- context [@GRing.natmul _ (GRing.one _) ?n] => change (@GRing.natmul _ (GRing.one _) n) with (cnat C n)
  | |- context [@GRing.zero _] => change (@GRing.zero _) with (czero C)
  | |- context [@GRing.one _] => change (@GRing.one _) with (cone C)
  | |- context [@GRing.RMorphism.apply ?R1 ?R2 ?ph (@conjC _) ?x] =>
      change (@GRing.RMorphism.apply R1 R2 ph (@conjC _) x) with (cconj (C := C) x)
  end;
  match goal with |- @eq _ ?a ?b => change (@eq (Num.ClosedField.sort C) a b) end.
