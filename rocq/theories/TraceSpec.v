(** Specification of the partial trace. *)
From mathcomp Require Import all_ssreflect all_algebra.
From Verif Require Py.
From Verif Require Import MatModel MatSpec.
Set Implicit Arguments.
Unset Strict Implicit.
Unset Printing Implicit Defensive.
Import GRing.Theory Num.Theory.
Local Open Scope ring_scope.

(** [m] says which subsystems are kept.  [weave m u t] is the index of the whole
    system with the digits [u] on the kept and [t] on the other subsystems. *)
Fixpoint weave (m : seq bool) (u t : seq nat) : seq nat :=
  match m with
  | [::] => [::]
  | true :: m' => head 0%N u :: weave m' (behead u) t
  | false :: m' => head 0%N t :: weave m' u (behead t)
  end.

(** The elements of a list on the kept and on the other subsystems. *)
Definition onKept (T : Type) (m : seq bool) (xs : seq T) : seq T := mask m xs.
Definition onRest (T : Type) (m : seq bool) (xs : seq T) : seq T := mask (map negb m) xs.

(** Which of [n] subsystems a keep list names. *)
Definition keepMask (n : nat) (keep : seq nat) : seq bool := [seq i \in keep | i <- iota 0 n].

Section Spec.
Variable C : numClosedFieldType.

(** Sum over all digits of subsystems with these dimensions. *)
Fixpoint sumDigits (dims : seq nat) (f : seq nat -> C) : C :=
  match dims with
  | [::] => f [::]
  | d :: ds => \sum_(i < d) sumDigits ds (fun t => f ((i : nat) :: t))
  end.

(** [R] is the partial trace of [rho] over the subsystems that are not kept. *)
Definition isPartialTrace (m : seq bool) (dims : seq nat) (rho R : mat C) : Prop :=
  square (prodn (onKept m dims)) R /\
  forall u v, isIdx (onKept m dims) u -> isIdx (onKept m dims) v ->
    ent R (enc (onKept m dims) u) (enc (onKept m dims) v)
    = sumDigits (onRest m dims)
        (fun t => ent rho (enc dims (weave m u t)) (enc dims (weave m v t))).

(** [B] acts as [A] on the kept subsystems and as the identity on the others. *)
Definition actsOnKept (m : seq bool) (dims : seq nat) (A B : mat C) : Prop :=
  square (prodn (onKept m dims)) A /\ square (prodn dims) B /\
  forall u v t s, isIdx (onKept m dims) u -> isIdx (onKept m dims) v ->
    isIdx (onRest m dims) t -> isIdx (onRest m dims) s ->
    ent B (enc dims (weave m u t)) (enc dims (weave m v s))
    = ent A (enc (onKept m dims) u) (enc (onKept m dims) v) * (t == s)%:R.

(** [keep] is a valid list of distinct subsystems. *)
Definition validKeep (dims keep : seq nat) : Prop :=
  [/\ keep <> [::], uniq keep & all (fun k => k < size dims)%N keep].

End Spec.
