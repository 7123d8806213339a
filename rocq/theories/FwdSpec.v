(** What it means to reach an attribute through a system or through its
    simulation. *)
From Coq Require Import QArith.
From Verif Require Import Py TimeModel FwdModel.
#[local] Open Scope list_scope.

Definition about {V} (a : act V) : string := match a with Get n => n | Put n _ => n end.

(** The same attribute is asked of the same object, or of a system whose class
    does not have it on one side and of that system's simulation on the other. *)
Definition sameButFor {W V} (attrs : nat -> string -> option (desc W V)) (isComp : nat -> bool)
  (simOf : W -> nat -> option nat) (w : W) (x y : nat * act V) : Prop :=
  snd x = snd y /\
  (fst x = fst y \/
   (isComp (fst x) = true /\ attrs (fst x) (about (snd x)) = None /\
    simOf w (fst x) = Some (fst y) /\ isComp (fst y) = false)).

(** Reading or assigning the attribute [n] of any object leaves every object its
    simulation. *)
Definition keepsSims {W V} (attrs : nat -> string -> option (desc W V)) (simOf : W -> nat -> option nat)
  (n : string) : Prop :=
  forall o d, attrs o n = Some d ->
    (forall w, simOf (fst (d_get W V d w)) = simOf w) /\
    (forall f v w, d_set W V d = Some f -> simOf (fst (f v w)) = simOf w).

(** The assignments of the time parameters, made on the simulations. *)
Fixpoint onSims (lim : nat) (l : list (nat * (way * key * Q))) (h : heap) : heap * list (result unit) :=
  match l with
  | nil => (h, nil)
  | cons (q, (_, k, x)) l' =>
      let (h1, r) := set_prop lim (S q) k x h in
      let (h2, rs) := onSims lim l' h1 in (h2, cons r rs)
  end.
