(** What C87 says about a whole run with sweeps. *)
From Coq Require Import QArith.
From Verif Require Import Py TimeModel ProtModel ProtSpec TimeDepModel TimeDepSpec SweepModel SweepSpec ResModel.
#[local] Open Scope nat_scope.

Section S.
Variable V : Type.
Variable tdf : nat -> option (Q -> list (nat * V)).
(** The parameter that a target of a sweep is, if it is one. *)
Variable par : target -> option nat.

(** The parameters at the grid point idx of the sweeps: swept ones have the value at their index,
    the others are those of e0. *)
Definition isAt (gs : list (group V)) (idx : list nat) (e0 e : nat -> V) : Prop :=
  (forall t v p, assigned (scheduled gs idx) t v -> par t = Some p -> e p = v) /\
  (forall p, (forall t, par t = Some p -> Forall (fun x => ~ In t (snd (fst x))) (scheduled gs idx)) -> e p = e0 p).

(** No function of time of the systems of the protocols sets the parameter p. *)
Definition notTimed (rs : list node) (top : node -> sysT) (p : nat) : Prop :=
  forall n t v, In n rs -> ~ gives V tdf (top n) t p v.
End S.
