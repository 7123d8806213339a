(** What C86 says about explicit time dependence. *)
From Coq Require Import QArith.
From Verif Require Import Py TimeModel ProtModel ProtSpec TimeDepModel.
#[local] Open Scope nat_scope.

(** A simulation whose chain of bounds, of l simulations, ends in the unbound simulation m. *)
Inductive follows (h : heap) (m : nat) : nat -> nat -> Prop :=
| follows_end : t_bound (h m) = None -> follows h m 1 m
| follows_next l y b : t_bound (h y) = Some b -> follows h m l b -> follows h m (S l) y.

(** y is x or one of its sub-systems, at any depth. *)
Inductive within : sysT -> sysT -> Prop :=
| within_self x : within x x
| within_sub y x m subs terms : In x subs -> within y x -> within y (Sys m subs terms).
(** The terms of a system and of its sub-systems. *)
Inductive termOf (ter : nat) : sysT -> Prop :=
| term_here m subs terms : In ter terms -> termOf ter (Sys m subs terms)
| term_sub x m subs terms : In x subs -> termOf ter x -> termOf ter (Sys m subs terms).

Section S.
Variable V : Type.
Variable tdf : nat -> option (Q -> list (nat * V)).

(** A function of a term of x gives the parameter p the value v at time t. *)
Definition gives (x : sysT) (t : Q) (p : nat) (v : V) : Prop :=
  exists ter f, termOf ter x /\ tdf ter = Some f /\ In (p, v) (f t).
(** The parameters e', which are e with those of x at their values at time t. *)
Definition atTime (x : sysT) (t : Q) (e e' : nat -> V) : Prop :=
  (forall p v, gives x t p v -> e' p = v) /\
  (forall p, (forall v, ~ gives x t p v) -> e' p = e p).
(** No parameter is given two values at the same time, and the same ones are given at all times. *)
Definition oneValue (x : sysT) : Prop :=
  (forall t p v v', gives x t p v -> gives x t p v' -> v = v') /\
  (forall t t' p v, gives x t p v -> exists v', gives x t' p v').
End S.
