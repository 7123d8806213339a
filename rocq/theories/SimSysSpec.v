(** What C83 says about the systems and protocols of a simulation. *)
From Verif Require Import Py SweepModel SimSysModel.
From mathcomp Require Import all_ssreflect.
Set Implicit Arguments.
Unset Strict Implicit.
Unset Printing Implicit Defensive.

(** What a new simulation reaches by additions, removals, qEvolutions and run. *)
Definition reachable (w : world) (me : nat) (s : st) : Prop :=
  exists s0 os, s_dict s0 = [::] /\ s = run w me s0 os.
(** The same, when no system is added with a protocol given apart from it. *)
Definition noPair (o : op) : bool := if o is AddWith _ _ then false else true.
Definition reachableOwn (w : world) (me : nat) (s : st) : Prop :=
  exists s0 os, [/\ s_dict s0 = [::], all noPair os & s = run w me s0 os].

(** The pairs of a protocol, or of the name of a system, and a system, in order. *)
Definition listed (s : st) : list (key * nat) := zip (protocols s) (qSystems s).

(** Nothing is swept. *)
Definition noSweep (s : st) : Prop := forall m, s_sweep s m = [::] /\ s_tdep s m = [::].

(** The protocol of a pair when the simulation runs. *)
Definition atRun (w : world) (e : key * nat) : key := if e.1.1 then e.1 else KPro (w_free w e.2).

(** The object [o] is swept, or time dependent, in the simulation [m]. *)
Definition sweptIn (s : st) (m o : nat) : bool := has (fun e => o \in e.2) (s_sweep s m ++ s_tdep s m).
(** The objects that leave the sweeps with a system. *)
Definition partsOf (w : world) (q : nat) : list nat := [:: q; w_sim w q; w_free w q; w_sim w (w_free w q)].
