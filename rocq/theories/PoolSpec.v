(** What C89 says about a session. *)
From Coq Require Import ZArith.
From Verif Require Import Py PoolModel.
#[local] Open Scope Z_scope.

(** The number of processes of the last run that used a pool and did not raise. *)
Fixpoint lastPool (ev : list event) (d : option Z) : option Z :=
  match ev with
  | [] => d
  | Ran (Some n) true :: r => lastPool r (Some n)
  | _ :: r => lastPool r d
  end.
(** The pools that are open, newest first. *)
Fixpoint openPools (ev : list event) (l : list Z) : list Z :=
  match ev with
  | [] => l
  | Opened n _ :: r => openPools r (n :: l)
  | Closed n :: r => openPools r (match l with _ :: t => t | [] => [] end)
  | _ :: r => openPools r l
  end.
(** The sizes of the pools in use when a simulation raised. *)
Fixpoint failedPools (ev : list event) (l : list Z) : list Z :=
  match ev with
  | [] => l
  | Ran (Some n) false :: r => failedPools r (n :: l)
  | _ :: r => failedPools r l
  end.
(** Nothing was run before and no start method was chosen. *)
Definition newProcess : pmem := PMem None false None.
