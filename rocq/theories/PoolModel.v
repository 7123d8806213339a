(** The memory of multiprocessing settings (src/quanguru/classes/QSim.py 361-417). *)
From Coq Require Import ZArith Ascii.
From Verif Require Import Py ResModel RunEndModel.
#[local] Open Scope Z_scope.

(** The argument p of run (QSim.py 389-411): the objects True, False and None are told by identity, a pool by its number of
    processes, and everything else has no _processes. *)
Inductive parg := PTrue | PFalse | PNone | PPool (n : Z) | POther.
(** The argument coreCount (QSim.py 390-401); True and False are integers. *)
Inductive carg := CNone | CInt (n : Z) | CStr (s : string) | COther.

(** _poolMemory.coreCount and reRun (QSim.py 371-373), and the start method of the module multiprocessing, if it is settled. *)
Record pmem := PMem { cores : option Z; reRun : bool; start : option string }.

(** What a run does: a pool is opened with a start method, the simulation is run with it or without one and succeeds or raises,
    and the pool is closed. *)
Inductive event := Opened (n : Z) (method : string) | Ran (pool : option Z) (ok : bool) | Closed (n : Z).

(** str.lower, for ASCII characters. *)
Definition lowerA (a : ascii) : ascii :=
  let n := nat_of_ascii a in if (Nat.leb 65 n && Nat.leb n 90)%bool then ascii_of_nat (n + 32) else a.
Fixpoint lower (s : string) : string :=
  match s with EmptyString => EmptyString | String a r => String (lowerA a) (lower r) end.

Section Pool.
(** multiprocessing.cpu_count(), whether platform.system() is Windows, whether the minor version of Python is at least 8, and the
    start method of the platform. *)
Variable cpu : Z.
Variable windows : bool.
Variable minor8 : bool.
Variable dflt : string.

(** QSim.py 380-387: set_start_method raises if the method is settled, which is caught. *)
Definition setStart (m : pmem) : pmem :=
  if (negb windows && negb (reRun m))%bool then
    PMem (cores m) true (if minor8 then match start m with None => Some "fork"%string | s => s end else start m)
  else m.

(** The number of processes that is handed to Pool, or none if _pool is None (QSim.py 389-411).  A string other than 'all' leaves
    _pool unassigned, so that its use at 412 raises. *)
Definition request (p : parg) (c : carg) (mem : option Z) : result (option Z) :=
  match p with
  | PTrue => match c with
             | CNone => match mem with None => Ok (Some (cpu - 1)) | Some n => Ok (Some n) end
             | CInt n => Ok (Some n)
             | CStr s => if String.eqb (lower s) "all" then Ok (Some (cpu - 1)) else Err UnboundLocalError
             | COther => Err AttributeError
             end
  | PFalse => Ok None
  | PPool n => Ok (Some n)
  | POther => Err AttributeError
  | PNone => match mem with Some n => Ok (Some n) | None => Ok None end
  end.

(** multiprocessing.Pool(processes=n): settles the start method, then checks n. *)
Definition settle (m : pmem) : pmem :=
  PMem (cores m) (reRun m) (Some match start m with Some s => s | None => dflt end).

(** _poolMemory.run (QSim.py 375-417); [sim] is runSimulation with a pool of that many processes or without one.  The pool is closed and
    its size remembered only after the simulation, so not if that raises. *)
Definition poolRun {R} (sim : option Z -> result R) (p : parg) (c : carg) (m : pmem) : list event * pmem * result R :=
  let m1 := setStart m in
  match request p c (cores m1) with
  | Err e => ([], m1, Err e)
  | Ok None => match sim None with
               | Ok r => ([Ran None true], m1, Ok r)
               | Err e => ([Ran None false], m1, Err e)
               end
  | Ok (Some n) =>
      let m2 := settle m1 in
      if n <? 1 then ([], m2, Err ValueError) else
      let o := Opened n match start m2 with Some s => s | None => dflt end in
      match sim (Some n) with
      | Ok r => ([o; Ran (Some n) true; Closed n], PMem (Some n) (reRun m2) (start m2), Ok r)
      | Err e => ([o; Ran (Some n) false], m2, Err e)
      end
  end.

(** A session: calls of run one after the other, whatever each returns.  [start method] of the first state is what the user set, if
    anything. *)
Record call := Call { c_p : parg; c_c : carg; c_sim : option Z -> result unit }.
Fixpoint session (cs : list call) (m : pmem) : list event * pmem :=
  match cs with
  | [] => ([], m)
  | c :: r => match poolRun (c_sim c) (c_p c) (c_c c) m with
              | (ev, m', _) => match session r m' with (ev', m'') => (ev ++ ev', m'') end
              end
  end.

Section Whole.
Context {A : Type}.
Variable avg : nat -> A -> A -> A.
Variable find : string -> option nat.
(** runSimulation (modularSweep.py 38-50) with the points of ResModel.v; a pool executes them in some order. *)
Definition runSimulation (point : nat -> list (rop A)) (sched : Z -> list nat) (n : nat) (inds : list nat) (qs : list (qres A))
    (pool : option Z) : result (list (qres A)) :=
  match pool with
  | None => nonParalEvol avg point n inds qs
  | Some k => paralEvol avg point (sched k) n inds qs
  end.
(** Simulation.run (QSim.py 343-359) from the reset on. *)
Definition wholeRun (point : nat -> list (rop A)) (sched : Z -> list nat) (n : nat) (inds : list nat) (resetRes : bool) (me : nat) (key : string)
    (p : parg) (c : carg) (qs : list (qres A)) (m : pmem) : list event * pmem * result (pv A * list (qres A)) :=
  match poolRun (runSimulation point sched n inds (if resetRes then resetAll qs else qs)) p c m with
  | (ev, m', r) => (ev, m', bind r (runEnd find me key))
  end.
End Whole.
End Pool.
