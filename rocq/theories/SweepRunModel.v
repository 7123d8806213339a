(** Model of a whole run: sweeps, initial states, time evolution, results (src/quanguru/classes/QSim.py
    330-359, modularSweep.py 52-95).

    It puts together the sweeps of SweepModel.v, the protocols of ProtModel.v with the time
    dependence of TimeDepModel.v, and the results of ResModel.v.  Closed systems; the
    timeDependency sweeps, stepSample, and the calls before and after the evolution of a point are
    left out; sweeps are of parameters of the protocols' systems or of things they do not depend
    on, with the default sweep function, and do not change the number of steps. *)
From Coq Require Import QArith.
From Verif Require Import Py TimeModel ProtModel TimeDepModel SweepModel ResModel.
#[local] Open Scope nat_scope.

Section Full.
Variables M V State A : Type.
Variable mul : M -> M -> M.
Variable one : M.
Variable adj : M -> M.
Variable shape : M -> nat * nat.
Variable veq : V -> V -> bool.
Variable leafU : (nat -> V) -> nat -> M.
Variable dep : nat -> list nat.
Variable updates : nat -> list nat.
Variable u_first : nat -> nat.
Variable u_rest : nat -> list nat.
Variable u_val : nat -> V.
Variable fixed : nat -> bool.
Variable act : M -> State -> State.
Variable tdf : nat -> option (Q -> list (nat * V)).
Variable superOf : nat -> option sysT.
Variable avg : nat -> A -> A -> A.
(** The parameter that a target of a sweep is, if it is one. *)
Variable par : target -> option nat.
(** protocol.initialState with the parameters of now, for every protocol. *)
Variable init : (nat -> V) -> nat -> State.
(** What the compute functions record at a time, from the parameters, the number of the time and the
    current states.  Simplification: they are given the parameters at the start of the point. *)
Variable comp : (nat -> V) -> nat -> (nat -> State) -> list (rop A).
(** How states are stored, and for every protocol its result object, its name, and not delStates. *)
Variable emb : State -> A.
Variable resOf : nat -> nat.
Variable nameOf : nat -> string.
Variable keepStates : nat -> bool.
Notation st := (ProtModel.st M V).
Notation pdict V := (list (string * V)).

(** setattr(subSys, key, val) (baseClasses.py 98-102) *)
Definition assignT (s : st) (t : target) (v : V) : st :=
  match par t with Some p => setParam M V veq dep p v s | None => s end.
(** updateBase._runUpdate (baseClasses.py 92-102) *)
Definition runUpdateS (sw : sweep V) (v : V) (s : st) : st :=
  fold_left (fun s t => assignT s t v) (sw_targets sw) s.
(** _sweep.runSweep and _defSweep (QSweep.py 145-174) *)
Definition runOneS (sw : sweep V) (ind : nat) (s : st) : st * result unit :=
  match nth_error (sw_list sw) ind with
  | Some v => (runUpdateS sw v s, Ok tt)
  | None => (s, Err IndexError)
  end.
(** Sweep.runSweep (QSweep.py 325-337) *)
Fixpoint runSweepS (sws : list (sweep V)) (indList : list nat) (indx : nat) (s : st) : st * result unit :=
  match sws with
  | [] => (s, Ok tt)
  | sw :: rest =>
      let indx := if sw_comb sw then S indx else indx in
      match nth_error indList indx with
      | None => (s, Err IndexError)
      | Some i => match runOneS sw i s with
                  | (s', Ok _) => runSweepS rest indList indx s'
                  | (s', Err e) => (s', Err e)
                  end
      end
  end.
(** the sweep part of _runSweepAndPrep (modularSweep.py 70-72) *)
Definition runPointS (sws : list (sweep V)) (inds : list nat) (ind : nat) (s : st) : st * result unit :=
  match inds with
  | [] => (s, Ok tt)
  | _ => match indicesForSweep ind inds with
         | Ok l => runSweepS sws l 0 s
         | Err e => (s, Err e)
         end
  end.

(** Simulation.__compute (QSim.py 316-328): the states are stored, then the compute functions
    (modularSweep.py 120-129, 137-144). *)
Definition stateOps (ps : list node) (c : nat -> State) : list (rop A) :=
  map (fun p => ResModel.State (resOf (nid p)) (nameOf (nid p)) (Scal (emb (c (nid p)))))
      (filter (fun p => keepStates (nid p)) ps).
Fixpoint record (e : nat -> V) (ps : list node) (k : nat) (cs : list (nat -> State)) : list (rop A) :=
  match cs with
  | [] => []
  | c :: r => stateOps ps c ++ comp e k c ++ record e ps (S k) r
  end.

Section Clock.
Variable lim : nat.
Variable h : heap.
(** _runSweepAndPrep (modularSweep.py 70-95): what is recorded, the indices of the simulations, and
    the objects afterwards. *)
Definition pointRun (m n : nat) (ps : list node) (sws : list (sweep V)) (inds : list nat) (idx : nat -> Z) (s : st) (ind : nat)
    : result (list (rop A) * (nat -> Z) * st) :=
  match runPointS sws inds ind s with
  | (_, Err e) => Err e
  | (s1, Ok _) =>
      let c0 := init (env s1) in
      bind (evolveRun M V State mul one adj shape veq leafU dep updates u_first u_rest u_val fixed act tdf superOf lim h
              m n ps idx c0 s1) (fun y =>
      Ok (record (env s1) ps 0 (c0 :: fst (fst y)), snd (fst y), snd y))
  end.

(** nonParalEvol (modularSweep.py 52-56) *)
Fixpoint fullLoop (m n : nat) (ps : list node) (sws : list (sweep V)) (inds pts : list nat) (idx : nat -> Z) (s : st)
    (qs : list (qres A)) : result (list (qres A) * (nat -> Z) * st) :=
  match pts with
  | [] => Ok (qs, idx, s)
  | i :: r =>
      bind (pointRun m n ps sws inds idx s i) (fun x =>
      bind (runPointRes avg (fst (fst x)) qs) (fun q1 =>
      bind (organiseSingle q1) (fun q2 =>
      fullLoop m n ps sws inds r (snd (fst x)) (snd x) q2)))
  end.
(** Simulation.run (QSim.py 330-359) in a single process; [old] are the inds and indMultip of an
    earlier run. *)
Definition fullRun (m n : nat) (ps : list node) (sws : list (sweep V)) (old : list nat * nat) (idx : nat -> Z) (s : st)
    (qs : list (qres A)) : result (list (qres A) * (nat -> Z) * st) :=
  let (inds, count) := prepare sws old in
  bind (fullLoop m n ps sws inds (seq 0 count) idx s (resetAll qs)) (fun x =>
  bind (finaliseAll inds (fst (fst x))) (fun q => Ok (q, snd (fst x), snd x))).

(** With a pool (modularSweep.py 59-67): every task works on a copy of the objects as they are when
    the run starts; see ResModel.paralEvol. *)
Definition fullTask (m n : nat) (ps : list node) (sws : list (sweep V)) (inds : list nat) (idx : nat -> Z) (s : st)
    (qs : list (qres A)) (i : nat) : result (list (pdict (pv A) * pdict (pv A))) :=
  bind (pointRun m n ps sws inds idx s i) (fun x =>
  bind (runPointRes avg (fst (fst x)) qs) (fun q => Ok (map lastOf q))).
Fixpoint executeF (tk : nat -> result (list (pdict (pv A) * pdict (pv A)))) (schedule : list nat)
    (table : nat -> option (result (list (pdict (pv A) * pdict (pv A)))))
    : nat -> option (result (list (pdict (pv A) * pdict (pv A)))) :=
  match schedule with
  | [] => table
  | i :: r => executeF tk r (fun j => if Nat.eqb j i then Some (tk i) else table j)
  end.
Definition fullPar (m n : nat) (ps : list node) (sws : list (sweep V)) (old : list nat * nat) (idx : nat -> Z) (s : st)
    (qs : list (qres A)) (schedule : list nat) : result (list (qres A)) :=
  let (inds, count) := prepare sws old in
  let q0 := resetAll qs in
  bind (collect (executeF (fullTask m n ps sws inds idx s q0) schedule (fun _ => None)) (seq 0 count)) (fun rs =>
  bind (organiseMulti rs q0) (finaliseAll inds)).
End Clock.
End Full.
