(** Model of one time evolution (src/quanguru/classes/modularSweep.py 70-161,
    src/quanguru/classes/QSim.py 316-328). *)
From Verif Require Import Py.

Section Sim.
(** States, vectorised states, and what one call of unitary() of a protocol, or
    of a step of a protocol, applies at a given time index.  Time dependency
    (modularSweep.py 97-113, runSweep at each step) is in the time index. *)
Variables St Vec : Type.
Variable mat2Vec : St -> Vec.
Variable vec2Mat : Vec -> St.
Variable applyV : nat -> nat -> Vec -> Vec.           (* open protocol *)
Variable applyU : nat -> nat -> St -> St.             (* closed protocol *)
Variable applyStep : nat -> nat -> nat -> St -> St.   (* step of a closed protocol *)

(** A protocol in Simulation.subSys: its system, whether it is open, whether
    its simulation deletes states, and whether its steps are sampled
    (runSimulation, modularSweep.py 39-44); the steps with their samples. *)
Record prot := Prot { p_id : nat; p_sys : nat; p_open : bool; p_del : bool;
                      p_sampled : bool; p_steps : list (nat * nat) }.

(** What can be observed: a stored state, a call of the compute functions of
    the simulation, of a protocol, of a system, with the state(s) it is given,
    and of their pre- and post-calculations. *)
Inductive ev := EStore (p : nat) (s : St) | ESim (states : list St) | EPro (p : nat) (s : St) | ESys (q : nat) (s : St)
| ECalcSim (post : bool) | ECalcPro (post : bool) (p : nat) | ECalcSys (post : bool) (q : nat).

Record sim := Sim { cur : nat -> St; smp : nat -> list St; logE : list ev }.

Definition put {X} (f : nat -> X) (i : nat) (x : X) : nat -> X := fun j => if Nat.eqb j i then x else f j.
Definition emit (e : ev) (w : sim) : sim := Sim (cur w) (smp w) (logE w ++ [e]).

(** Simulation.__compute (QSim.py 316-328). *)
Fixpoint storeAll (ps : list prot) (acc : list St) (w : sim) : list St * sim :=
  match ps with
  | [] => (acc, w)
  | p :: r => let s := cur w (p_id p) in
              storeAll r (acc ++ [s]) (if p_del p then w else emit (EStore (p_id p) s) w)
  end.
Definition simCompute (ps : list prot) (w : sim) : sim :=
  let (states, w') := storeAll ps [] w in emit (ESim states) w'.
(** for protocol in subSys.keys(): protocol.compute(currentState)
    (modularSweep.py 123-124, 138-139). *)
Definition proCompute (ps : list prot) (w : sim) : sim :=
  fold_left (fun w p => emit (EPro (p_id p) (cur w (p_id p))) w) ps w.
(** the loop with calledFor (modularSweep.py 125-129, 140-144). *)
Fixpoint sysCompute (ps : list prot) (called : list nat) (w : sim) : sim :=
  match ps with
  | [] => w
  | p :: r => if existsb (Nat.eqb (p_sys p)) called then sysCompute r called w
              else sysCompute r (called ++ [p_sys p]) (emit (ESys (p_sys p) (cur w (p_id p))) w)
  end.

(** the sampled branch of timeEvolBase (modularSweep.py 155-158) *)
Fixpoint sampleStep (n : nat) (f : St -> St) (p : nat) (w : sim) : sim :=
  match n with
  | O => w
  | S m => let s := f (cur w p) in
           sampleStep m f p (Sim (put (cur w) p s) (put (smp w) p (smp w p ++ [s])) (logE w))
  end.
(** timeEvolBase (modularSweep.py 147-161) for one protocol. *)
Definition evolOne (ind : nat) (w : sim) (p : prot) : sim :=
  let i := p_id p in
  if p_open p then
    Sim (put (cur w) i (vec2Mat (applyV ind i (mat2Vec (cur w i))))) (smp w) (logE w)
  else
    let w := Sim (cur w) (put (smp w) i []) (logE w) in
    if p_sampled p then
      fold_left (fun w st => sampleStep (snd st) (applyStep ind i (fst st)) i w) (p_steps p) w
    else Sim (put (cur w) i (applyU ind i (cur w i))) (smp w) (logE w).
Definition evolAll (ind : nat) (ps : list prot) (w : sim) : sim := fold_left (evolOne ind) ps w.

Definition computes (callable : bool) (ps : list prot) (w : sim) : sim :=
  sysCompute ps [] (proCompute ps (if callable then simCompute ps w else w)).

(** for ind in range(stepCount) (modularSweep.py 131-144) *)
Fixpoint steps (inds : list nat) (ps : list prot) (w : sim) : sim :=
  match inds with
  | [] => w
  | ind :: r => steps r ps (computes true ps (evolAll ind ps w))
  end.
(** timeEvolDefault (modularSweep.py 118-144); [callable] tells whether
    evolFunc is a function. *)
Definition timeEvolDefault (callable : bool) (n : nat) (ps : list prot) (w : sim) : sim :=
  let w := Sim (cur w) (fold_left (fun f p => put f (p_id p) []) ps (smp w)) (logE w) in
  let w := computes callable ps w in
  if callable then steps (seq 0 n) ps w else w.

(** The start of a sweep point: currentState is set to the initial state, as a
    density matrix for open protocols (modularSweep.py 74-76). *)
Variable density : St -> St.
Definition startPoint (callable : bool) (init : nat -> St) (ps : list prot) (w : sim) : sim :=
  fold_left (fun w p => if callable
    then Sim (put (cur w) (p_id p) (if p_open p then density (init (p_id p)) else init (p_id p))) (smp w) (logE w)
    else w) ps w.
(** the calls of calculate "pre" / "post" (modularSweep.py 79-87, 89-95);
    the functions are observed as called, not what they compute. *)
Fixpoint calcSys (post : bool) (ps : list prot) (called : list nat) (w : sim) : sim :=
  match ps with
  | [] => w
  | p :: r => if existsb (Nat.eqb (p_sys p)) called then calcSys post r called w
              else calcSys post r (called ++ [p_sys p]) (emit (ECalcSys post (p_sys p)) w)
  end.
Definition calculates (post : bool) (ps : list prot) (w : sim) : sim :=
  calcSys post ps [] (fold_left (fun w p => emit (ECalcPro post (p_id p)) w) ps (emit (ECalcSim post) w)).
(** _runSweepAndPrep after runSweep (modularSweep.py 74-95). *)
Definition runPoint (callable : bool) (n : nat) (init : nat -> St) (ps : list prot) (w : sim) : sim :=
  calculates true ps (timeEvolDefault callable n ps (calculates false ps (startPoint callable init ps w))).
End Sim.
Arguments Sim {St}. Arguments cur {St}. Arguments smp {St}. Arguments logE {St}.
Arguments ECalcSim {St}. Arguments ECalcPro {St}. Arguments ECalcSys {St}.
Arguments EStore {St}. Arguments ESim {St}. Arguments EPro {St}. Arguments ESys {St}.

(** The loop over sweep points (nonParalEvol, modularSweep.py 52-56): what the
    unitaries apply and the initial states may differ from point to point. *)
Record point (St Vec : Type) := Point { pt_V : nat -> nat -> Vec -> Vec; pt_U : nat -> nat -> St -> St;
  pt_S : nat -> nat -> nat -> St -> St; pt_init : nat -> St }.
Arguments pt_V {St Vec}. Arguments pt_U {St Vec}. Arguments pt_S {St Vec}. Arguments pt_init {St Vec}.
Definition runPoints (St Vec : Type) (m2v : St -> Vec) (v2m : Vec -> St) (n : nat) (density : St -> St)
  (ps : list prot) (pts : list (point St Vec)) (w : sim St) : sim St :=
  fold_left (fun w x => runPoint St Vec m2v v2m (pt_V x) (pt_U x) (pt_S x) density true n (pt_init x) ps w) pts w.
