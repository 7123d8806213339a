(** Model of explicit time dependence: the functions a user gives to terms, the time they are
    called with, and the evolution (src/quanguru/classes/QTerms.py 73-82, QSystem.py 139-150,
    QSim.py 108-121, QPro.py 195-224, modularSweep.py 115-159).

    The simulations and their bounds are those of TimeModel.v, the protocols those of
    ProtModel.v.  Only closed systems; the timeDependency sweeps (QSim.py 90, QPro.py 101) are
    left out. *)
From Coq Require Import QArith.
From Verif Require Import Py TimeModel ProtModel.
#[local] Open Scope nat_scope.

(** Simulation._currentTime (QSim.py 108-121).  [idx] is the __index of every simulation.  Every
    exception, also one of the recursion, gives 0 (119-120). *)
Fixpoint currentTime (lim : nat) (h : heap) (idx : nat -> Z) (m : nat) : Q :=
  match lim with
  | O => 0%Q
  | S l => match t_bound (h m) with
           | Some b => currentTime l h idx b
           | None => match value lim h KSize m with
                     | Ok (Some d) => (d * inject_Z (idx m + 1))%Q
                     | _ => 0%Q
                     end
           end
  end.

(** A quantum system: its simulation, its sub-systems and its terms, in order. *)
Inductive sysT := Sys (sim : nat) (subs : list sysT) (terms : list nat).
Definition simOf (x : sysT) : nat := match x with Sys m _ _ => m end.

Section TD.
Variables M V State : Type.
Variable mul : M -> M -> M.
Variable one : M.
Variable adj : M -> M.
Variable shape : M -> nat * nat.
Variable veq : V -> V -> bool.
Variable leafU : (nat -> V) -> nat -> M.
Variable dep : nat -> list nat.
Variable updates : nat -> list nat.
Variable u_first : nat -> nat.
Variable u_rest : nat -> list nat.
Variable u_val : nat -> V.
Variable fixed : nat -> bool.
(** A unitary applied to a state. *)
Variable act : M -> State -> State.
(** The timeDependency attribute of a term (QTerms.py 68): None if it is not callable, else the
    parameters it assigns and their values, in order, at a time.  Simplification: what it
    assigns depends on the time only, and it only assigns parameters. *)
Variable tdf : nat -> option (Q -> list (nat * V)).
(** The superSys of a protocol or step, if it has one. *)
Variable superOf : nat -> option sysT.
Notation st := (ProtModel.st M V).

(** QTerm._timeDependency with a time (QTerms.py 81-82) *)
Definition termTd (t : Q) (s : st) (ter : nat) : st :=
  match tdf ter with
  | Some f => fold_left (fun s e => setParam M V veq dep (fst e) (snd e) s) (f t) s
  | None => s
  end.
(** QuantumSystem._timeDependency with a time (QSystem.py 146-149) *)
Fixpoint sysTd (t : Q) (x : sysT) (s : st) : st :=
  match x with
  | Sys _ subs terms => fold_left (termTd t) terms (fold_left (fun s y => sysTd t y s) subs s)
  end.

Section Clock.
(** The current time of every simulation. *)
Variable now : nat -> Q.

(** self.superSys._timeDependency() (QPro.py 198-199, 215-216; QSystem.py 144-145) *)
Definition hook (o : nat) (s : st) : st :=
  match superOf o with Some x => sysTd (now (simOf x)) x s | None => s end.

(** getUnitary (QPro.py 208-224), see ProtModel.getUnitary. *)
Fixpoint getUnitaryT (n : node) (s0 : st) : result (option M * st) :=
  let s := hook (nid n) s0 in
  let s1 := setups M V veq dep u_first u_rest u_val (updates (nid n)) s in
  let (b, s2) := updated M V n s1 in
  bind (if runCreate M V fixed b (nid n) s2 then
          bind (match n with
                | Leaf o => Ok (leafU (env s2) o, s2)
                | Prot o items =>
                    (fix loop l acc s : result (M * st) :=
                       match l with
                       | [] => Ok (acc, s)
                       | (cp, c) :: r =>
                           let (vals, sa) := readFlags M V r s in
                           bind (match cp with
                                 | None => getUnitaryT c sa
                                 | Some h => copy_with M V adj shape fixed (getUnitaryT c) h c (hook (nid c) sa)
                                 end)
                             (fun x => match fst x with
                                       | None => Err TypeError
                                       | Some u => loop r (mul u acc) (writeFlags M V r vals (snd x))
                                       end)
                       end) items one s2
                end) (fun x => Ok (setMat M V (nid n) (Some (mul (fst x) one)) (snd x)))
        else Ok s2)
    (fun s3 => let s4 := toFalse M V n (setbacks M V veq dep u_first u_rest u_val (updates (nid n)) s3) in
               Ok (mat s4 (nid n), s4)).
(** unitary (QPro.py 195-206) *)
Definition unitaryT (n : node) (s : st) : result (option M * st) :=
  unitary_with M V fixed (getUnitaryT n) n (hook (nid n) s).

(** timeEvolBase for the protocols of a simulation (modularSweep.py 146-159, without stepSample);
    [cur] is currentState.  None @ state raises. *)
Fixpoint evolveAll (ps : list node) (cur : nat -> State) (s : st) : result ((nat -> State) * st) :=
  match ps with
  | [] => Ok (cur, s)
  | n :: r => bind (unitaryT n s) (fun x => match fst x with
                | None => Err TypeError
                | Some u => evolveAll r (set cur (nid n) (act u (cur (nid n)))) (snd x)
                end)
  end.
End Clock.

Variable lim : nat.
Variable h : heap.
(** The loop of timeEvolDefault (modularSweep.py 130-137) for the given values of ind: the states
    after every step.  __index keeps its last value. *)
Fixpoint evolve (m : nat) (inds : list nat) (ps : list node) (idx : nat -> Z) (cur : nat -> State) (s : st)
    : result (list (nat -> State) * (nat -> Z) * st) :=
  match inds with
  | [] => Ok ([], idx, s)
  | i :: r =>
      let idx1 := set idx m (Z.of_nat i) in
      bind (evolveAll (currentTime lim h idx1) ps cur s) (fun x =>
      bind (evolve m r ps idx1 (fst x) (snd x)) (fun y =>
      Ok (fst x :: fst (fst y), snd (fst y), snd y)))
  end.
Definition evolveRun (m n : nat) := evolve m (seq 0 n).
End TD.
