(** The trajectory of a protocol and what is observed along it. *)
From Verif Require Import Py SimModel.

Section S.
Variables St Vec : Type.
Variable mat2Vec : St -> Vec.
Variable vec2Mat : Vec -> St.
Variable applyV : nat -> nat -> Vec -> Vec.
Variable applyU : nat -> nat -> St -> St.
Variable applyStep : nat -> nat -> nat -> St -> St.
Variable density : St -> St.

Fixpoint iterate (n : nat) (f : St -> St) (s : St) : St :=
  match n with O => s | S m => iterate m f (f s) end.
(** One time step of a protocol: its propagator once; if its steps are sampled,
    each step as often as it has samples, in order. *)
Definition one_step (ind : nat) (p : prot) (s : St) : St :=
  if p_open p then vec2Mat (applyV ind (p_id p) (mat2Vec s))
  else if p_sampled p
       then fold_left (fun s st => iterate (snd st) (applyStep ind (p_id p) (fst st)) s) (p_steps p) s
       else applyU ind (p_id p) s.
Definition start (init : nat -> St) (p : prot) : St :=
  if p_open p then density (init (p_id p)) else init (p_id p).
(** The state after t steps. *)
Fixpoint traj (init : nat -> St) (p : prot) (t : nat) : St :=
  match t with O => start init p | S m => one_step m p (traj init p m) end.

(** The protocols that are the first one of their system. *)
Fixpoint firsts (seen : list nat) (ps : list prot) : list prot :=
  match ps with
  | [] => []
  | p :: r => if existsb (Nat.eqb (p_sys p)) seen then firsts seen r else p :: firsts (p_sys p :: seen) r
  end.

(** What is observed at time t: the states of the protocols that keep them are
    stored, then the simulation's compute gets the states of all protocols, then
    each protocol's compute its own state, then each system's compute the state
    of its first protocol. *)
Definition observed (init : nat -> St) (ps : list prot) (t : nat) : list (ev St) :=
  map (fun p => EStore (p_id p) (traj init p t)) (filter (fun p => negb (p_del p)) ps)
  ++ [ESim (map (fun p => traj init p t) ps)]
  ++ map (fun p => EPro (p_id p) (traj init p t)) ps
  ++ map (fun p => ESys (p_sys p) (traj init p t)) (firsts [] ps).

(** The calls of the pre- or post-calculations at a sweep point. *)
Definition calculated (post : bool) (ps : list prot) : list (ev St) :=
  [ECalcSim post] ++ map (fun p => ECalcPro post (p_id p)) ps ++ map (fun p => ECalcSys post (p_sys p)) (firsts [] ps).

Definition stored (i : nat) (l : list (ev St)) : list St :=
  flat_map (fun e => match e with EStore j s => if Nat.eqb j i then [s] else [] | _ => [] end) l.
Definition sysCalls (i : nat) (l : list (ev St)) : list St :=
  flat_map (fun e => match e with ESys j s => if Nat.eqb j i then [s] else [] | _ => [] end) l.
Definition simCalls (l : list (ev St)) : list (list St) :=
  flat_map (fun e => match e with ESim s => [s] | _ => [] end) l.
End S.
