(** The end of a run: where the states are found and what run returns (src/quanguru/classes/QSim.py 355-359),
    on top of the results of ResModel.v. *)
From Verif Require Import Py ResModel.

Section End.
Context {A : Type}.
Variable avg : nat -> A -> A -> A.
(** The object of allResults with a name or alias: the qRes of every system, protocol and simulation has its name
    with "Results" as alias (baseClasses.py 257). *)
Variable find : string -> option nat.
Notation pdict V := (list (string * V)).

(** obj._qResBase__states[key] = val.  After _finalise the dictionaries of the states and of the last states are
    one object (QRes.py 322), so that the assignment is to both. *)
Definition putState (k : string) (v : pv A) (q : qres A) : result (qres A) :=
  Ok (QRes (q_results q) (q_average q) (q_resLast q) (dput (q_states q) k v) (dput (q_stLast q) k v) (q_calc q)).
(** for key, val in self.qRes.states.items(): self.qRes.allResults[key]._qResBase__states[key] = val
    (QSim.py 355-356) *)
Fixpoint spread (items : pdict (pv A)) (qs : list (qres A)) : result (list (qres A)) :=
  match items with
  | [] => Ok qs
  | (k, v) :: r => match find k with
                   | None => Err KeyError
                   | Some i => bind (upd_at i (putState k v) qs) (spread r)
                   end
  end.
(** sdict[name + "Results"] (QSim.py 358-359), [key] is that of the system or protocol the simulation belongs to, or
    else its own.  The dictionary is a defaultdict: a missing key is added with an empty list. *)
Definition runEnd (me : nat) (key : string) (qs : list (qres A)) : result (pv A * list (qres A)) :=
  match nth_error qs me with
  | None => Err AttributeError
  | Some q =>
      bind (spread (q_stLast q) qs) (fun qs1 =>
      match nth_error qs1 me with
      | None => Err AttributeError
      | Some q1 => match dget (q_stLast q1) key with
                   | Some v => Ok (v, qs1)
                   | None => bind (upd_at me (putState key (PL [])) qs1) (fun qs2 => Ok (PL [], qs2))
                   end
      end)
  end.

(** Simulation.run (QSim.py 330-359), for what its points record. *)
Definition runAll (resetRes : bool) (point : nat -> list (rop A)) (n : nat) (inds : list nat) (me : nat) (key : string)
    (qs : list (qres A)) : result (pv A * list (qres A)) :=
  bind (runRes avg resetRes point n inds qs) (runEnd me key).
End End.
