(** Model of the creation of sweeps (src/quanguru/classes/QSweep.py). *)
From Verif Require Import Py SweepModel.
#[local] Open Scope nat_scope.
#[local] Open Scope list_scope.

(** The argument system of createSweep: objects (given directly, by name or
    alias, as classes of which an object is made, or in nested lists of these,
    which addDecorator and _recurseIfList flatten, base.py 53-72 and 562-577),
    nothing, or the auxiliary object together with a key that is a string.
    Simplification: the auxiliary object with another key, which is accepted
    here and fails when the sweep runs, is not modelled. *)
Inductive what := Given (l : list nat) | Default | AuxObject (key : string).

Section Create.
Context {V : Type}.

(** A call of createSweep: the systems, sweepKey ([None]: not a string), the
    keywords combinatorial and sweepList, and what hasattr answers. *)
Record call := Call { c_what : what; c_key : option string; c_comb : bool; c_vals : list V;
                      c_has : nat -> string -> bool }.

(** subSys is a dictionary by name: adding an object again keeps the place of
    the first time (base.py 659-668). *)
Definition addObj (acc : list nat) (o : nat) : list nat := if existsb (Nat.eqb o) acc then acc else acc ++ [o].
Definition objects (l : list nat) : list nat := fold_left addObj l [].

(** The check of sweepKey and the choice between attributes and the auxiliary
    dictionary (QSweep.py 293-307). *)
Definition targetsOf (has : nat -> string -> bool) (objs : list nat) (key : option string) : result (list target) :=
  match key with
  | None => Err ValueError
  | Some k =>
      match objs with
      | [] => Err IndexError
      | o :: _ =>
          if has o k then
            if forallb (fun s => has s k) objs then Ok (map (fun s => TAttr s k) objs) else Err AttributeError
          else Ok [TAux k]
      end
  end.

(** Sweep.createSweep (QSweep.py 268-310).  [owner] is self.superSys with its
    own superSys: [None] if the Sweep object has no superSys, [Some None] if
    that one has none.  [aux] is the identity of the auxiliary object.  The
    sweeps are the values of the subSys dictionary; every _sweep object has its
    own name. *)
Definition createSweep (aux : nat) (owner : option (option nat)) (c : call) (sws : list (sweep V))
  : list (sweep V) * result (sweep V) :=
  let finish r :=
    match r with
    | Ok tg => let new := Sweep (c_comb c) (c_vals c) tg in (sws ++ [new], Ok new)
    | Err e => (sws, Err e)
    end in
  match c_what c with
  | AuxObject key => finish (Ok [TAttr aux key])
  | Given l => finish (targetsOf (c_has c) (objects l) (c_key c))
  | Default =>
      match owner with
      | None => (sws, Err AttributeError)
      | Some None => (sws, Err ValueError)
      | Some (Some o) => finish (targetsOf (c_has c) (objects [o]) (c_key c))
      end
  end.

(** Several calls, the exceptions being caught by the user. *)
Fixpoint createAll (aux : nat) (owner : option (option nat)) (cs : list call) (sws : list (sweep V)) : list (sweep V) :=
  match cs with
  | [] => sws
  | c :: cs' => createAll aux owner cs' (fst (createSweep aux owner c sws))
  end.
End Create.
Arguments call : clear implicits.
