(** Model of the attributes of quantum systems and protocols
    (src/quanguru/classes/QSimComp.py 26-154): every system and protocol has a
    simulation of its own, and an attribute which the object does not have is
    looked up in, or assigned to, that simulation.

    An attribute of a class is a descriptor: a property or a slot, with a getter
    and perhaps a setter.  Getters may change the state and may raise.  All the
    classes involved have __slots__ and no __dict__, so a name without a
    descriptor cannot be assigned. *)
From Coq Require Import QArith.
From Verif Require Import Py TimeModel.
#[local] Open Scope string_scope.
#[local] Open Scope list_scope.

Section Forward.
(** The state of the program, and the values of attributes. *)
Variables W V : Type.

(** A property (getter, optional setter) or a slot; a getter of a slot that was
    never assigned raises AttributeError. *)
Record desc := Desc { d_get : W -> W * result V; d_set : option (V -> W -> W * result unit) }.

(** The descriptors which the class of an object has. *)
Variable attrs : nat -> string -> option desc.
(** Is the object an instance of QSimComp? *)
Variable isComp : nat -> bool.
(** The slot __simulation (QSimComp.py 49, 55); None before it is assigned. *)
Variable simOf : W -> nat -> option nat.

(** object.__getattribute__: super().__getattribute__(__name) in QSimComp.py 63,
    and getattr of an object which is not a QSimComp. *)
Definition ownGet (o : nat) (n : string) (w : W) : W * result V :=
  match attrs o n with
  | Some d => d_get d w
  | None => (w, Err AttributeError)
  end.
(** object.__setattr__: super().__setattr__ in QSimComp.py 76. *)
Definition ownSet (o : nat) (n : string) (v : V) (w : W) : W * result unit :=
  match attrs o n with
  | Some d => match d_set d with Some f => f v w | None => (w, Err AttributeError) end
  | None => (w, Err AttributeError)
  end.

(** QSimComp.__getattribute__ (QSimComp.py 58-69).  self.simulation before the
    slot is assigned comes back to the same except clause (86-89, 66), without
    end.  A simulation is not a QSimComp, so its attribute is its own. *)
Definition getattr (o : nat) (n : string) (w : W) : W * result V :=
  if isComp o then
    match ownGet o n w with
    | (w1, Err AttributeError) =>
        match simOf w1 o with
        | None => (w1, Err RecursionError)
        | Some s => match ownGet s n w1 with
                    | (w2, Err AttributeError) => (w2, Err AttributeError)
                    | r => r
                    end
        end
    | r => r
    end
  else ownGet o n w.

(** QSimComp.__setattr__ (QSimComp.py 71-82). *)
Definition setattr (o : nat) (n : string) (v : V) (w : W) : W * result unit :=
  if isComp o then
    match ownSet o n v w with
    | (w1, Err AttributeError) =>
        match simOf w1 o with
        | None => (w1, Err RecursionError)
        | Some s => match ownSet s n v w1 with
                    | (w2, Err AttributeError) => (w2, Err AttributeError)
                    | r => r
                    end
        end
    | r => r
    end
  else ownSet o n v w.

(** What a user does with attributes, and what comes out of it. *)
Inductive act := Get (n : string) | Put (n : string) (v : V).
Inductive out := Got (r : result V) | Done (r : result unit).
Definition does (o : nat) (a : act) (w : W) : W * out :=
  match a with
  | Get n => let (w', r) := getattr o n w in (w', Got r)
  | Put n v => let (w', r) := setattr o n v w in (w', Done r)
  end.
Fixpoint session (l : list (nat * act)) (w : W) : W * list out :=
  match l with
  | nil => (w, nil)
  | cons (o, a) l' => let (w1, x) := does o a w in let (w2, xs) := session l' w1 in (w2, cons x xs)
  end.
End Forward.
Arguments Desc {W V}. Arguments Get {V}. Arguments Put {V}. Arguments Got {V}. Arguments Done {V}.

(** ** The time parameters of a system and of its simulation *)

Inductive val := VNum (x : option Q) | VObj (o : nat) | VTuple (l : list (option Q)).

Definition nameOf (k : key) : string :=
  match k with KSize => "stepSize" | KTotal => "totalTime" | KCount => "stepCount" | KSamples => "samples" end.
Definition simNameOf (k : key) : string :=
  match k with KSize => "simStepSize" | KTotal => "simTotalTime" | KCount => "simStepCount" | KSamples => "simSamples" end.

Section Time.
Variable lim : nat.

(** The getters totalTime, stepSize and samples return the value of the
    parameter (QSimBase.py 332-342, 381-392, 402-409), stepCount is calculated
    (352-371). *)
Definition get_prop (k : key) (o : nat) : M (option Q) :=
  match k with KCount => get_stepCount lim o | _ => read lim k o end.

Definition num (m : M (option Q)) : M val := x <- m ;; ret (VNum x).
(** Assigning something that is not a number is not modelled: TypeError. *)
Definition timeDesc (k : key) (s : nat) : desc heap val :=
  Desc (num (get_prop k s))
       (Some (fun v => match v with VNum (Some x) => set_prop lim s k x | _ => raise TypeError end)).

(** timeBase: the attributes of a simulation (QSimBase.py 332-413). *)
Definition simAttrs (s : nat) (n : string) : option (desc heap val) :=
  if String.eqb n "stepSize" then Some (timeDesc KSize s)
  else if String.eqb n "totalTime" then Some (timeDesc KTotal s)
  else if String.eqb n "stepCount" then Some (timeDesc KCount s)
  else if String.eqb n "samples" then Some (timeDesc KSamples s)
  else None.

(** simParameters (QSimComp.py 102-113): the parameters of the simulation, read
    in this order; the labels, delStates and compute are left out. *)
Definition simParameters (s : nat) : M val :=
  a <- get_prop KTotal s ;; b <- get_prop KSize s ;; c <- get_prop KCount s ;; d <- get_prop KSamples s ;;
  ret (VTuple (cons a (cons b (cons c (cons d nil))))).

(** @simParameters.setter def simTotalTime (QSimComp.py 115-141): a property with
    the getter of simParameters and this setter. *)
Definition simDesc (k : key) (s : nat) : desc heap val :=
  Desc (simParameters s) (d_set heap val (timeDesc k s)).

(** The attributes of a QSimComp (QSimComp.py 84-141) with the simulation [s]:
    those about time. *)
Definition compAttrs (s : nat) (n : string) : option (desc heap val) :=
  if String.eqb n "simulation" then Some (Desc (ret (VObj s)) None)
  else if String.eqb n "simParameters" then Some (Desc (simParameters s) None)
  else if String.eqb n "simStepSize" then Some (simDesc KSize s)
  else if String.eqb n "simTotalTime" then Some (simDesc KTotal s)
  else if String.eqb n "simStepCount" then Some (simDesc KCount s)
  else if String.eqb n "simSamples" then Some (simDesc KSamples s)
  else None.

(** Systems are the even objects 2i, with the simulation 2i+1. *)
Definition isSys (o : nat) : bool := Nat.even o.
Definition simFor (o : nat) : nat := S o.
Definition table (o : nat) (n : string) : option (desc heap val) :=
  if isSys o then compAttrs (simFor o) n else simAttrs o n.
Definition tget : nat -> string -> M val := getattr heap val table isSys (fun _ o => Some (simFor o)).
Definition tset : nat -> string -> val -> M unit := setattr heap val table isSys (fun _ o => Some (simFor o)).

(** The ways a user assigns a time parameter of system [q]: q.totalTime = x,
    q.simTotalTime = x, q.simulation.totalTime = x. *)
Inductive way := Direct | Alias | Simulation.
Definition assign (q : nat) (a : way * key * Q) : M unit :=
  match a with
  | (Direct, k, x) => tset q (nameOf k) (VNum (Some x))
  | (Alias, k, x) => tset q (simNameOf k) (VNum (Some x))
  | (Simulation, k, x) =>
      v <- tget q "simulation" ;;
      match v with VObj s => tset s (nameOf k) (VNum (Some x)) | _ => raise AttributeError end
  end.
(** A program of assignments that goes on after an exception. *)
Fixpoint assignAll (l : list (nat * (way * key * Q))) (h : heap) : heap * list (result unit) :=
  match l with
  | nil => (h, nil)
  | cons (q, a) l' => let (h1, r) := assign q a h in let (h2, rs) := assignAll l' h1 in (h2, cons r rs)
  end.
End Time.
