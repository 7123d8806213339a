(** Model of parameter-update flags and matrix deletion
    (src/quanguru/classes/baseClasses.py 104-236 and the classes extending it). *)
From Verif Require Import Py.

(** Function update; stands for assignment to one attribute of one object. *)
Definition put {V} (f : nat -> V) (o : nat) (v : V) : nat -> V :=
  fun x => if Nat.eqb x o then v else f x.

(** ** Update flags *)
Section Flags.
Context {V : Type}.
(** Python's == on parameter values. *)
Variable veq : V -> V -> bool.

(** The objects' paramBound dictionaries (their values, in order), the
    __paramUpdated flags and one parameter value per object and attribute name
    (baseClasses.py 129-151). *)
Record pstate := PState { p_bound : nat -> list nat;
                          p_flag : nat -> bool;
                          p_val : nat -> string -> V }.

(** _createParamBound for an object (baseClasses.py 169-180): ValueError for the
    object itself; an object that is already there keeps its place (aliasDict
    assignment, see C02). *)
Definition createBound (s : pstate) (o b : nat) : result pstate :=
  if Nat.eqb o b then Err ValueError
  else Ok (PState (put (p_bound s) o
                     (if existsb (Nat.eqb b) (p_bound s o) then p_bound s o else p_bound s o ++ [b]))
             (p_flag s) (p_val s)).

(** _breakParamBound (baseClasses.py 182-188): pop raises KeyError if absent. *)
Definition breakBound (s : pstate) (o b : nat) : result pstate :=
  if existsb (Nat.eqb b) (p_bound s o)
  then Ok (PState (put (p_bound s) o (filter (fun x => negb (Nat.eqb x b)) (p_bound s o)))
             (p_flag s) (p_val s))
  else Err KeyError.

(** The _paramUpdated setter (baseClasses.py 198-202).  [fuel] bounds the depth
    of the recursion; None means that it is exhausted (Python raises
    RecursionError). *)
Fixpoint setUpdated (bound : nat -> list nat) (fuel : nat) (b : bool) (o : nat) (fl : nat -> bool)
  : option (nat -> bool) :=
  match fuel with
  | O => None
  | S f =>
      (fix loop (l : list nat) (fl : nat -> bool) : option (nat -> bool) :=
         match l with
         | [] => Some fl
         | x :: rest => match setUpdated bound f b x fl with
                        | Some fl' => loop rest fl'
                        | None => None
                        end
         end) (bound o) (put fl o b)
  end.

(** setAttr (QSimBase.py 39-47). *)
Definition setAttr (fuel : nat) (s : pstate) (o : nat) (attr : string) (v : V) : option pstate :=
  if veq v (p_val s o attr) then Some s
  else
    let vals := fun x a => if Nat.eqb x o && String.eqb a attr then v else p_val s x a in
    match setUpdated (p_bound s) fuel true o (p_flag s) with
    | Some fl => Some (PState (p_bound s) fl vals)
    | None => None
    end.
End Flags.
Arguments pstate : clear implicits.

(** ** Deleting matrices *)

(** Which delMatrices an object has: paramBoundBase (terms, drives,
    environments), timeBase (simulations), QSimComp (protocols) or
    QuantumSystem. *)
Inductive okind := KPlain | KSim | KComp | KSys.

(** The object graph: paramBound and subSys values, the timeBase bound of a
    simulation, the simulation of a QSimComp object, the terms of a system.
    Objects without a delMatrices method are left out of the lists (the code
    skips them, baseClasses.py 231 and 234). *)
Record graph := Graph { g_kind : nat -> okind;
                        g_bound : nat -> list nat;
                        g_sub : nat -> list nat;
                        g_tb : nat -> option nat;
                        g_sim : nat -> nat;
                        g_terms : nat -> list nat }.

Section Del.
Context {M : Type}.

(** Stored matrices, their adjoints, stored initial states (simulations),
    stored composite operators (systems) and the exclusion list, which is one
    mutable list handed around. *)
Record dstate := DState { d_mat : nat -> option M;
                          d_hc : nat -> option M;
                          d_ini : nat -> option M;
                          d_cmp : nat -> option M;
                          d_ex : list nat }.

Definition excluded (o : nat) (s : dstate) : bool := existsb (Nat.eqb o) (d_ex s).

(** baseClasses.py 223-229 *)
Definition clear_own (o : nat) (s : dstate) : dstate :=
  DState (put (d_mat s) o None) (put (d_hc s) o None) (d_ini s) (d_cmp s) (d_ex s ++ [o]).
(** QSimBase.py 286-287 *)
Definition clear_ini (o : nat) (s : dstate) : dstate :=
  DState (d_mat s) (d_hc s) (put (d_ini s) o None) (d_cmp s) (d_ex s).
(** QSystem.py 419-420 *)
Definition clear_cmp (o : nat) (s : dstate) : dstate :=
  DState (d_mat s) (d_hc s) (d_ini s) (put (d_cmp s) o None) (d_ex s).

Definition obind {A B} (x : option A) (f : A -> option B) : option B :=
  match x with Some a => f a | None => None end.

(** for sys in l: _exclude = sys.delMatrices(_exclude) *)
Fixpoint visit (call : nat -> dstate -> option dstate) (l : list nat) (s : dstate) : option dstate :=
  match l with
  | [] => Some s
  | x :: rest => obind (call x s) (visit call rest)
  end.

Section Call.
Variable g : graph.
Variable call : nat -> dstate -> option dstate.   (* delMatrices of the other objects *)

(** paramBoundBase.delMatrices (baseClasses.py 222-236) *)
Definition del_paramBound (o : nat) (s : dstate) : option dstate :=
  if excluded o s then Some s
  else obind (visit call (g_bound g o) (clear_own o s)) (visit call (g_sub g o)).

(** stateBase.delMatrices (QSimBase.py 284-289) *)
Definition del_state (o : nat) (s : dstate) : option dstate :=
  if excluded o s then Some s
  else obind (del_paramBound o s) (fun s => Some (clear_ini o s)).

(** timeBase.delMatrices (QSimBase.py 500-505) *)
Definition del_time (o : nat) (s : dstate) : option dstate :=
  if excluded o s then Some s
  else obind (del_state o s) (fun s => match g_tb g o with Some b => call b s | None => Some s end).

(** QSimComp.delMatrices (QSimComp.py 165-173) *)
Definition del_comp (o : nat) (s : dstate) : option dstate :=
  if excluded o s then Some s
  else obind (del_paramBound o s) (call (g_sim g o)).

(** QuantumSystem.delMatrices (QSystem.py 411-421); no test of the exclusion
    list of its own, so the terms are visited every time. *)
Definition del_sys (o : nat) (s : dstate) : option dstate :=
  obind (del_comp o s) (fun s => obind (visit call (g_terms g o) s) (fun s => Some (clear_cmp o s))).
End Call.

(** The method call obj.delMatrices(_exclude); [fuel] bounds the depth of the
    recursion. *)
Fixpoint delMatrices (g : graph) (fuel : nat) (o : nat) (s : dstate) : option dstate :=
  match fuel with
  | O => None
  | S f => match g_kind g o with
           | KPlain => del_paramBound g (delMatrices g f) o s
           | KSim => del_time g (delMatrices g f) o s
           | KComp => del_comp g (delMatrices g f) o s
           | KSys => del_sys g (delMatrices g f) o s
           end
  end.

(** Argument-less calls: the default of the parameter _exclude is one list per
    defining method, created when the class is defined and shared by all calls
    (baseClasses.py 204, QSimBase.py 279 and 499, QSimComp.py 165, QSystem.py
    411). *)
Definition call_default (g : graph) (fuel : nat) (dflt : okind -> list nat) (o : nat) (s : dstate)
  : option ((okind -> list nat) * dstate) :=
  let k := g_kind g o in
  match delMatrices g fuel o (DState (d_mat s) (d_hc s) (d_ini s) (d_cmp s) (dflt k)) with
  | None => None
  | Some s' =>
      Some (fun k' => match k, k' with
                      | KPlain, KPlain | KSim, KSim | KComp, KComp | KSys, KSys => d_ex s'
                      | _, _ => dflt k'
                      end, s')
  end.
End Del.
Arguments dstate : clear implicits.
