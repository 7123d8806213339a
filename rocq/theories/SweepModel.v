(** Model of parameter sweeps (src/quanguru/classes/QSweep.py). *)
From Coq Require Import QArith Qround.
From Verif Require Import Py.
#[local] Open Scope nat_scope.

(** ** Index arithmetic *)

(** Sweep._indicesForSweep (QSweep.py 339-358): the loop with ind, the
    remaining args and the list built so far by insert(0, .).  The code divides
    with "/", i.e. in floating point; (ind-remain)/arg is an exact integer there
    as long as the operands are below 2^53, which is what is modelled. *)
Fixpoint indices_loop (ind : nat) (args : list nat) (indices : list nat) : result (list nat) :=
  match args with
  | [] => Ok indices
  | arg :: rest =>
      if Nat.eqb arg 0 then Err ZeroDivisionError
      else let remain := ind mod arg in
           indices_loop ((ind - remain) / arg) rest (remain :: indices)
  end.
Definition indicesForSweep (ind : nat) (args : list nat) : result (list nat) :=
  indices_loop ind args [].

(** ** Running a sweep point *)
Section Run.
Context {V : Type}.

(** What a sweep assigns to: an attribute of an object, or a key of the
    auxiliary dictionary (updateBase._aux, baseClasses.py 61 and 98-102). *)
Inductive target := TAttr (o : nat) (attr : string) | TAux (key : string).
Definition target_eqb (a b : target) : bool :=
  match a, b with
  | TAttr o x, TAttr p y => Nat.eqb o p && String.eqb x y
  | TAux x, TAux y => String.eqb x y
  | _, _ => false
  end.
Definition store := target -> V.
Definition assign (s : store) (t : target) (v : V) : store :=
  fun t' => if target_eqb t' t then v else s t'.

(** One _sweep object (QSweep.py 37-95) with the default sweep function: its
    combinatorial flag, its sweepList, and the targets of its key (one per
    object in subSys, or the auxiliary dictionary). *)
Record sweep := Sweep { sw_comb : bool; sw_list : list V; sw_targets : list target }.

(** updateBase._runUpdate (baseClasses.py 92-102). *)
Definition runUpdate (sw : sweep) (v : V) (s : store) : store :=
  fold_left (fun s t => assign s t v) (sw_targets sw) s.

(** _sweep.runSweep and _defSweep (QSweep.py 145-174): _sweepIndex = ind-1,
    index = _sweepIndex+1 = ind. *)
Definition runOne (sw : sweep) (ind : nat) (s : store) : store * result unit :=
  match nth_error (sw_list sw) ind with
  | Some v => (runUpdate sw v s, Ok tt)
  | None => (s, Err IndexError)
  end.

(** Sweep.runSweep (QSweep.py 325-337); [indx] is the running index. *)
Fixpoint runSweep_loop (sws : list sweep) (indList : list nat) (indx : nat) (s : store)
  : store * result unit :=
  match sws with
  | [] => (s, Ok tt)
  | sw :: rest =>
      let indx := if sw_comb sw then S indx else indx in
      match nth_error indList indx with
      | None => (s, Err IndexError)
      | Some i => match runOne sw i s with
                  | (s', Ok _) => runSweep_loop rest indList indx s'
                  | (s', Err e) => (s', Err e)
                  end
      end
  end.
Definition runSweep (sws : list sweep) (indList : list nat) (s : store) : store * result unit :=
  runSweep_loop sws indList 0 s.

(** Sweep.prepare (QSweep.py 312-323): inds and indMultip, which keep their old
    values if there is no sweep. *)
Fixpoint prepare_loop (sws : list sweep) (first : bool) (inds : list nat) : list nat :=
  match sws with
  | [] => inds
  | sw :: rest => prepare_loop rest false
                    (if sw_comb sw || first then List.length (sw_list sw) :: inds else inds)
  end.
Definition prepare (sws : list sweep) (old : list nat * nat) : list nat * nat :=
  match sws with
  | [] => old
  | _ => let inds := prepare_loop sws true [] in (inds, fold_right Nat.mul 1 inds)
  end.

(** The sweep part of _runSweepAndPrep (modularSweep.py 70-72) for point ind. *)
Definition runPoint (sws : list sweep) (inds : list nat) (ind : nat) (s : store) : store * result unit :=
  match inds with
  | [] => (s, Ok tt)
  | _ => match indicesForSweep ind inds with
         | Ok l => runSweep sws l s
         | Err e => (s, Err e)
         end
  end.
End Run.
Arguments store : clear implicits.
Arguments sweep : clear implicits.

(** ** Value lists *)

(** numpy.arange(start, stop, step): ceil((stop-start)/step) values, none if
    that is negative; a zero step raises ZeroDivisionError.  Exact rationals
    instead of floating point. *)
Definition arange (start stop step : Q) : result (list Q) :=
  if Qeq_bool step 0 then Err ZeroDivisionError
  else Ok (map (fun i => (start + inject_Z (Z.of_nat i) * step)%Q)
               (seq 0 (Z.to_nat (Qceiling ((stop - start) / step)%Q)))).

(** numpy.logspace(start, stop, num, base=10): [pow] is the function 10**x. *)
Definition logspace (pow : Q -> Q) (start stop : Q) (num : nat) : list Q :=
  map (fun i => pow (start + inject_Z (Z.of_nat i) * ((stop - start) / inject_Z (Z.of_nat (num - 1))))%Q)
      (seq 0 num).

(** The attributes of a _sweep object behind sweepList (QSweep.py 68-83).
    sweepStep is a rational for linear sweeps and a number of points for
    logarithmic ones. *)
Record swattr := SwAttr { a_min : option Q; a_max : option Q; a_step : option Q; a_num : nat;
                          a_log : bool; a_list : option (list Q) }.

(** The sweepList getter (QSweep.py 123-140); arithmetic with None raises and
    the bare except leaves the list None. *)
Definition getSweepList (pow : Q -> Q) (a : swattr) : swattr * option (list Q) :=
  match a_list a with
  | Some l => (a, Some l)
  | None =>
      let l := match a_min a, a_max a with
               | Some mn, Some mx =>
                   if a_log a then Some (logspace pow mn mx (a_num a))
                   else match a_step a with
                        | Some st => match arange mn (mx + st)%Q st with Ok l => Some l | Err _ => None end
                        | None => None
                        end
               | _, _ => None
               end in
      (SwAttr (a_min a) (a_max a) (a_step a) (a_num a) (a_log a) l, l)
  end.

(** ** Removing *)

(** Sweep.removeSweep (QSweep.py 244-266).  A sweep here is its identity and the
    identities of its systems; [RemSweep] is the call with a _sweep object,
    [RemSystem] the call with anything else (an object, given directly or by
    name).  On an exception the changes made so far stay. *)
Inductive remarg := RemSweep (w : nat) | RemSystem (o : nat).

Definition del (o : nat) (l : list nat) : list nat := filter (fun x => negb (Nat.eqb x o)) l.

Fixpoint removeSystem_loop (todo : list (nat * list nat)) (o : nat) : list (nat * list nat) * result unit :=
  match todo with
  | [] => ([], Ok tt)
  | (w, sys) :: rest =>
      if existsb (Nat.eqb o) sys then
        let sys' := del o sys in
        let (rest', r) := removeSystem_loop rest o in
        ((match sys' with [] => [] | _ => [(w, sys')] end) ++ rest', r)
      else ((w, sys) :: rest, Err KeyError)
  end.

Definition removeSweep (a : remarg) (sws : list (nat * list nat)) : list (nat * list nat) * result unit :=
  match a with
  | RemSweep w => if existsb (fun e => Nat.eqb w (fst e)) sws
                  then (filter (fun e => negb (Nat.eqb (fst e) w)) sws, Ok tt)
                  else (sws, Err KeyError)
  | RemSystem o => removeSystem_loop sws o
  end.
