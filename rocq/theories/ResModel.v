(** Model of result storage (src/quanguru/classes/QRes.py) and of the loops over
    sweep points (src/quanguru/classes/modularSweep.py 39-67). *)
From Verif Require Import Py.

Section Res.
Context {A : Type}.
(** New running average from counter, old average and new value, see
    [resAverage]. *)
Variable avg : nat -> A -> A -> A.

(** Stored Python values: a number/array/anything that is not a list, or a
    list. *)
Inductive pv := Scal (a : A) | PL (l : list pv).

(** A defaultdict(list) with string keys, in insertion order. *)
Notation pdict V := (list (string * V)).
Fixpoint dget {V} (d : pdict V) (k : string) : option V :=
  match d with
  | [] => None
  | (k', v) :: r => if String.eqb k k' then Some v else dget r k
  end.
Fixpoint dput {V} (d : pdict V) (k : string) (v : V) : pdict V :=
  match d with
  | [] => [(k, v)]
  | (k', v') :: r => if String.eqb k k' then (k', v) :: r else (k', v') :: dput r k v
  end.
(** d[k].append(v): a missing key starts as an empty list; a value that is not a
    list has no append. *)
Definition dappend (d : pdict pv) (k : string) (v : pv) : result (pdict pv) :=
  match dget d k with
  | None => Ok (dput d k (PL [v]))
  | Some (PL l) => Ok (dput d k (PL (l ++ [v])))
  | Some (Scal _) => Err AttributeError
  end.

(** The dictionaries of one qResBase object (QRes.py 97-112). *)
Record qres := QRes { q_results : pdict pv; q_average : pdict (A * nat); q_resLast : pdict pv;
                      q_states : pdict pv; q_stLast : pdict pv; q_calc : pdict pv }.
Definition qblank : qres := QRes [] [] [] [] [] [].

(** singleResult setter, and resultsMethod with a string key (QRes.py 134-136,
    156-165). *)
Definition singleResult (k : string) (v : pv) (q : qres) : result qres :=
  match dappend (q_resLast q) k v with
  | Ok d => Ok (QRes (q_results q) (q_average q) d (q_states q) (q_stLast q) (q_calc q))
  | Err e => Err e
  end.
(** resAverage setter (QRes.py 138-154). *)
Definition resAverage (k : string) (x : A) (q : qres) : result qres :=
  let (a, c) := match dget (q_average q) k with
                | Some (v, c) => (avg c v x, S c)
                | None => (x, 1)
                end in
  Ok (QRes (q_results q) (dput (q_average q) k (a, c)) (dput (q_resLast q) k (Scal a))
           (q_states q) (q_stLast q) (q_calc q)).
(** Storing a state, done by Simulation.__compute (QSim.py 316-328). *)
Definition storeState (k : string) (v : pv) (q : qres) : result qres :=
  match dappend (q_stLast q) k v with
  | Ok d => Ok (QRes (q_results q) (q_average q) (q_resLast q) (q_states q) d (q_calc q))
  | Err e => Err e
  end.
(** calculated setter (QRes.py 120-122). *)
Definition calculated (k : string) (v : pv) (q : qres) : result qres :=
  match dappend (q_calc q) k v with
  | Ok d => Ok (QRes (q_results q) (q_average q) (q_resLast q) (q_states q) (q_stLast q) d)
  | Err e => Err e
  end.

(** What the user's compute functions do to the result objects during one sweep
    point: a sequence of these calls, each on the i-th object of allResults. *)
Inductive rop := Single (i : nat) (k : string) (v : pv)
               | Avg (i : nat) (k : string) (x : A)
               | State (i : nat) (k : string) (v : pv)
               | Calc (i : nat) (k : string) (v : pv).

Fixpoint upd_at (i : nat) (f : qres -> result qres) (s : list qres) : result (list qres) :=
  match s, i with
  | [], _ => Err AttributeError
  | q :: r, O => match f q with Ok q' => Ok (q' :: r) | Err e => Err e end
  | q :: r, S j => match upd_at j f r with Ok r' => Ok (q :: r') | Err e => Err e end
  end.

Definition apply1 (o : rop) (s : list qres) : result (list qres) :=
  match o with
  | Single i k v => upd_at i (singleResult k v) s
  | Avg i k x => upd_at i (resAverage k x) s
  | State i k v => upd_at i (storeState k v) s
  | Calc i k v => upd_at i (calculated k v) s
  end.
Fixpoint applyAll (ops : list rop) (s : list qres) : result (list qres) :=
  match ops with
  | [] => Ok s
  | o :: r => bind (apply1 o s) (applyAll r)
  end.

(** _reset (QRes.py 241-251) and _resetLast (253-263). *)
Definition resetAll (s : list qres) : list qres := map (fun _ => qblank) s.
Definition resetLast (s : list qres) : list qres :=
  map (fun q => QRes (q_results q) [] [] (q_states q) [] (q_calc q)) s.

(** The result side of _runSweepAndPrep (modularSweep.py 70-95). *)
Definition runPointRes (ops : list rop) (s : list qres) : result (list qres) :=
  applyAll ops (resetLast s).

(** for key, val in src.items(): dst[key].append(val) *)
Fixpoint appendAll (src dst : pdict pv) : result (pdict pv) :=
  match src with
  | [] => Ok dst
  | (k, v) :: r => bind (dappend dst k v) (appendAll r)
  end.

(** _organise (QRes.py 285-295) for one object; [last] is what the blank object
    (multi-process) or the object itself (single process) has in its Last
    dictionaries. *)
Definition organise1 (last : pdict pv * pdict pv) (q : qres) : result qres :=
  bind (appendAll (fst last) (q_results q)) (fun r =>
  bind (appendAll (snd last) (q_states q)) (fun st =>
  Ok (QRes r (q_average q) (q_resLast q) st (q_stLast q) (q_calc q)))).
Fixpoint organise (lasts : list (pdict pv * pdict pv)) (s : list qres) : result (list qres) :=
  match lasts, s with
  | l :: ls, q :: qs => bind (organise1 l q) (fun q' => bind (organise ls qs) (fun r => Ok (q' :: r)))
  | _, _ => Ok s
  end.
Definition lastOf (q : qres) : pdict pv * pdict pv := (q_resLast q, q_stLast q).

(** _organiseSingleProcRes (QRes.py 297-304). *)
Definition organiseSingle (s : list qres) : result (list qres) := organise (map lastOf s) s.

(** for _ in range(n): append the result of a step that reads from position
    count *)
Fixpoint repeatM (n : nat) (step : nat -> result (pv * nat)) (count : nat) : result (list pv * nat) :=
  match n with
  | O => Ok ([], count)
  | S m => bind (step count) (fun r => bind (repeatM m step (snd r)) (fun r' => Ok (fst r :: fst r', snd r')))
  end.

(** A one-element list is replaced by its element (QRes.py 336-338). *)
Definition unwrap (v : pv) : pv := match v with PL [x] => x | _ => v end.

(** _reShape (QRes.py 324-344); [inds] is the part of the index list from
    counter on. *)
Fixpoint reShape (lis : list pv) (inds : list nat) (count : nat) : result (list pv * nat) :=
  match inds with
  | [] => Err IndexError
  | [n] => repeatM n (fun c => match nth_error lis c with
                               | Some v => Ok (unwrap v, S c)
                               | None => Err IndexError
                               end) count
  | n :: rest => repeatM n (fun c => bind (reShape lis rest c) (fun r => Ok (PL (fst r), snd r))) count
  end.

(** One dictionary in _finalise (QRes.py 310-320). *)
Definition finVal (inds : list nat) (v : pv) : result pv :=
  match v with
  | PL l => match inds with
            | [] => match l with x :: _ => Ok x | [] => Err IndexError end
            | _ => bind (reShape l (rev inds) 0) (fun r => Ok (PL (fst r)))
            end
  | Scal _ => Err TypeError
  end.
Fixpoint finDict (inds : list nat) (d : pdict pv) : result (pdict pv) :=
  match d with
  | [] => Ok []
  | (k, v) :: r => bind (finVal inds v) (fun v' => bind (finDict inds r) (fun r' => Ok ((k, v') :: r')))
  end.
(** _finalise (QRes.py 306-322) and _finaliseAll (276-283). *)
Definition finalise1 (inds : list nat) (q : qres) : result qres :=
  bind (finDict inds (q_results q)) (fun r =>
  bind (finDict inds (q_states q)) (fun st =>
  Ok (QRes r (q_average q) r st st (q_calc q)))).
Fixpoint finaliseAll (inds : list nat) (s : list qres) : result (list qres) :=
  match s with
  | [] => Ok []
  | q :: r => bind (finalise1 inds q) (fun q' => bind (finaliseAll inds r) (fun r' => Ok (q' :: r')))
  end.

(** nonParalEvol (modularSweep.py 52-56): [point i] is what the compute
    functions record at point i. *)
Fixpoint singleLoop (point : nat -> list rop) (pts : list nat) (s : list qres) : result (list qres) :=
  match pts with
  | [] => Ok s
  | i :: r => bind (runPointRes (point i) s) (fun s' => bind (organiseSingle s') (singleLoop point r))
  end.
Definition nonParalEvol (point : nat -> list rop) (n : nat) (inds : list nat) (s : list qres) : result (list qres) :=
  bind (singleLoop point (seq 0 n) s) (finaliseAll inds).

(** paralEvol (modularSweep.py 59-67).  Every task works on its own copy of the
    main process's objects and returns their Last dictionaries
    (_copyAllResBlank, QRes.py 221-239).  [schedule] is the order in which the
    tasks are executed; pool.map files each return value under its index and
    delivers them in index order.  An exception in a task is raised again by
    map; the one with the smallest index is taken here. *)
Definition task (point : nat -> list rop) (s : list qres) (i : nat) : result (list (pdict pv * pdict pv)) :=
  bind (runPointRes (point i) s) (fun s' => Ok (map lastOf s')).
Fixpoint execute (point : nat -> list rop) (s : list qres) (schedule : list nat)
  (table : nat -> option (result (list (pdict pv * pdict pv))))
  : nat -> option (result (list (pdict pv * pdict pv))) :=
  match schedule with
  | [] => table
  | i :: r => execute point s r (fun j => if Nat.eqb j i then Some (task point s i) else table j)
  end.
Fixpoint collect (table : nat -> option (result (list (pdict pv * pdict pv)))) (pts : list nat)
  : result (list (list (pdict pv * pdict pv))) :=
  match pts with
  | [] => Ok []
  | i :: r => match table i with
              | Some (Ok x) => bind (collect table r) (fun l => Ok (x :: l))
              | Some (Err e) => Err e
              | None => Err AssertionError   (* the pool would wait for ever *)
              end
  end.
(** _organiseMultiProcRes (QRes.py 265-274). *)
Fixpoint organiseMulti (rs : list (list (pdict pv * pdict pv))) (s : list qres) : result (list qres) :=
  match rs with
  | [] => Ok s
  | l :: r => bind (organise l s) (organiseMulti r)
  end.
Definition paralEvol (point : nat -> list rop) (schedule : list nat) (n : nat) (inds : list nat) (s : list qres)
  : result (list qres) :=
  bind (collect (execute point s schedule (fun _ => None)) (seq 0 n)) (fun rs =>
  bind (organiseMulti rs s) (finaliseAll inds)).

(** The result side of Simulation.run (QSim.py 330-359): reset unless told
    otherwise, then the single-process loop. *)
Definition runRes (resetRes : bool) (point : nat -> list rop) (n : nat) (inds : list nat) (s : list qres)
  : result (list qres) :=
  nonParalEvol point n inds (if resetRes then resetAll s else s).
End Res.
Arguments pv : clear implicits.
Arguments qres : clear implicits.
Arguments rop : clear implicits.
