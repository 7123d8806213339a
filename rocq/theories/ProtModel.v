(** Model of protocols, their cached unitaries and parameter updates
    (src/quanguru/classes/QPro.py, baseClasses.py 154-202). *)
From Verif Require Import Py.

(** A step or protocol: a leaf (freeEvolution, gate) or a protocol (qProtocol)
    with its steps.  Objects are named by numbers, which index their mutable
    attributes below.  A step is an object itself ([None]) or a copyStep of an
    object, with its hc attribute ([Some hc]); QPro.py 302-317, 340-355.  An object may
    occur several times.  A protocol that contains itself is not represented
    (the code recurses without end). *)
Inductive node := Leaf (o : nat) | Prot (o : nat) (items : list (option bool * node)).
Definition nid (n : node) : nat := match n with Leaf o => o | Prot o _ => o end.

Definition set {X} (f : nat -> X) (i : nat) (x : X) : nat -> X := fun j => if Nat.eqb j i then x else f j.

Section Prot.
(** Matrices; parameter values with Python's ==. *)
Variables M V : Type.
Variable mul : M -> M -> M.
Variable one : M.
Variable adj : M -> M.
Variable shape : M -> nat * nat.
Variable veq : V -> V -> bool.
(** What a leaf computes from the current parameters (matrixExponentiation,
    QPro.py 397-405; SpinRotation._rotMat, QGates.py 72-84; only closed systems). *)
Variable leafU : (nat -> V) -> nat -> M.
(** The protocol objects whose _paramUpdated a change of the parameter sets (the
    reachable part of the paramBound graph, see ParamModel.v). *)
Variable dep : nat -> list nat.
(** The updates of a step (QPro.py 80, 133-141), the parameters an update sets
    (getattr/setattr of its key in its systems, the first of which is used for
    the memory) and its value (QPro.py 456-508; no updateFunction). *)
Variable updates : nat -> list nat.
Variable u_first : nat -> nat.
Variable u_rest : nat -> list nat.
Variable u_val : nat -> V.
(** __fixed (QPro.py 174-180) *)
Variable fixed : nat -> bool.

(** Parameter values, __paramUpdated, __matrix, __matrixHc (baseClasses.py
    134-152) and the updates' __memoryValue. *)
Record st := St { env : nat -> V; flag : nat -> bool; mat : nat -> option M; mhc : nat -> option M; mem : nat -> V }.

(** setAttr (QSimBase.py 39-47) *)
Definition setParam (p : nat) (v : V) (s : st) : st :=
  if veq v (env s p) then s
  else St (set (env s) p v) (fun x => if existsb (Nat.eqb x) (dep p) then true else flag s x) (mat s) (mhc s) (mem s).

(** Update._setup, Update._setback (QPro.py 499-508) *)
Definition setAll (ps : list nat) (v : V) (s : st) : st := fold_left (fun s p => setParam p v s) ps s.
Definition setup (u : nat) (s : st) : st :=
  setAll (u_first u :: u_rest u) (u_val u) (St (env s) (flag s) (mat s) (mhc s) (set (mem s) u (env s (u_first u)))).
Definition setback (u : nat) (s : st) : st :=
  if veq (u_val u) (mem s u) then s else setAll (u_first u :: u_rest u) (mem s u) s.
Definition setups (us : list nat) (s : st) : st := fold_left (fun s u => setup u s) us s.
Definition setbacks (us : list nat) (s : st) : st := fold_left (fun s u => setback u s) us s.

Definition setFlag (o : nat) (b : bool) (s : st) : st := St (env s) (set (flag s) o b) (mat s) (mhc s) (mem s).
Definition setMat (o : nat) (m : option M) (s : st) : st := St (env s) (flag s) (set (mat s) o m) (mhc s) (mem s).

(** The getter of _paramUpdated (baseClasses.py 190-196; QPro.py 283-289 for
    protocols, 360-362 for copies). *)
Fixpoint updated (n : node) (s : st) : bool * st :=
  match n with
  | Leaf o => (flag s o, s)
  | Prot o items =>
      let s' := (fix scan l s := match l with
                                 | [] => s
                                 | (_, c) :: r => let (b, s1) := updated c s in
                                                  if b then setFlag o true s1 else scan r s1
                                 end) items s in
      (flag s' o, s')
  end.

(** _paramUpdatedToFalse (QPro.py 226-227, 277-281, 357-358) *)
Fixpoint toFalse (n : node) (s : st) : st :=
  match n with
  | Leaf o => setFlag o false s
  | Prot o items =>
      (fix all l s := match l with
                      | [] => s
                      | (None, c) :: r => all r (toFalse c s)
                      | (Some _, _) :: r => all r s
                      end) items (setFlag o false s)
  end.

(** _puValues (QPro.py 319-328): read the flags of the later steps; assign them
    back.  The setter of a copyStep does nothing (368-370).  The objects bound
    to a step (its __paramBound) are taken to be none. *)
Fixpoint readFlags (items : list (option bool * node)) (s : st) : list bool * st :=
  match items with
  | [] => ([], s)
  | (_, c) :: r => let (b, s1) := updated c s in let (bs, s2) := readFlags r s1 in (b :: bs, s2)
  end.
Fixpoint writeFlags (items : list (option bool * node)) (bs : list bool) (s : st) : st :=
  match items, bs with
  | (None, c) :: r, b :: bs => writeFlags r bs (setFlag (nid c) b s)
  | (Some _, _) :: r, _ :: bs => writeFlags r bs s
  | _, _ => s
  end.

(** paramBoundBase._hc (baseClasses.py 154-159); None.shape / hc(None) raise. *)
Definition readHc (o : nat) (s : st) : result (option M * st) :=
  match mat s o with
  | None => Err AttributeError
  | Some m => match mhc s o with
              | Some h => if (Nat.eqb (fst (shape h)) (fst (shape m)) && Nat.eqb (snd (shape h)) (snd (shape m)))%bool
                          then Ok (Some h, s)
                          else Ok (Some (adj m), St (env s) (flag s) (mat s) (set (mhc s) o (Some (adj m))) (mem s))
              | None => Ok (Some (adj m), St (env s) (flag s) (mat s) (set (mhc s) o (Some (adj m))) (mem s))
              end
  end.

(** genericProtocol.unitary (QPro.py 195-206), given getUnitary of the object.
    Time dependency of the system is not modelled. *)
Definition unitary_with (get : st -> result (option M * st)) (n : node) (s : st) : result (option M * st) :=
  let (b, s1) := updated n s in
  if b then
    if fixed (nid n) then Ok (mat s1 (nid n), s1)
    else bind (get s1) (fun r => let s2 := setMat (nid n) (fst r) (snd r) in Ok (mat s2 (nid n), s2))
  else match mat s1 (nid n) with
       | None => bind (get s1) (fun r => let s2 := setMat (nid n) (fst r) (snd r) in Ok (mat s2 (nid n), s2))
       | Some m => Ok (Some m, s1)
       end.
(** copyStep.unitary and copyStep.getUnitary (QPro.py 372-378) *)
Definition copy_with (get : st -> result (option M * st)) (h : bool) (n : node) (s : st) : result (option M * st) :=
  bind (unitary_with get n s) (fun r => if h then readHc (nid n) (snd r) else Ok (mat (snd r) (nid n), snd r)).

(** The runCreate decision of _defGetUnitary (QPro.py 230-235), after the getter. *)
Definition runCreate (b : bool) (o : nat) (s : st) : bool :=
  if b then negb (fixed o) else match mat s o with None => true | Some _ => false end.

(** getUnitary, _defGetUnitary, _defCreateUnitary (QPro.py 208-250, 330-336).  The
    timeDependency sweep of a protocol (240-247 with lc > 1) is not modelled. *)
Fixpoint getUnitary (n : node) (s : st) : result (option M * st) :=
  let s1 := setups (updates (nid n)) s in
  let (b, s2) := updated n s1 in
  bind (if runCreate b (nid n) s2 then
          bind (match n with
                | Leaf o => Ok (leafU (env s2) o, s2)
                | Prot o items =>
                    (fix loop l acc s : result (M * st) :=
                       match l with
                       | [] => Ok (acc, s)
                       | (cp, c) :: r =>
                           let (vals, sa) := readFlags r s in
                           bind (match cp with None => getUnitary c sa | Some h => copy_with (getUnitary c) h c sa end)
                             (fun x => match fst x with
                                       | None => Err TypeError
                                       | Some u => loop r (mul u acc) (writeFlags r vals (snd x))
                                       end)
                       end) items one s2
                end) (fun x => Ok (setMat (nid n) (Some (mul (fst x) one)) (snd x)))
        else Ok s2)
    (fun s3 => let s4 := toFalse n (setbacks (updates (nid n)) s3) in Ok (mat s4 (nid n), s4)).

Definition unitary (n : node) (s : st) : result (option M * st) := unitary_with (getUnitary n) n s.

(** delMatrices (baseClasses.py 204-236) for all protocol objects. *)
Definition delMatrices (s : st) : st := St (env s) (flag s) (fun _ => None) (fun _ => None) (mem s).
End Prot.
Arguments St {M V}. Arguments env {M V}. Arguments flag {M V}. Arguments mat {M V}. Arguments mhc {M V}. Arguments mem {M V}.
