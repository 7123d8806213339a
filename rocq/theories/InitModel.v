(** Initial states of single and (nested) composite systems:
    classes/QSystem.py and classes/QSimBase.py. *)
From mathcomp Require Import all_ssreflect all_algebra.
From Verif Require Py.
From Verif Require Import MatModel OperModel StateModel.
Set Implicit Arguments.
Unset Strict Implicit.
Unset Printing Implicit Defensive.
Import GRing.Theory Num.Theory.
Local Open Scope ring_scope.

Section Init.
Variable C : numClosedFieldType.

(** What can be assigned to initialState: None, an int (negative ones are not
    representable), a list or tuple, a dict, an array, any other object. *)
Inductive inp := INone | IInt (n : nat) | ISeq (l : seq inp) | IDict (d : seq (nat * C)) | IArr (M : mat C) | IOther.

(** The attributes of a Simulation that matter here (QSimBase.py 155-180): the
    stored state, the stored input and [_maxInput].  The simulation of a system
    is not bound to another one, so [.value] is the stored value. *)
Record sim := Sim { s_val : option (mat C); s_inp : inp; s_max : option nat }.

(** Quantum systems with their simulations (QSystem.py 59-100): a single system
    with its dimension and [_inpCoef], or a composite one with its sub-systems
    in order; the superSys of a sub-system is the composite one it is in.
    Systems of undetermined kind ([__compSys] None) are not modelled; the setter
    refuses them (QSystem.py 178-180). *)
Inductive sys := Single (d : nat) (coef : bool) (m : sim) | Comp (m : sim) (l : seq sys).

Definition simOf (t : sys) : sim := match t with Single _ _ m => m | Comp m _ => m end.
Definition withSim (t : sys) (f : sim -> sim) : sys :=
  match t with Single d c m => Single d c (f m) | Comp m l => Comp (f m) l end.
(** Assignments to one attribute. *)
Definition putVal (v : option (mat C)) (m : sim) : sim := Sim v (s_inp m) (s_max m).
Definition putInp (v : inp) (m : sim) : sim := Sim (s_val m) v (s_max m).
Definition putMax (x : nat) (m : sim) : sim := Sim (s_val m) (s_inp m) (Some x).

(** The dimension getter (QSystem.py 228-239) *)
Fixpoint dimension (t : sys) : nat :=
  match t with
  | Single d _ _ => d
  | Comp _ l => foldr muln 1%N (map dimension l)
  end.

Definition asInt (v : inp) : option nat := if v is IInt n then Some n else None.
Definition allInts (l : seq inp) : bool := all (fun v => isSome (asInt v)) l.

(** Python's [max] of a sequence of ints *)
Definition pymax (l : seq nat) : result nat := if l is [::] then Err Py.ValueError else Ok (foldr maxn 0%N l).

(** _setGetMaxInput (QSimBase.py 242-258), the returned value.  The keys of a
    dict are ints here. *)
Definition getMax (v : inp) : result nat :=
  match v with
  | IInt n => Ok n
  | INone => Ok 1%N
  | ISeq l => if allInts l then pymax (pmap asInt l) else Ok 1%N
  | IDict d => pymax [seq p.1 | p <- d]
  | IArr M => Ok (rows M)
  | IOther => Err Py.TypeError
  end.

(** The argument of superPos (states.py 315-325): anything but a dict, an int or
    an iterable of ints raises TypeError. *)
Definition toExcit (v : inp) : excit C :=
  match v with
  | IInt n => @EInt C n
  | IDict d => EDict d
  | ISeq l => if allInts l then @EList C (pmap asInt l) else @EOther C
  | _ => @EOther C
  end.

(** [inp[ind]] for a list.  Indexing anything else does not happen: the setter
    of a composite system (QSystem.py 184-188) lets only lists and arrays pass. *)
Definition item (v : inp) (i : nat) : result inp :=
  if v is ISeq l then (if (i < size l)%N then Ok (nth INone l i) else Err Py.IndexError)
  else Err Py.TypeError.

(** The tensor product of the states, or None if one of them is None
    (QSystem.py 161) *)
Definition tensorAll (l : seq (option (mat C))) : result (option (mat C)) :=
  if all isSome l then do M <- tensorProd [seq TMat N | N <- pmap id l]; Ok (Some M) else Ok None.

(** _createInitialState (QSystem.py 152-169) inside the decorator _initStDec
    (38-57); [_createState] is another name of it (171).  Besides the state, the
    system is returned: _setGetMaxInput stores its result in the simulation of
    each sub-system (160; it is stored here after the call of the method of the
    sub-system, which does not look at it).  Warnings are not modelled. *)
Fixpoint create (t : sys) (v : inp) (mx : option nat) {struct t} : result (option (mat C)) * sys :=
  match v with
  | IArr M => (if rows M == dimension t then Ok (Some M) else Err Py.ValueError, t)
  | _ =>
    let v := if v is INone then s_inp (simOf t) else v in
    match t with
    | Single d coef m =>
        match v, mx with
        | INone, _ => (Err Py.ValueError, t)
        | _, None => (Err Py.TypeError, t)
        | _, Some x => ((if (x < d)%N then do M <- superPos d (toExcit v) (~~ coef); Ok (Some M) else Ok None), t)
        end
    | Comp m l =>
        let v := if v is INone then ISeq [seq s_inp (simOf c) | c <- l] else v in
        let rl := (fix each (l : seq sys) (i : nat) : result (seq (option (mat C))) * seq sys :=
          match l with
          | [::] => (Ok [::], [::])
          | c :: l' =>
              match item v i with
              | Err e => (Err e, l)
              | Ok w =>
                match getMax w with
                | Err e => (Err e, l)
                | Ok x =>
                  let rc := create c w (Some x) in
                  let c' := withSim rc.2 (putMax x) in
                  match rc.1 with
                  | Err e => (Err e, c' :: l')
                  | Ok s => let rr := each l' i.+1 in (do ss <- rr.1; Ok (s :: ss), c' :: rr.2)
                  end
                end
              end
          end) l 0%N in
        (do ss <- rl.1; tensorAll ss, Comp m rl.2)
    end
  end.

(** The initialState setter of the simulation (QSimBase.py 224-228 and 237-240) *)
Definition simSet (t : sys) (v : inp) : result unit * sys :=
  match getMax v with
  | Err e => (Err e, t)
  | Ok x =>
      let rt := create (withSim t (fun m => putInp v (putMax x m))) v (Some x) in
      match rt.1 with
      | Err e => (Err e, rt.2)
      | Ok s => (Ok tt, withSim rt.2 (putVal s))
      end
  end.

(** The initialState setter of a system (QSystem.py 173-191), but for the
    assignment to the superSys (181-182), which is made by the caller: here for
    the sub-systems, in [setAt] for the system itself. *)
Fixpoint setState (t : sys) (v : inp) {struct t} : result unit * sys :=
  match t with
  | Single _ _ _ => simSet t v
  | Comp m l =>
      match v with
      | IArr _ => simSet t v
      | ISeq vs =>
          if size vs != size l then (Err Py.ValueError, t)
          else
            let rl := (fix each (l : seq sys) (vs : seq inp) : result unit * seq sys :=
              match l, vs with
              | c :: l', w :: vs' =>
                  let rc := setState c w in
                  match rc.1 with
                  | Err e => (Err e, rc.2 :: l')
                  | Ok _ => let rr := each l' vs' in (rr.1, rc.2 :: rr.2)
                  end
              | _, _ => (Ok tt, l)
              end) l vs in
            let t' := Comp (if l is [::] then m else putVal None m) rl.2 in
            match rl.1 with
            | Err e => (Err e, t')
            | Ok _ => simSet t' v
            end
      | _ => (Err Py.TypeError, t)
      end
  end.

(** The initialState getter (QSimBase.py 197-222, QSimComp.py 157-163); the
    initialStateSystem of the simulation of a system is the system. *)
Definition getState (t : sys) : result (option (mat C)) * sys :=
  let m := simOf t in
  if (if s_val m is Some M then rows M != dimension t else true) then
    let rt := create t (s_inp m) (s_max m) in
    match rt.1 with
    | Err e => (Err e, rt.2)
    | Ok s => (Ok s, withSim rt.2 (putVal s))
    end
  else (Ok (s_val m), t).

(** The system reached by taking the given sub-systems one after the other. *)
Fixpoint subAt (t : sys) (p : seq nat) : option sys :=
  match p with
  | [::] => Some t
  | i :: p' => if t is Comp _ l then (if ohead (drop i l) is Some c then subAt c p' else None) else None
  end.

(** A call on the system at [p]; [up] is done to the simulation of its superSys. *)
Fixpoint callAt (R : Type) (f : sys -> R * sys) (up : sim -> sim) (t : sys) (p : seq nat) : option (R * sys) :=
  match p with
  | [::] => Some (f t)
  | i :: p' =>
      if t is Comp m l then
        if ohead (drop i l) is Some c then
          if callAt f up c p' is Some rc then
            Some (rc.1, Comp (if p' is [::] then up m else m) (set_nth c l i rc.2))
          else None
        else None
      else None
  end.

(** [system.initialState = v] and reading [system.initialState] *)
Definition setAt (t : sys) (p : seq nat) (v : inp) := callAt (fun s => setState s v) (putVal None) t p.
Definition getAt (t : sys) (p : seq nat) := callAt getState id t p.

(** Stored states set to None by delMatrices (QSimBase.py 279-289), for any set
    of systems: which ones delMatrices reaches is the subject of C09. *)
Fixpoint clear (b : seq nat -> bool) (t : sys) {struct t} : sys :=
  match t with
  | Single d c m => Single d c (if b [::] then putVal None m else m)
  | Comp m l =>
      Comp (if b [::] then putVal None m else m)
        ((fix each (l : seq sys) (i : nat) : seq sys :=
            match l with [::] => [::] | c :: l' => clear (fun p => b (i :: p)) c :: each l' i.+1 end) l 0%N)
  end.

(** The dimension setter (QSystem.py 247-263) of a system without Pauli terms.
    [_paramUpdated] is set if the value changes and may have been set before
    ([flag]); then delMatrices and, at each superSys, _updateDimension (289,
    296-297) reach all systems. *)
Definition setDim (t : sys) (d : nat) (flag : bool) : result bool * sys :=
  match t with
  | Comp _ _ => (Ok false, t)
  | Single d0 c m => if (0 < d)%N then (Ok ((d != d0) || flag), Single d c m) else (Err Py.ValueError, t)
  end.
Definition dimAt (t : sys) (p : seq nat) (d : nat) (flag : bool) : option (result unit * sys) :=
  if callAt (fun s => setDim s d flag) id t p is Some rt then
    Some (match rt.1 with
          | Ok b => (Ok tt, if b then clear xpredT rt.2 else rt.2)
          | Err e => (Err e, rt.2)
          end)
  else None.

(** What can happen to a system; exceptions are caught by the caller. *)
Inductive op := OSet (p : seq nat) (v : inp) | OGet (p : seq nat) | ODim (p : seq nat) (d : nat) (flag : bool)
  | OClear (b : seq nat -> bool).
Definition after (R : Type) (t : sys) (x : option (R * sys)) : sys := if x is Some rt then rt.2 else t.
Definition step (t : sys) (o : op) : sys :=
  match o with
  | OSet p v => after t (setAt t p v)
  | OGet p => after t (getAt t p)
  | ODim p d flag => after t (dimAt t p d flag)
  | OClear b => clear b t
  end.
Definition run (t : sys) (os : seq op) : sys := foldl step t os.

(** The initialState setter of a protocol (QPro.py 137-140): the state is made by
    the system, with the default [_maxInput], and stored by the protocol. *)
Definition protocolState (t : sys) (v : inp) : result (option (mat C)) * sys :=
  match getMax v with Err e => (Err e, t) | Ok _ => create t v (Some 1%N) end.

End Init.
