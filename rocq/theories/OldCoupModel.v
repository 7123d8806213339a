(** Model of the coupling terms of the older composite systems: class qCoupling
    (src/quanguru/classes/QSys.py 1125-1271) and the couplings JCold, RabiOld and
    DickeOld (src/quanguru/classes/extensions/couplings.py 60-92).

    The systems are the positions in a flat composite with the dimensions [ds];
    the dimensions before and after a system are the products of those of its
    neighbours.  Operators are functions of the dimension; the functions for spin
    operators are given (dimension-1)/2 and the Pauli functions nothing, which is
    part of the function here. *)
From mathcomp Require Import all_ssreflect all_algebra.
From Verif Require Py.
From Verif Require Import MatModel OperModel CoupModel.
Set Implicit Arguments.
Unset Strict Implicit.
Unset Printing Implicit Defensive.
Import GRing.Theory Num.Theory.
Local Open Scope ring_scope.

Section OldCoup.
Variable C : numClosedFieldType.
(** The operator functions, and the matrix one gives for a dimension. *)
Variable O : Type.
Variable opMat : O -> nat -> result (mat C).

(** What a list given to addTerm contains: single systems, other named objects,
    operators. *)
Inductive item := ISys (i : nat) | IObj (i : nat) | IOp (o : O).
Definition isOp (x : item) : bool := if x is IOp _ then true else false.
Definition idOf (x : item) : nat := match x with ISys i | IObj i => i | IOp _ => 0%N end.

(** One term: the systems and the operators.  The terms are in a dictionary with
    the keys '0', '1', ... (QSys.py 1223, 1245). *)
Definition term := (seq nat * seq item)%type.
Definition dict := seq (nat * term).

(** self._qBase__subSys[str(lo)] = ... *)
Fixpoint put (d : dict) (k : nat) (t : term) : dict :=
  match d with
  | [::] => [:: (k, t)]
  | (k', t') :: d' => if k' == k then (k, t) :: d' else (k', t') :: put d' k t
  end.
(** lo = len(self.subSys) *)
Definition record (d : dict) (systs : seq item) (ops : seq item) : dict := put d (size d) (map idOf systs, ops).

(** A coupling: its terms, the frequency (couplingStrength), and the matrix kept
    from before (QSys.py 660-672, 1141-1144).  A matrix of None is the integer 0
    that sum gives for no terms. *)
Record coup := Coup { c_dict : dict; c_freq : option C; c_mat : option (option (mat C)) }.
Definition newCoup : coup := Coup [::] None None.

(** __addTerm (QSys.py 1217-1227): further operators for the same systems.  The
    arguments from [count] on; what is left of them is returned. *)
Fixpoint more (systs : seq item) (args : seq (seq item)) (d : dict) : dict * result (seq (seq item)) :=
  match args with
  | [::] => (d, Ok [::])
  | a :: args' =>
      match a with
      | _ :: x :: _ => if isOp x then more systs args' (record d systs a) else (d, Ok args)
      | _ => (d, Err Py.IndexError)
      end
  end.

(** The loop of addTerm (QSys.py 1233-1251).  None: the loop does not end within
    [fuel] rounds. *)
Fixpoint loop (fuel : nat) (args : seq (seq item)) (d : dict) : option (dict * result unit) :=
  if fuel is fuel'.+1 then
    match args with
    | [::] => Some (d, Ok tt)
    | a :: rest =>
        match a with
        | [::] => Some (d, Err Py.IndexError)
        | IOp _ :: _ => Some (d, Err Py.ValueError)
        | IObj _ :: _ => Some (d, Ok tt)
        | ISys _ :: _ =>
            if has isOp a then Some (d, Err Py.ValueError) else
            match rest with
            | (_ :: x :: _) as b :: rest' =>
                let: (d1, todo) := if isOp x then (record d a b, rest') else (d, args) in
                match more a todo d1 with
                | (d2, Ok todo') => loop fuel' todo' d2
                | (d2, Err e) => Some (d2, Err e)
                end
            | _ => Some (d, Err Py.IndexError)
            end
        end
    end
  else None.

(** addTerm (QSys.py 1229-1253); the kept matrix is dropped at the end only. *)
Definition addTerm (fuel : nat) (c : coup) (args : seq (seq item)) : option (coup * result unit) :=
  match loop fuel args (c_dict c) with
  | Some (d, Ok _) => Some (Coup d (c_freq c) None, Ok tt)
  | Some (d, Err e) => Some (Coup d (c_freq c) (c_mat c), Err e)
  | None => None
  end.

(** couplingStrength (QSys.py 1167-1176); the notification of other objects is in
    ParamModel.v. *)
Definition setStrength (c : coup) (g : C) : coup := Coup (c_dict c) (Some g) (c_mat c).

(** ** The matrix *)
Variable ds : seq nat.
(** The attribute ind of a system (QSys.py 208-220). *)
Variable ind : nat -> nat.

Definition embed (i : nat) (x : item) : result (mat C) :=
  match x with
  | IOp o => do m <- opMat o (nth 0%N ds i);
             compositeOp m (foldr muln 1%N (take i ds)) (foldr muln 1%N (drop i.+1 ds))
  | _ => Err Py.TypeError
  end.

(** sorted(qts, key=lambda x: x[0]) is stable (QSys.py 1183). *)
Fixpoint insert (p : nat * mat C) (l : seq (nat * mat C)) : seq (nat * mat C) :=
  match l with
  | [::] => [:: p]
  | q :: l' => if (q.1 <= p.1)%N then q :: insert p l' else p :: l
  end.
Definition sorted (l : seq (nat * mat C)) : seq (nat * mat C) := foldl (fun acc p => insert p acc) [::] l.
(** __coupOrdering (QSys.py 1178-1187) *)
Definition coupOrdering (qts : seq (nat * mat C)) : result (mat C) :=
  match sorted qts with
  | [::] => Err Py.IndexError
  | q :: l => foldl (fun acc p => do a <- acc; mmul a p.2) (Ok q.2) l
  end.
(** The matrix of one term (QSys.py 1195-1209): range(len(...)) is that of the
    pair of systems and operators, which has two elements. *)
Definition termMat (t : term) : result (mat C) :=
  do qts <- allOk (map (fun k =>
      if (k < size t.1)%N && (k < size t.2)%N then
        let i := nth 0%N t.1 k in
        do m <- embed i (nth (IObj 0) t.2 k); Ok (ind i, m)
      else Err Py.IndexError) (iota 0 2));
  coupOrdering qts.

(** _constructMatrices (QSys.py 1189-1215) *)
Definition construct (d : dict) : result (option (mat C)) :=
  do cMats <- allOk (map (fun p => termMat p.2) d);
  match cMats with
  | [::] => Ok None
  | _ => do m <- sumMats cMats; Ok (Some m)
  end.

(** totalHam and freeMat (QSys.py 725-752): the matrix is made if none is kept. *)
Definition totalHam (c : coup) : result (coup * option (mat C)) :=
  do m <- match c_mat c with Some m => Ok m | None => construct (c_dict c) end;
  match c_freq c with
  | None => Err Py.TypeError
  | Some g => Ok (Coup (c_dict c) (c_freq c) (Some m), omap (scalem g) m)
  end.

(** ** Removing a system *)
(** qCoupling._removeSubSysExc (QSys.py 1262-1271): pop inside the loop over the
    dictionary; after a pop the loop ends with a RuntimeError, and the pop of a key
    that is not there raises KeyError.  The enumeration starts at [n]. *)
Inductive removal := Untouched | Runtime (d : dict) | Missing.
Fixpoint removeFrom (all d : dict) (n : nat) (q : nat) : removal :=
  match d with
  | [::] => Untouched
  | (_, t) :: d' =>
      if q \in t.1 then
        if n \in map fst all then Runtime (filter (fun p => p.1 != n) all) else Missing
      else removeFrom all d' n.+1 q
  end.
Definition remove (d : dict) (q : nat) : removal := removeFrom d d 0 q.
End OldCoup.
Arguments ISys {O}. Arguments IObj {O}. Arguments IOp {O}.
Arguments newCoup {C O}.

(** ** JC, Rabi and Dicke *)
Section Named.
Variable C : numClosedFieldType.
(** The matrix of an operator in qCoupling._constructMatrices (QSys.py 1201-1207). *)
Definition oldMat (o : oper) (dim : nat) : result (mat C) :=
  let j : rat := (dim%:R - 1) / 2%:R in
  match o with
  | ONumber => number C dim
  | OJz => Jz C j false
  | ODestroy => destroy C dim
  | OCreate => create C dim
  | OJp => Jp C j false
  | OJm => Jm C j false
  | OJx => Jx C j false
  | OSigmaz => sigmaz
  | OSigmax => sigmax
  | ONone => Err Py.TypeError
  end.

Definition pairOfSys (c q : nat) : seq (item oper) := [:: ISys c; ISys q].
Definition pairOfOps (a b : oper) : seq (item oper) := [:: IOp a; IOp b].
(** createSysCoupling (QSys.py 556-564): a new coupling with the strength, then
    addTerm. *)
Definition create (g : C) (args : seq (seq (item oper))) : option (coup C oper * result unit) :=
  addTerm (size args).+1 (setStrength newCoup g) args.
(** JCold (couplings.py 60-70), RabiOld (73-80) and DickeOld (83-89), for the
    cavity [c] and the spin [q], with the operator of the spin's term. *)
Definition oldJC (z : oper) (g : C) (c q : nat) : option (coup C oper * result unit) :=
  if zOper z then create g [:: pairOfSys c q; pairOfOps ODestroy OJp; pairOfSys c q; pairOfOps OCreate OJm]
  else match create g [:: pairOfSys c q; pairOfOps ODestroy OCreate] with
       | Some (k, Ok _) => addTerm 3 k [:: pairOfSys c q; pairOfOps OCreate ODestroy]
       | r => r
       end.
Definition oldRabi (z : oper) (g : C) (c q : nat) : option (coup C oper * result unit) :=
  if zOper z then create g [:: pairOfSys c q; pairOfOps ODestroy OSigmax; pairOfSys c q; pairOfOps OCreate OSigmax]
  else Some (newCoup, Err Py.UnboundLocalError).
Definition oldDicke (z : oper) (g : C) (c q : nat) : option (coup C oper * result unit) :=
  if zOper z then create g [:: pairOfSys c q; pairOfOps ODestroy OJx; pairOfSys c q; pairOfOps OCreate OJx]
  else Some (newCoup, Err Py.UnboundLocalError).
Definition oldCall (w : coupling) := match w with CJC => oldJC | CRabi => oldRabi | CDicke => oldDicke end.
End Named.
