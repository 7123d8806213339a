(** Model of the couplings Jaynes-Cummings, Rabi and Dicke of composite systems
    (src/quanguru/classes/extensions/couplings.py 95-155), with the parts of QSystem.py and QTerms.py they use.

    The composite system is flat: its direct sub-systems, in their order, with class, dimension, and the operator and
    frequency of the first term; a nested composite is one of class [KOther].  Orders are 1, and operators are those
    of QuantumToolbox/operators.py.  The composite itself has a first term without operator, which is skipped
    (QSystem.py 215). *)
From mathcomp Require Import all_ssreflect all_algebra.
From Verif Require Py.
From Verif Require Import MatModel OperModel.
Set Implicit Arguments.
Unset Strict Implicit.
Unset Printing Implicit Defensive.
Import GRing.Theory Num.Theory.
Local Open Scope ring_scope.

(** The classes Cavity, Qubit and Spin (QSystem.py 760-837), and any other; isinstance with Qubit a sub-class of
    Spin. *)
Inductive kind := KCavity | KQubit | KSpin | KOther.
Definition isCav (k : kind) : bool := if k is KCavity then true else false.
Definition isSpin (k : kind) : bool := match k with KQubit | KSpin => true | _ => false end.
Definition isInstance (k c : kind) : bool :=
  match k, c with
  | KCavity, KCavity | KQubit, KQubit | KQubit, KSpin | KSpin, KSpin => true
  | _, KOther => true
  | _, _ => false
  end.

(** The operators that occur (function pointers). *)
Inductive oper := ONumber | OJz | OSigmaz | ODestroy | OCreate | OJp | OJm | OSigmax | OJx | ONone.
(** _isOperPauli (QTerms.py 259-264) *)
Definition isPauli (o : oper) : bool := match o with OSigmaz | OSigmax => true | _ => false end.

Section Coup.
Variable C : numClosedFieldType.
Variable lim : nat.   (* recursion limit of the interpreter *)

Record sub := Sub { s_kind : kind; s_dim : nat; s_oper : oper; s_freq : option C }.
(** A coupling term: positions of its systems with their operators, and its frequency. *)
Record trm := Trm { t_parts : seq (nat * oper); t_freq : option C }.
Record comp := Comp { c_subs : seq sub; c_terms : seq trm }.
Definition sub0 : sub := Sub KOther 1 ONone None.

(** The loop over the sub-systems (couplings.py 106-115) *)
Fixpoint pick (l : seq sub) (i : nat) (first : option (nat * kind)) : seq nat :=
  match l with
  | [::] => if first is Some f then [:: f.1] else [::]
  | x :: l' =>
      if isCav (s_kind x) || isSpin (s_kind x) then
        match first with
        | None => pick l' i.+1 (Some (i, s_kind x))
        | Some f => if ~~ isInstance (s_kind x) f.2 then [:: f.1; i] else pick l' i.+1 first
        end
      else pick l' i.+1 first
  end.

(** An argument: a direct sub-system, or a system of some class that is not in the composite. *)
Inductive arg := In (i : nat) | Out (k : kind).
Definition argKind (s : comp) (a : arg) : kind := match a with In i => s_kind (nth sub0 (c_subs s) i) | Out k => k end.
Definition spinArgOf (s : comp) (a : option arg) : bool := if a is Some x then isSpin (argKind s x) else false.
Definition cavArgOf (s : comp) (a : option arg) : bool := if a is Some x then isCav (argKind s x) else false.

(** couplerDecorator (couplings.py 96-117); [fuel] is what is left of the recursion limit. *)
Fixpoint choose (fuel : nat) (s : comp) (a1 a2 : option arg) : result (arg * arg) :=
  if spinArgOf s a1 then
    match a1, a2 with
    | Some x, Some y => if cavArgOf s a2 then Ok (y, x) else Err Py.ValueError
    | _, _ => Err Py.ValueError
    end
  else if spinArgOf s a2 then
    match a1, a2 with
    | Some x, Some y => if cavArgOf s a1 then Ok (x, y) else Err Py.ValueError
    | _, _ => Err Py.ValueError
    end
  else match a1, a2 with
       | Some _, Some _ => Err Py.UnboundLocalError
       | _, _ =>
           match fuel with
           | 0 => Err Py.RecursionError
           | f.+1 => let q := pick (c_subs s) 0 None in
                     choose f s (omap In (ohead q)) (omap In (ohead (behead q)))
           end
       end.

(** QuantumSystem.createTerm (QSystem.py 548-587) for a list of systems, without frequency, and _createTerm
    (QTerms.py 134-162): the systems are in the composite, Pauli operators need dimension 2 (or 1), and the term
    comes last. *)
Definition partOk (s : comp) (p : arg * oper) : bool :=
  match p.1 with
  | In i => (i < size (c_subs s))%N && (isPauli p.2 ==> (s_dim (nth sub0 (c_subs s) i) \in [:: 2; 1]%N))
  | Out _ => false
  end.
Definition posOf (a : arg) : nat := if a is In i then i else 0%N.
Definition createTerm (s : comp) (ps : seq (arg * oper)) : result comp :=
  if all (partOk s) ps then Ok (Comp (c_subs s) (rcons (c_terms s) (Trm [seq (posOf p.1, p.2) | p <- ps] None)))
  else Err Py.ValueError.

(** QTerm.frequency's setter (QTerms.py 225-230) of the term that holds the terms at the positions [n] and [n+1]. *)
Definition setFreq (s : comp) (n : nat) (g : C) : comp :=
  Comp (c_subs s) (mkseq (fun i => let t := nth (Trm [::] None) (c_terms s) i in
                                   if (i == n) || (i == n.+1) then Trm (t_parts t) (Some g) else t) (size (c_terms s))).
(** Two terms with the common frequency; the position of the first stands for the coupling object. *)
Definition couple (s : comp) (g : C) (c q : arg) (o1 o1' o2 o2' : oper) : result (comp * nat) :=
  let n := size (c_terms s) in
  do s1 <- createTerm s [:: (c, o1); (q, o1')];
  do s2 <- createTerm s1 [:: (c, o2); (q, o2')];
  Ok (setFreq s2 n g, n).

(** [qsystems[1].operator in [sigmaz, Jz]] (a system outside has the operator of its class). *)
Definition argOper (s : comp) (a : arg) : oper :=
  match a with
  | In i => s_oper (nth sub0 (c_subs s) i)
  | Out k => match k with KQubit | KSpin => OJz | KCavity => ONumber | KOther => ONone end
  end.
Definition zOper (o : oper) : bool := match o with OJz | OSigmaz => true | _ => false end.

(** JC (couplings.py 121-131), Rabi (134-141), Dicke (144-151) *)
Definition JC (s : comp) (g : C) (a1 a2 : option arg) : result (comp * nat) :=
  do r <- choose lim s a1 a2;
  if zOper (argOper s r.2) then couple s g r.1 r.2 ODestroy OJp OCreate OJm
  else couple s g r.1 r.2 ODestroy OCreate OCreate ODestroy.
Definition Rabi (s : comp) (g : C) (a1 a2 : option arg) : result (comp * nat) :=
  do r <- choose lim s a1 a2;
  if zOper (argOper s r.2) then couple s g r.1 r.2 ODestroy OSigmax OCreate OSigmax else Err Py.UnboundLocalError.
Definition Dicke (s : comp) (g : C) (a1 a2 : option arg) : result (comp * nat) :=
  do r <- choose lim s a1 a2;
  if zOper (argOper s r.2) then couple s g r.1 r.2 ODestroy OJx OCreate OJx else Err Py.UnboundLocalError.

(** ** The Hamiltonian *)
(** The matrix of an operator (QTerm._dimInput, QTerms.py 281-302) *)
Definition operMat (o : oper) (dim : nat) : result (mat C) :=
  if dim == 1%N then Err Py.ValueError else
  let j : rat := (dim%:R - 1) / 2%:R in
  match o with
  | ONumber => number C dim
  | OJz => Jz C j false
  | ODestroy => destroy C dim
  | OCreate => create C dim
  | OJp => Jp C j false
  | OJm => Jm C j false
  | OJx => Jx C j false
  | OSigmaz => if dim == 2%N then sigmaz else Err Py.ValueError
  | OSigmax => if dim == 2%N then sigmax else Err Py.ValueError
  | ONone => Err Py.TypeError
  end.
(** The dimensions before and after a sub-system (C24) *)
Definition before (s : comp) (i : nat) : nat := foldr muln 1%N (take i (map s_dim (c_subs s))).
Definition after (s : comp) (i : nat) : nat := foldr muln 1%N (drop i.+1 (map s_dim (c_subs s))).
Definition embedded (s : comp) (p : nat * oper) : result (mat C) :=
  do m <- operMat p.2 (s_dim (nth sub0 (c_subs s) p.1)); compositeOp m (before s p.1) (after s p.1).
(** A list of results, the first error wins. *)
Fixpoint allOk (T : Type) (l : seq (result T)) : result (seq T) :=
  match l with
  | [::] => Ok [::]
  | x :: l' => do a <- x; do r <- allOk l'; Ok (a :: r)
  end.
(** QTerm.totalHamiltonian (QTerms.py 232-242) of a coupling term, and of the first term of a sub-system *)
Definition termHam (s : comp) (t : trm) : result (mat C) :=
  match t_freq t with
  | None => Err Py.TypeError
  | Some g => do ms <- allOk (map (embedded s) (t_parts t)); do m <- matMulInputs ms; Ok (scalem g m)
  end.
Definition subHam (s : comp) (i : nat) : result (mat C) :=
  let x := nth sub0 (c_subs s) i in
  match s_freq x with
  | None => Err Py.TypeError
  | Some w => do m <- embedded s (i, s_oper x); Ok (scalem w m)
  end.
(** QuantumSystem.totalHamiltonian (QSystem.py 193-215).  The sum starts from the integer 0, and is one here if there is nothing to add.
    What is kept from before is not modelled (C30). *)
Definition sumMats (l : seq (mat C)) : result (mat C) :=
  if l is x :: l' then foldl (fun acc m => do a <- acc; madd a m) (Ok x) l' else Err Py.TypeError.
Definition totalHam (s : comp) : result (mat C) :=
  do a <- allOk (map (subHam s) (iota 0 (size (c_subs s))));
  do b <- allOk (map (termHam s) (c_terms s));
  sumMats (a ++ b).

(** ** Histories: couplings are added, and their frequencies changed through the objects that the calls returned.  A
    call that raises an exception changes nothing (all checks precede the first change, and the second createTerm
    has the checks of the first). *)
Inductive coupling := CJC | CRabi | CDicke.
Inductive call := Couple (w : coupling) (g : C) (a1 a2 : option arg) | Freq (k : nat) (g : C).
Record world := World { w_sys : comp; w_objs : seq nat }.
Definition callOf (w : coupling) := match w with CJC => JC | CRabi => Rabi | CDicke => Dicke end.
Definition step (w : world) (c : call) : world :=
  match c with
  | Couple k g a1 a2 =>
      match callOf k (w_sys w) g a1 a2 with
      | Ok r => World r.1 (rcons (w_objs w) r.2)
      | Err _ => w
      end
  | Freq k g => if (k < size (w_objs w))%N then World (setFreq (w_sys w) (nth 0%N (w_objs w) k) g) (w_objs w) else w
  end.
Definition run (s : comp) (l : seq call) : world := foldl step (World s [::]) l.
End Coup.
