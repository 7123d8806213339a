(** Model of the operators + and - between quantum systems
    (src/quanguru/classes/QSystem.py), on top of the sub-system model of
    QDimModel.v. *)
From Verif Require Import Py QDimModel.

(** The test "a is b" on __compSys, which is True, False or None. *)
Definition sameFlag (x y : option bool) : bool :=
  match x, y with
  | None, None => true
  | Some b, Some c => Bool.eqb b c
  | _, _ => false
  end.
(** __compSys in (True, None). *)
Definition openEnded (x : option bool) : bool := match x with Some false => false | _ => true end.
(** Truth value of __compSys: None and False are false. *)
Definition truth (x : option bool) : bool := match x with Some true => true | _ => false end.
Definition isNone (x : option bool) : bool := match x with None => true | _ => false end.

(** QuantumSystem.__add__ (QSystem.py 423-440).  [new] is the identity of the
    QuantumSystem created in the third branch, [cp] the identity of the copy
    made when both operands are the same object; constructing an object touches
    no other system, so both exist from the start (see QDimModel.init).  When no
    branch is taken newComp is not assigned.  QuantumSystem(subSys=[a, b]) adds
    a and then b (base.py 654-656, QSystem.py 382-409).  Simplification: operands
    are systems (not names, aliases or objects of other types), and the warning
    of _isComposite (341-349) is not modelled. *)
Definition plus (lim : nat) (new cp a b : oid) : M oid :=
  x <- get a ;;
  y <- get b ;;
  let other := if Nat.eqb b a then cp else b in
  if openEnded (comp x) && negb (truth (comp y)) then
    addSub lim a other ;;; ret a
  else if isNone (comp x) && truth (comp y) then
    ret b
  else if sameFlag (comp x) (comp y) then
    addAll lim new [a; other] ;;; ret new
  else if negb (truth (comp x)) && truth (comp y) then
    addSub lim b a ;;; ret b
  else raise UnboundLocalError.

(** QuantumSystem.__sub__ (QSystem.py 442-448). *)
Definition minus (lim : nat) (a c : oid) : M oid :=
  rmSub lim a c [] ;;; ret a.

(** Python expressions over systems with + and -, evaluated left operand first;
    every + carries the identities of the objects it may create. *)
Inductive expr :=
| ESys (i : oid)
| EPlus (new cp : oid) (e1 e2 : expr)
| EMinus (e1 e2 : expr).
Fixpoint eval (lim : nat) (e : expr) : M oid :=
  match e with
  | ESys i => ret i
  | EPlus new cp e1 e2 => a <- eval lim e1 ;; b <- eval lim e2 ;; plus lim new cp a b
  | EMinus e1 e2 => a <- eval lim e1 ;; b <- eval lim e2 ;; minus lim a b
  end.
