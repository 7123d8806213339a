(** What an initial-state input means: independent of stored states and inputs. *)
From mathcomp Require Import all_ssreflect all_algebra.
From Verif Require Py.
From Verif Require Import MatModel OperModel StateModel MatSpec StateSpec InitModel.
Set Implicit Arguments.
Unset Strict Implicit.
Unset Printing Implicit Defensive.
Import GRing.Theory Num.Theory.
Local Open Scope ring_scope.

Section Spec.
Variable C : numClosedFieldType.
Implicit Types (t : sys C) (v : inp C).

(** The structure of a system: dimensions and kind of coefficients, nothing else. *)
Inductive shape := SSingle (d : nat) (coef : bool) | SComp (l : seq shape).
Fixpoint shapeOf t : shape :=
  match t with
  | Single d c _ => SSingle d c
  | Comp _ l => SComp (map shapeOf l)
  end.
Fixpoint sizeOf (s : shape) : nat :=
  match s with
  | SSingle d _ => d
  | SComp l => prodn (map sizeOf l)
  end.
(** Every composite system has a sub-system and every dimension is positive. *)
Fixpoint proper (s : shape) : bool :=
  match s with
  | SSingle d _ => (0 < d)%N
  | SComp l => (0 < size l)%N && all proper l
  end.

(** The levels that an input for a single system names: an int, a list of ints
    or a dictionary.  None for anything else, and if no level is named. *)
Definition levels v : option (seq nat) :=
  let some (l : seq nat) := if l is [::] then None else Some l in
  match v with
  | IInt n => Some [:: n]
  | ISeq l => if all (fun w => if w is IInt _ then true else false) l
              then some (pmap (fun w => if w is IInt n then Some n else None) l) else None
  | IDict d => some [seq p.1 | p <- d]
  | _ => None
  end.

(** The excitations in the sense of superPos (see C45). *)
Definition excitOf v : excit C :=
  match v with
  | IInt n => @EInt C n
  | ISeq l => @EList C (pmap (fun w => if w is IInt n then Some n else None) l)
  | IDict d => EDict d
  | _ => @EOther C
  end.

(** What an input stands for, system by system from left to right.  A level
    outside of the dimension stands for no state ([Some None]); [None] means that
    the input is not one for this system. *)
Fixpoint parts (s : shape) (v : inp C) {struct s} : option (seq (option (mat C))) :=
  match v with
  | IArr M => if rows M == sizeOf s then Some [:: Some M] else None
  | _ =>
    match s with
    | SSingle d coef =>
        if levels v is Some ks then
          if all (fun k => k < d)%N ks then
            (if superPos d (excitOf v) (~~ coef) is Ok M then Some [:: Some M] else None)
          else Some [:: None]
        else None
    | SComp l =>
        if v is ISeq vs then
          if size vs == size l then
            (fix each (l : seq shape) (vs : seq (inp C)) : option (seq (option (mat C))) :=
               match l, vs with
               | s :: l', w :: vs' =>
                   if parts s w is Some a then (if each l' vs' is Some b then Some (a ++ b) else None) else None
               | _, _ => Some [::]
               end) l vs
          else None
        else None
    end
  end.

(** [r] is the state with these parts: their tensor product, or no state if one
    part is no state. *)
Definition isState (ps : seq (option (mat C))) (r : option (mat C)) : Prop :=
  if all isSome ps then exists2 M, r = Some M & tensorProd [seq TMat N | N <- pmap id ps] = Ok M
  else r = None.

(** The input for the sub-system at [p], given one for the whole system. *)
Fixpoint inpAt v (p : seq nat) : option (inp C) :=
  match p with
  | [::] => Some v
  | i :: p' => if v is ISeq vs then (if ohead (drop i vs) is Some w then inpAt w p' else None) else None
  end.
Fixpoint shapeAt (s : shape) (p : seq nat) : option shape :=
  match p with
  | [::] => Some s
  | i :: p' => if s is SComp l then (if ohead (drop i l) is Some c then shapeAt c p' else None) else None
  end.

(** Reading the initial state of the system at [p] gives [r]; or raises. *)
Definition reads t (p : seq nat) (r : option (mat C)) : Prop := exists t', getAt t p = Some (Ok r, t').
Definition readRaises t (p : seq nat) (e : Py.exn) : Prop := exists t', getAt t p = Some (Err e, t').

(** A system as constructed: nothing has been assigned. *)
Fixpoint unset t : bool :=
  match t with
  | Single _ _ m => if m is Sim None INone None then true else false
  | Comp m l => (if m is Sim None INone None then true else false) && all unset l
  end.

(** Inputs which _setGetMaxInput lets through. *)
Definition accepted v : bool := match v with IOther | ISeq [::] | IDict [::] => false | _ => true end.

(** The input most recently assigned to the system at [p]. *)
Definition latest (os : seq (op C)) (p : seq nat) : inp C :=
  foldl (fun w o => if o is OSet q v then (if (q == p) && accepted v then v else w) else w) (INone C) os.

(** The nested list of the inputs [f] of the single systems. *)
Fixpoint inputFor (s : shape) (f : seq nat -> inp C) {struct s} : inp C :=
  match s with
  | SSingle _ _ => f [::]
  | SComp l =>
      ISeq ((fix each (l : seq shape) (i : nat) : seq (inp C) :=
               match l with [::] => [::] | c :: l' => inputFor c (fun p => f (i :: p)) :: each l' i.+1 end) l 0%N)
  end.

(** Inputs are assigned to single systems only. *)
Definition onlySingles t (os : seq (op C)) : Prop :=
  forall p v, List.In (OSet p v) os -> exists d c m, subAt t p = Some (Single d c m).

(** A composite system of single systems. *)
Definition flat (s : shape) : bool :=
  if s is SComp l then all (fun c => if c is SSingle _ _ then true else false) l else false.

(** No assignment to the whole system. *)
Definition neverWhole (os : seq (op C)) : bool := all (fun o => if o is OSet [::] _ then false else true) os.

(** Each array in an input satisfies [P]; is a normalised ket. *)
Fixpoint arrays (P : mat C -> Prop) v : Prop :=
  match v with
  | IArr M => P M
  | ISeq l => (fix each (l : seq (inp C)) : Prop := if l is w :: l' then arrays P w /\ each l' else True) l
  | _ => True
  end.
Definition kets v : Prop := arrays (fun M => normalised (rows M) M) v.
Definition ketsIn (os : seq (op C)) : Prop :=
  forall o, List.In o os -> if o is OSet _ v then kets v else True.

End Spec.
