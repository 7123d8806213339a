(** What the coupling terms of the older composite systems should be. *)
From mathcomp Require Import all_ssreflect all_algebra.
From Verif Require Py.
From Verif Require Import MatModel MatSpec CoupModel OldCoupModel.
Set Implicit Arguments.
Unset Strict Implicit.
Unset Printing Implicit Defensive.
Import GRing.Theory Num.Theory.
Local Open Scope ring_scope.

Section Spec.
Variable C : numClosedFieldType.
Variable O : Type.

(** The arguments of addTerm: lists of systems, each followed by one or more lists
    of operators for these systems. *)
Definition group := (seq (item O) * seq (seq (item O)))%type.
Definition argsOf (gs : seq group) : seq (seq (item O)) := flatten [seq g.1 :: g.2 | g <- gs].
(** What they say: one term for each list of operators. *)
Definition termsOf (gs : seq group) : seq (term O) :=
  flatten [seq [seq (map (@idOf O) g.1, o) | o <- g.2] | g <- gs].
Definition goodOps (o : seq (item O)) : bool := if o is _ :: x :: _ then isOp x else false.
Definition goodGroup (g : group) : bool :=
  [&& (if g.1 is ISys _ :: _ :: _ then true else false), ~~ has (@isOp O) g.1, ~~ nilp g.2 & all goodOps g.2].

(** The levels [u] and [v] agree except at the systems [ss]. *)
Definition agree (ds ss u v : seq nat) : bool := all (fun k => (k \in ss) || (nth 0%N u k == nth 0%N v k)) (iota 0 (size ds)).

(** The elements of an operator in [d] levels. *)
Variable opEnt : O -> nat -> nat -> nat -> C.
Definition itemEnt (x : item O) (d i j : nat) : C := if x is IOp o then opEnt o d i j else 0.
(** [<u| o_1 ... o_n |v>] for the operators of a term, each acting on its system. *)
Definition factors (ds : seq nat) (t : term O) (u v : seq nat) : seq C :=
  [seq itemEnt p.2 (nth 0%N ds p.1) (nth 0%N u p.1) (nth 0%N v p.1) | p <- zip t.1 t.2].
Definition elem (ds : seq nat) (t : term O) (u v : seq nat) : C :=
  (agree ds t.1 u v)%:R * \prod_(x <- factors ds t u v) x.

(** A term of exactly two different systems with operators that exist. *)
Definition twoBody (ok : O -> nat -> bool) (ds : seq nat) (t : term O) : bool :=
  match t with
  | ([:: i; j], [:: IOp a; IOp b]) =>
      [&& i != j, (i < size ds)%N, (j < size ds)%N, ok a (nth 0%N ds i) & ok b (nth 0%N ds j)]
  | _ => false
  end.
(** Its first two systems and operators. *)
Definition firstTwo (t : term O) : term O := (take 2 t.1, take 2 t.2).

(** The operators give square matrices with these elements. *)
Definition givesEnts (opMat : O -> nat -> result (mat C)) (ok : O -> nat -> bool) : Prop :=
  forall o d, ok o d -> exists A, [/\ opMat o d = Ok A, rows A = d, cols A = d &
    forall i j, (i < d)%N -> (j < d)%N -> ent A i j = opEnt o d i j].

(** ** Histories *)
Inductive op := Add (gs : seq group) | Strength (g : C) | Read.
Definition goodOp (ok : O -> nat -> bool) (ds : seq nat) (o : op) : bool :=
  match o with
  | Add gs => all goodGroup gs && all (twoBody ok ds) (termsOf gs)
  | _ => true
  end.
Definition written (l : seq op) : seq (term O) := flatten [seq (if o is Add gs then termsOf gs else [::]) | o <- l].
Definition strength (l : seq op) : option C := foldl (fun a o => if o is Strength g then Some g else a) None l.
End Spec.
Arguments Read {C O}. Arguments Add {C O}. Arguments Strength {C O}.

Section Run.
Variables (C : numClosedFieldType) (O : Type) (opMat : O -> nat -> result (mat C)) (ds : seq nat) (ind : nat -> nat).
(** One operation; None if it does not end or raises, other than reading without
    a strength. *)
Definition step (c : option (coup C O)) (o : op C O) : option (coup C O) :=
  if c is Some k then
    match o with
    | Add gs => if addTerm (size gs).+1 k (argsOf gs) is Some (k', Ok _) then Some k' else None
    | Strength g => Some (setStrength k g)
    | Read => match totalHam opMat ds ind k with
              | Ok (k', _) => Some k'
              | Err _ => if c_freq k is None then Some k else None
              end
    end
  else None.
Definition run (l : seq (op C O)) : option (coup C O) := foldl step (Some newCoup) l.
End Run.
