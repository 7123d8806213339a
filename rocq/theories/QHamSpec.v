(** What the Hamiltonian of a term and of a system is, in terms of the current
    parameters and nothing else; which histories are considered. *)
From Verif Require Import Py ParamModel ParamSpec QHamModel.
From Coq Require Import Permutation.

Section Spec.
Variable A : alg.
Notation params := (params A).
Notation hst := (hst A).
Notation op := (op A).

(** Laws of the addition of matrices, and equality tests that mean equality. *)
Definition additive : Prop :=
  (forall a b c, add A a (add A b c) = add A (add A a b) c)
  /\ (forall a b, add A a b = add A b a)
  /\ (forall a, add A (zero A) a = a).
Definition eqbs : Prop :=
  (forall a b, freqEqb A a b = true -> a = b) /\ (forall a b, opEqb A a b = true -> a = b).

(** Frequency times the embedded operator, or times the product of the embedded
    operators of a coupling. *)
Inductive termVal (p : params) (t : nat) : matT A -> Prop :=
| TV_one q op n f e :
    cont A p t = COne A q (Some op) n -> freq A p t = Some f -> embed A (dims A p q) op n = Ok e ->
    termVal p t (scale A f e)
| TV_many parts ops ords f es :
    cont A p t = CMany A parts ops ords -> freq A p t = Some f ->
    Forall2 (fun x e => embed A (dims A p (fst (fst x))) (snd (fst x)) (snd x) = Ok e) parts es ->
    termVal p t (scale A f (prod A es)).

(** Python's sum *)
Definition msum (l : list (matT A)) : matT A := fold_left (add A) l (zero A).

(** The Hamiltonian of a system: those of its sub-systems plus those of its
    terms that have an operator. *)
Inductive sysVal (s : struct) (p : params) : nat -> matT A -> Prop :=
| SysVal i vs ws :
    Forall2 (sysVal s p) (subs s i) vs ->
    Forall2 (termVal p) (filter (active A p) (terms s i)) ws ->
    sysVal s p i (add A (msum vs) (msum ws)).

(** [below s i x]: x is i or a sub-system, at any depth, of i. *)
Inductive below (s : struct) (i : nat) : nat -> Prop :=
| B_refl : below s i i
| B_step x y : below s i x -> In y (subs s x) -> below s i y.

(** [allTerms s p i l]: l lists the terms with an operator of all systems in
    the tree below i. *)
Inductive allTerms (s : struct) (p : params) : nat -> list nat -> Prop :=
| AllTerms i ls : Forall2 (allTerms s p) (subs s i) ls ->
    allTerms s p i (List.concat ls ++ filter (active A p) (terms s i)).

(** [linked s i x]: x is reached from i over sub-systems and super-systems. *)
Inductive linked (s : struct) (i : nat) : nat -> Prop :=
| L_refl : linked s i i
| L_step x y : linked s i x -> In y (subs s x) \/ sup s x = Some y -> linked s i y.

(** The structure without term t of system h. *)
Definition without (t h : nat) (s : struct) : struct :=
  set_terms (upd h (filter (fun x => negb (Nat.eqb x t)) (terms s h)) (terms s)) s.

(** Calls for which the caches are kept up to date.  Left out, because the
    theorems below show that they are not: resetTerms on its own (and the
    assignment of an empty list of terms), re-assigning the system of a term,
    attaching a term made for an unrelated system, unitary() while the free
    evolution is marked as fixed.  Lists assigned to terms are made of terms the
    system already has. *)
Definition good (st : hst) (o : op) : Prop :=
  match o with
  | OResetTerms _ _ | OSetQ _ _ _ | OAddTerm _ _ _ => False
  | OUnitary _ fixed _ => fixed = false
  | OSetTerms _ s ts => ts <> [] /\ incl ts (terms (S_ A st) s)
  | _ => True
  end.

Variable lim : nat.
(** Histories of good calls, starting with nothing.  A call may raise, except
    that assigning operators to a coupling is assumed to succeed. *)
Inductive reach : hst -> Prop :=
| Reach0 : reach (start A)
| ReachS st o st' r :
    reach st -> good st o -> exec A lim o st = Some (st', r) ->
    (forall t os, o = OOps A t os -> r = Ok tt) ->
    reach st'.
End Spec.
