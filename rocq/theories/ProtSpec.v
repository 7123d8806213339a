(** What the unitary of a protocol should be, and when protocols are used in a
    way for which that is promised. *)
From Verif Require Import Py ProtModel.

Section S.
Variables M V : Type.
Variable mul : M -> M -> M.
Variable one : M.
Variable adj : M -> M.
Variable leafU : (nat -> V) -> nat -> M.
Variable dep : nat -> list nat.
Variable updates : nat -> list nat.
Variable u_first : nat -> nat.
Variable u_rest : nat -> list nat.
Variable u_val : nat -> V.

(** U(sn) ... U(s1) *)
Definition ordered (l : list M) : M := fold_left (fun acc u => mul u acc) l one.

(** The parameters with the updates of an object made, in order. *)
Definition assign (e : nat -> V) (p : nat) (v : V) : nat -> V := fun q => if Nat.eqb q p then v else e q.
Definition updatedEnv (e : nat -> V) (o : nat) : nat -> V :=
  fold_left (fun e u => fold_left (fun e p => assign e p (u_val u)) (u_first u :: u_rest u) e) (updates o) e.

(** The unitary at parameters e: a leaf is evaluated at its updated values, a
    protocol is the ordered product of its steps at its updated values, and a
    copy is the unitary of the copied step, or its adjoint. *)
Fixpoint fresh (e : nat -> V) (n : node) : M :=
  match n with
  | Leaf o => leafU (updatedEnv e o) o
  | Prot o items => ordered (map (fun c => match fst c with
                                            | Some true => adj (fresh (updatedEnv e o) (snd c))
                                            | _ => fresh (updatedEnv e o) (snd c) end) items)
  end.

(** The objects of a protocol, and its leaves in order (copies included). *)
Fixpoint ids (n : node) : list nat :=
  match n with
  | Leaf o => [o]
  | Prot o items => o :: flat_map (fun c => match fst c with None => ids (snd c) | Some _ => [] end) items
  end.
Fixpoint leaves (n : node) : list nat :=
  match n with Leaf o => [o] | Prot o items => flat_map (fun c => leaves (snd c)) items end.
Fixpoint allids (n : node) : list nat :=
  match n with Leaf o => [o] | Prot o items => o :: flat_map (fun c => allids (snd c)) items end.

(** Every object is a step at most once; further uses of a step are (plain)
    copies, later in the same protocol. *)
Inductive tidy : node -> Prop :=
| tidy_leaf o : tidy (Leaf o)
| tidy_prot o items : NoDup (ids (Prot o items)) ->
    (forall c, In (None, c) items -> tidy c) ->
    (forall before h c after, items = before ++ (Some h, c) :: after -> h = false /\ In (None, c) before) ->
    tidy (Prot o items).
(** No protocol contains itself. *)
Inductive nonrec : node -> Prop :=
| nonrec_leaf o : nonrec (Leaf o)
| nonrec_prot o items : (forall k c, In (k, c) items -> nonrec c /\ ~ In o (allids c)) -> nonrec (Prot o items).

(** Every update is of one parameter, belongs to one object, and no two updates
    of an object are of the same parameter. *)
Definition simple_updates : Prop :=
  (forall u, u_rest u = []) /\ (forall o, NoDup (map u_first (updates o))) /\
  (forall o o' u, In u (updates o) -> In u (updates o') -> o = o').

(** A leaf's unitary depends only on parameters whose changes it is told of. *)
Definition complete_bounds : Prop := forall (e e' : nat -> V) o,
  (forall p, In o (dep p) -> e p = e' p) -> leafU e o = leafU e' o.
End S.

(** A history: parameters are set, matrices deleted, unitaries of the
    protocols in use requested. *)
Inductive op (V : Type) := OSet (p : nat) (v : V) | ODel | OUnitary (n : node) | OGet (n : node).
Arguments OSet {V}. Arguments ODel {V}. Arguments OUnitary {V}. Arguments OGet {V}.

Section H.
Variables M V : Type.
Variable mul : M -> M -> M.
Variable one : M.
Variable adj : M -> M.
Variable shape : M -> nat * nat.
Variable veq : V -> V -> bool.
Variable leafU : (nat -> V) -> nat -> M.
Variable dep : nat -> list nat.
Variable updates : nat -> list nat.
Variable u_first : nat -> nat.
Variable u_rest : nat -> list nat.
Variable u_val : nat -> V.
Variable fixed : nat -> bool.
Notation getUnitary := (getUnitary M V mul one adj shape veq leafU dep updates u_first u_rest u_val fixed).
Notation unitary := (unitary M V mul one adj shape veq leafU dep updates u_first u_rest u_val fixed).

(** The matrices returned by the requests of a history, in order, and the final
    state. *)
Fixpoint history (ops : list (op V)) (s : st M V) : result (list (option M) * st M V) :=
  match ops with
  | [] => Ok ([], s)
  | OSet p v :: r => history r (setParam M V veq dep p v s)
  | ODel :: r => history r (delMatrices M V s)
  | OUnitary n :: r => bind (unitary n s) (fun x => bind (history r (snd x)) (fun y => Ok (fst x :: fst y, snd y)))
  | OGet n :: r => bind (getUnitary n s) (fun x => bind (history r (snd x)) (fun y => Ok (fst x :: fst y, snd y)))
  end.

(** What the requests should return: the unitaries of the parameters as written
    so far. *)
Fixpoint expected (ops : list (op V)) (e : nat -> V) : list (option M) :=
  match ops with
  | [] => []
  | OSet p v :: r => expected r (assign V e p v)
  | ODel :: r => expected r e
  | OUnitary n :: r | OGet n :: r =>
      Some (fresh M V mul one adj leafU updates u_first u_rest u_val e n) :: expected r e
  end.
Fixpoint written (ops : list (op V)) (e : nat -> V) : nat -> V :=
  match ops with [] => e | OSet p v :: r => written r (assign V e p v) | _ :: r => written r e end.

(** The requests are for the given protocols; no object is in two of them. *)
Definition requests_in (rs : list node) (ops : list (op V)) : Prop :=
  Forall (fun o => match o with OUnitary n | OGet n => In n rs | _ => True end) ops.
Definition separate (rs : list node) : Prop := (forall n, In n rs -> tidy n) /\ NoDup (flat_map ids rs).
(** No matrix is stored yet (newly created objects). *)
Definition unused (s : st M V) : Prop := forall o, mat s o = None.
End H.
