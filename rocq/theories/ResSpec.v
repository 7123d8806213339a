(** Nested lists indexed by tuples; what a point records. *)
From Coq Require Import QArith.
From Verif Require Import Py ResModel.
#[local] Open Scope nat_scope.

Section S.
Context {A : Type}.

(** v[i1][i2]...[ik] *)
Fixpoint pget (v : pv A) (idx : list nat) : option (pv A) :=
  match idx with
  | [] => Some v
  | i :: r => match v with
              | PL l => match nth_error l i with Some x => pget x r | None => None end
              | Scal _ => None
              end
  end.

(** v is a nested list with exactly the given side lengths. *)
Fixpoint has_shape (lens : list nat) (v : pv A) : Prop :=
  match lens with
  | [] => True
  | n :: r => exists l, v = PL l /\ List.length l = n /\ Forall (has_shape r) l
  end.

(** The values given to singleResult of object i under key k, in order. *)
Fixpoint singles (ops : list (rop A)) (i : nat) (k : string) : list (pv A) :=
  match ops with
  | [] => []
  | Single j k' v :: r => if (Nat.eqb j i && String.eqb k' k)%bool then v :: singles r i k else singles r i k
  | _ :: r => singles r i k
  end.
Fixpoint storedStates (ops : list (rop A)) (i : nat) (k : string) : list (pv A) :=
  match ops with
  | [] => []
  | State j k' v :: r => if (Nat.eqb j i && String.eqb k' k)%bool then v :: storedStates r i k else storedStates r i k
  | _ :: r => storedStates r i k
  end.
Fixpoint averaged (ops : list (rop A)) (i : nat) (k : string) : list A :=
  match ops with
  | [] => []
  | Avg j k' x :: r => if (Nat.eqb j i && String.eqb k' k)%bool then x :: averaged r i k else averaged r i k
  | _ :: r => averaged r i k
  end.

(** The running average of a sequence of values, one value at a time: start
    with the first one, then fold the others in with their count. *)
Fixpoint run_from (avg : nat -> A -> A -> A) (c : nat) (a : A) (l : list A) : A :=
  match l with [] => a | x :: r => run_from avg (S c) (avg c a x) r end.
Definition run_avg (avg : nat -> A -> A -> A) (l : list A) : option A :=
  match l with [] => None | x :: r => Some (run_from avg 1 x r) end.

(** What a point leaves behind under a key of object i: the list of its single
    results, or the average of its averaged ones; nothing if there are
    neither. *)
Definition recorded (avg : nat -> A -> A -> A) (ops : list (rop A)) (i : nat) (k : string) : option (pv A) :=
  match singles ops i k with
  | [] => match run_avg avg (averaged ops i k) with Some a => Some (Scal a) | None => None end
  | l => Some (PL l)
  end.
Definition recordedState (ops : list (rop A)) (i : nat) (k : string) : option (pv A) :=
  match storedStates ops i k with [] => None | l => Some (PL l) end.

(** No key is used for single results and for averages at the same point. *)
Definition separate (ops : list (rop A)) : Prop :=
  forall i k, singles ops i k = [] \/ averaged ops i k = [].

(** Recorded at each of the n points, or at none of them. *)
Definition all_or_none (f : nat -> option (pv A)) (n : nat) : Prop :=
  (forall p, p < n -> f p <> None) \/ (forall p, p < n -> f p = None).

(** A list with one element alone stands for that element. *)
Definition alone (v : pv A) : pv A := match v with PL [x] => x | _ => v end.

Definition op_index (o : rop A) : nat :=
  match o with Single i _ _ | Avg i _ _ | State i _ _ | Calc i _ _ => i end.

(** What an observer can read of a result object. *)
Definition observable (q : qres A) := (q_results q, q_states q, q_resLast q, q_stLast q).
End S.

(** The arithmetic of resAverage on rationals: (counter*val + new)/(counter+1). *)
Definition qavg (c : nat) (v x : Q) : Q :=
  ((inject_Z (Z.of_nat c) * v + x) / inject_Z (Z.of_nat (S c)))%Q.
Definition qsum (l : list Q) : Q := fold_right Qplus 0%Q l.
Definition qmean (l : list Q) : Q := (qsum l / inject_Z (Z.of_nat (List.length l)))%Q.
