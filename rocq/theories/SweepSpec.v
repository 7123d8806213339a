(** Index tuples, their lexicographic rank, and sweep groups. *)
From Verif Require Import Py SweepModel.

(** [idx] is an index tuple of the grid with side lengths [lens]. *)
Definition in_grid (lens idx : list nat) : Prop := Forall2 (fun n i => i < n) lens idx.

Fixpoint prod (l : list nat) : nat := match l with [] => 1 | x :: r => x * prod r end.

(** Position of a tuple when the last index varies fastest. *)
Fixpoint rank (lens idx : list nat) : nat :=
  match lens, idx with
  | _ :: ns, i :: is => i * prod ns + rank ns is
  | _, _ => 0
  end.

(** Lexicographic order on tuples. *)
Fixpoint lex_lt (a b : list nat) : Prop :=
  match a, b with
  | x :: a', y :: b' => x < y \/ (x = y /\ lex_lt a' b')
  | _, _ => False
  end.

(** Sweeps arranged in groups: each group has a leading sweep and followers
    that run in lock-step with it; the leading sweep of every group but the
    first is flagged combinatorial, nothing else is. *)
Record group (V : Type) := Group { lead : list V * list target; followers : list (list V * list target) }.
Arguments Group {V}. Arguments lead {V}. Arguments followers {V}.

Definition flatten_group {V} (first : bool) (g : group V) : list (sweep V) :=
  Sweep (negb first) (fst (lead g)) (snd (lead g))
  :: map (fun f => Sweep false (fst f) (snd f)) (followers g).

Definition flatten {V} (gs : list (group V)) : list (sweep V) :=
  match gs with
  | [] => []
  | g :: rest => flatten_group true g ++ flat_map (flatten_group false) rest
  end.

Definition sizes {V} (gs : list (group V)) : list nat := map (fun g => List.length (fst (lead g))) gs.

(** Every member of a group has at least as many values as its leader. *)
Definition long_enough {V} (g : group V) : Prop :=
  Forall (fun f => List.length (fst (lead g)) <= List.length (fst f)) (followers g).

(** The value lists and targets of a group, each with the index the group has
    at a grid point. *)
Fixpoint scheduled {V} (gs : list (group V)) (idx : list nat) : list (list V * list target * nat) :=
  match gs, idx with
  | g :: gs', i :: idx' => map (fun f => (fst f, snd f, i)) (lead g :: followers g) ++ scheduled gs' idx'
  | _, _ => []
  end.

(** [assigned sch t v]: the last scheduled entry that has target t holds v at
    its index. *)
Definition assigned {V} (sch : list (list V * list target * nat)) (t : target) (v : V) : Prop :=
  exists before after vals tg i,
    sch = before ++ (vals, tg, i) :: after /\ In t tg /\ nth_error vals i = Some v
    /\ Forall (fun e => ~ In t (snd (fst e))) after.
