(** What C94 says about the dimensions of the older system classes, without the bookkeeping. *)
From mathcomp Require Import all_ssreflect.
From Verif Require Import OldDimModel.
Set Implicit Arguments.
Unset Strict Implicit.
Unset Printing Implicit Defensive.

(** int(a/b) is exact when the quotient is a whole number up to [big] (2^53 for floating-point numbers). *)
Definition exactUpTo (big : nat) (fdiv : nat -> nat -> nat) : Prop :=
  forall q b, 0 < b -> q <= big -> fdiv (q * b) b = q.

(** A composite system of single systems: those in it, in their order, the dimension of every system, and the systems
    that were taken out of it. *)
Record flat := Flat { members : seq nat; dims : nat -> nat; gone : seq nat }.
Definition setAt (D : nat -> nat) (q n : nat) : nat -> nat := fun i => if i == q then n else D i.
Definition step (f : flat) (a : op) : flat :=
  match a with
  | Add _ s => if s \in members f then f else Flat (members f ++ [:: s]) (dims f) (gone f)
  | Dim q n => Flat (members f) (setAt (dims f) q n) (gone f)
  | Remove _ q => Flat (rem q (members f)) (dims f) (q :: gone f)
  | Look _ => f
  end.
(** The dimension of the composite system, and of the systems before and after a system. *)
Definition total (f : flat) : nat := \prod_(s <- members f) dims f s.
Definition before (f : flat) (s : nat) : nat := \prod_(t <- take (index s (members f)) (members f)) dims f t.
Definition after (f : flat) (s : nat) : nat := \prod_(t <- drop (index s (members f)).+1 (members f)) dims f t.

(** What the session may do with the composite system [c]: add single systems, assign positive dimensions to systems
    which are in it or never were, take systems out that are in it, read dimensions. *)
Definition goodOp (c : nat) (f : flat) (a : op) : bool :=
  match a with
  | Add c' s => (c' == c) && (s != c)
  | Dim q n => [&& q != c, 0 < n & (q \in members f) || (q \notin gone f)]
  | Remove c' q => (c' == c) && (q \in members f)
  | Look _ => true
  end.
Fixpoint good (c big : nat) (f : flat) (l : seq op) : bool :=
  match l with
  | [::] => true
  | a :: l' => [&& goodOp c f a, total (step f a) <= big & good c big (step f a) l']
  end.

(** ** Nested composite systems *)
Inductive tree := One (i d : nat) | Group (i : nat) (ts : seq tree).
Fixpoint size_of (t : tree) : nat := match t with One _ d => d | Group _ ts => foldr (fun t n => size_of t * n) 1 ts end.
Definition nameOf (t : tree) : nat := match t with One i _ | Group i _ => i end.
(** For every system: the dimensions before and after it, given those before and after the tree. *)
Fixpoint places (t : tree) (b a : nat) : seq (nat * (nat * nat)) :=
  match t with
  | One i _ => [:: (i, (b, a))]
  | Group i ts => (i, (b, a)) ::
      (fix go (ts : seq tree) (b : nat) : seq (nat * (nat * nat)) :=
         match ts with
         | [::] => [::]
         | t :: ts' => places t b (foldr (fun t n => size_of t * n) 1 ts' * a) ++ go ts' (b * size_of t)
         end) ts b
  end.
(** The systems in a composite system as the user sees them: c.subSys and its dimensions. *)
Fixpoint treeOf (lim : nat) (h : heap) (i : nat) : tree :=
  if lim is lim'.+1 then
    if isComp (h i) then Group i (map (treeOf lim' h) (subs (h i))) else One i (odflt 0 (dim (h i)))
  else One i 0.
(** Building a nested composite system from the inside: each system is complete before it is added. *)
Fixpoint build (t : tree) : seq op :=
  match t with
  | One _ _ => [::]
  | Group i ts => flatten (map (fun t => build t ++ [:: Add i (nameOf t)]) ts)
  end.
Fixpoint ids (t : tree) : seq nat := match t with One i _ => [:: i] | Group i ts => i :: flatten (map ids ts) end.
Fixpoint height (t : tree) : nat := match t with One _ _ => 1 | Group _ ts => (foldr maxn 0 (map height ts)).+1 end.
(** The objects of the tree: composite systems, and single systems with positive dimensions. *)
Fixpoint made (comp : nat -> bool) (ds : nat -> nat) (t : tree) : bool :=
  match t with
  | One i d => [&& ~~ comp i, ds i == d & 0 < d]
  | Group i ts => comp i && all (made comp ds) ts
  end.
