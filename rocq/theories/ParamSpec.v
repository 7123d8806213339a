(** Reachability in the object graph. *)
From Verif Require Import Py ParamModel.

(** [bpath bound o x]: x is o or can be reached from o along bounds. *)
Inductive bpath (bound : nat -> list nat) (o : nat) : nat -> Prop :=
| BP_refl : bpath bound o o
| BP_step p q : bpath bound o p -> In q (bound p) -> bpath bound o q.

(** Something reachable from o is bound, directly or indirectly, to itself. *)
Definition cyclic (bound : nat -> list nat) (o : nat) : Prop :=
  exists p q, bpath bound o p /\ In q (bound p) /\ bpath bound q p.

(** Links followed only from objects that are not excluded. *)
Definition link (g : graph) (p q : nat) : Prop :=
  In q (g_bound g p) \/ In q (g_sub g p)
  \/ (g_kind g p = KSim /\ g_tb g p = Some q)
  \/ ((g_kind g p = KComp \/ g_kind g p = KSys) /\ q = g_sim g p).

(** Terms of a system. *)
Definition term_of (g : graph) (p q : nat) : Prop := g_kind g p = KSys /\ In q (g_terms g p).

(** [visited g E o x]: x is o or reachable from it by links and terms without
    following the links of an object in the exclusion list E. *)
Inductive visited (g : graph) (E : list nat) (o : nat) : nat -> Prop :=
| V_refl : visited g E o o
| V_link p q : visited g E o p -> ~ In p E -> link g p q -> visited g E o q
| V_term p q : visited g E o p -> term_of g p q -> visited g E o q.

Inductive reachable (g : graph) (o : nat) : nat -> Prop :=
| R_refl : reachable g o o
| R_step p q : reachable g o p -> (link g p q \/ term_of g p q) -> reachable g o q.

(** A finite set of nodes that is closed under links and terms; terms are
    plain objects (QTerm). *)
Definition closed_graph (g : graph) (nodes : list nat) : Prop :=
  (forall p q, In p nodes -> link g p q \/ term_of g p q -> In q nodes)
  /\ (forall p q, term_of g p q -> g_kind g q = KPlain).
