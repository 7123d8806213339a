(** C96: what + and N * between the older systems build. *)
From Verif Require Import Py.
From mathcomp Require Import all_ssreflect.
From Verif Require Import OldDimModel OldDimSpec OldDimProofs OldNestProofs OldPlusModel OldPlusSpec OldPlusProofs.
Set Implicit Arguments.
Unset Strict Implicit.
Unset Printing Implicit Defensive.

(** Any expression of sums, N * q and q + q over different systems that were built before, none inside another: it raises nothing, its value is the
    system with the tree [shape] says, all dimensions before and after are right over all levels, the dimension is the
    product, and systems that are not in the expression stay as they were.  [n] is larger than all numbers in use. *)
Theorem C96_sum (fdiv : nat -> nat -> nat) (big lim n : nat) (comp : nat -> bool) (ds : nat -> nat) (e : expr) :
  exactUpTo big fdiv -> all (made comp ds) (leaves e) -> uniq (flatten (map ids (leaves e))) ->
  (forall j, j \in flatten (map ids (leaves e)) -> j < n) ->
  all (fun t => (height t <= lim) && (size_of t <= big)) (leaves e) ->
  let: (t, n') := shape e n in height t <= lim -> size_of t <= big ->
  exists h h', [/\ run fdiv lim (flatten (map build (leaves e))) (start comp ds) = (h, Ok tt),
    eval fdiv lim e (h, n) = ((h', n'), Ok (nameOf t)), treeOf lim h' (nameOf t) = t,
    (exists h2, totalDim lim (nameOf t) h' = (h2, Ok (size_of t))) &
    (forall i b a, (i, (b, a)) \in places t 1 1 -> getBef i h' = (h', Ok b) /\ getAft i h' = (h', Ok a)) /\
    (forall j, j \notin flatten (map ids (leaves e)) -> j < n -> h' j = h j)].
Proof.
move=> hd hm u lt hl; case es: (shape e n) => [t n'] ht hb.
have [|h [e1 g o]] := leaves_at hd (h := start comp ds) (ts := leaves e) (comp := comp) (ds := ds) _ hm u hl; first by [].
have := eval_at hd (lim := lim) (e := e) (h := h) (n := n) g u lt; rewrite es => /(_ ht hb) [h' [e2 g2 o2]].
have [_ ut _] := shape_ids u lt; rewrite es /= in ut.
exists h, h'; split=> //; first exact: (at_tree g2 ht).
  have [h2 [e3 g3 _]] := dimension_at g2 ut ht; exists h2; have [b1 a1 _] := at_name g3.
  by rewrite /totalDim (bindOk _ e3) /bindM /getBef /getAft b1 a1 /= !muln1.
split=> // i b a hp; have [e3 e4] := at_places g2 hp; have hi := places_in hp.
have [p1 p2] := at_pos g2 isT isT hi; rewrite getBefP // getAftP // e3 e4.
by [].
Qed.

(** In particular s0 + s1 + ... + sk of single systems is one composite system with all of them in this order, *)
Definition chain (s : nat * nat) (l : seq (nat * nat)) : expr :=
  foldl (fun e x => Plus e (Is (One x.1 x.2))) (Is (One s.1 s.2)) l.
Theorem C96_chain s x l n : shape (chain s (x :: l)) n = (Group n [seq One y.1 y.2 | y <- s :: x :: l], n.+1).
Proof.
have H : forall m e0, shape e0 n = (Group n [seq One y.1 y.2 | y <- m], n.+1) ->
    shape (foldl (fun e x => Plus e (Is (One x.1 x.2))) e0 l) n = (Group n [seq One y.1 y.2 | y <- m ++ l], n.+1).
  elim: l => [|y l IH] m e0 h; first by rewrite cats0.
  by rewrite -cat_rcons; apply: IH; rewrite /= h /= map_rcons cats1.
exact: (H [:: s; x]).
Qed.
(** and a copy has the same form and dimensions, with new systems only, all different: *)
Fixpoint form (t : tree) : tree := match t with One _ d => One 0 d | Group _ ts => Group 0 (map form ts) end.
Theorem C96_copy t n : form (clone t n).1 = form t /\ uniq (ids (clone t n).1) /\
  forall j, j \in ids (clone t n).1 -> n <= j < (clone t n).2.
Proof.
have [_ [[_ [u s]] _]] := clone_ids t n; split=> //.
elim/tree_all: t n {u s} => [i d|i ts IH] n //; rewrite clone_group.
suff : map form (cloneAll ts n).1 = map form ts by case: (cloneAll ts n) => us m /= ->.
elim: ts n IH => [|t ts IHt] n IH //=; have := IH t (or_introl erefl) n; case: (clone t n) => u m /= eu.
have := IHt m (fun t' ht => IH t' (or_intror ht)); case: (cloneAll ts m) => us m' /= eus.
by rewrite eu eus.
Qed.
(** k * q for k > 0 has k systems, the first of which is q and the others copies of it; *)
Theorem C96_times k t n : 0 < k -> exists us, (shape (Times k t) n).1 = Group n (t :: us) /\ size us = k.-1 /\
  uniq (flatten (map ids us)) /\ forall u, List.In u us -> form u = form t /\ forall j, j \in ids u -> n < j.
Proof.
move=> _; have [_ [uq _]] := clones_ids t k.-1 n.+1; rewrite /=.
have H : forall k' m, n < m -> size (clones k' t m).1 = k' /\ forall u, List.In u (clones k' t m).1 -> form u = form t /\ forall j, j \in ids u -> n < j.
  elim=> [|k' IH] m nm //=.
  have [f [_ s]] := C96_copy t m; have [lt _] := clone_ids t m; case: (clone t m) f s lt => u m1 /= f s lt.
  have [] := IH m1 (ltn_trans nm lt); case: (clones k' t m1) => us m2 /= -> IHu; split=> // v [<-|/IHu //].
  by split=> // j /s /andP [x _]; exact: leq_trans nm x.
by have := H k.-1 n.+1 (ltnSn n); case: (clones _ _ _) uq => us m /= uq [sz hu]; exists us.
Qed.
(** q + q is a new composite system of q and a copy of it, unless q is an empty composite system. *)
Theorem C96_same t n : t <> Group (nameOf t) [::] -> exists u, (shape (Twice t) n).1 = Group n [:: t; u] /\ form u = form t /\ forall j, j \in ids u -> n < j.
Proof.
have [f [_ s]] := C96_copy t n.+1; rewrite /=; case: (clone t n.+1) f s => u m /= f s ne; exists u.
split; last by split=> // j /s /andP [].
by case: t ne {f} => [//|i [|//]] /=.
Qed.
(** p - q is removal, which C94 is about. *)
Theorem C96_minus (fdiv : nat -> nat -> nat) (lim n c q : nat) (h : heap) :
  let: (h', r) := does fdiv lim (Remove c q) h in
  minus fdiv lim c q (h, n) = ((h', n), match r with Ok _ => Ok c | Err e => Err e end).
Proof. by rewrite /minus /bindN /lift /= /bindM; case: (rm _ _ _ _ _ _) => h' [x|e]. Qed.

(** ** Cases *)
Definition dsE (i : nat) : nat := i.+2.
Definition exE : expr := Plus (Plus (Is (One 0 2)) (Is (One 1 3))) (Plus (Times 3 (One 2 4)) (Is (Group 9 [:: One 3 5]))).
Example C96_ex_hyp : [/\ all (made (pred1 9) dsE) (leaves exE), uniq (flatten (map ids (leaves exE))),
  all (fun j => j < 10) (flatten (map ids (leaves exE))) & height (shape exE 10).1 = 4 /\ size_of (shape exE 10).1 = 1920].
Proof. by split; [| | |split]; vm_compute; reflexivity. Qed.
Example C96_ex : shape exE 10 =
  (Group 15 [:: Group 10 [:: One 0 2; One 1 3]; Group 14 [:: Group 11 [:: One 2 4; One 12 4; One 13 4]; Group 9 [:: One 3 5]]], 16) /\
  (13, (96, 5)) \in places (shape exE 10).1 1 1.
Proof. by split; vm_compute; reflexivity. Qed.

Example C96_ex_same : start pred0 dsE 1 = newOne (Some 3) /\
  (let r := plus divn 2 1 1 (start pred0 dsE, 4) in r.2 = Ok 4 /\ treeOf 2 r.1.1 4 = Group 4 [:: One 1 3; One 5 3]).
Proof. by split; [|split]; vm_compute; reflexivity. Qed.

Example C96_ex_copies : let e := Plus (Times 2 (Group 9 [:: One 3 5; One 1 3])) (Twice (One 0 2)) in
  [/\ all (made (pred1 9) dsE) (leaves e), uniq (flatten (map ids (leaves e))), size_of (shape e 10).1 = 900 &
  shape e 10 = (Group 16 [:: Group 10 [:: Group 9 [:: One 3 5; One 1 3]; Group 13 [:: One 11 5; One 12 3]]; Group 14 [:: One 0 2; One 15 2]], 17)].
Proof. by split; vm_compute; reflexivity. Qed.

(** What is not true: that the order of the systems is that of the operands, so a + (b + c) has b, c, a and (a + b) + c has a, b, c; *)
Theorem C96_order_refuted : exists a b c : tree, [/\ a = One 0 2, b = One 1 3, c = One 2 4,
  (shape (Plus (Is a) (Plus (Is b) (Is c))) 5).1 = Group 5 [:: b; c; a] & (shape (Plus (Plus (Is a) (Is b)) (Is c)) 5).1 = Group 5 [:: a; b; c]].
Proof. by exists (One 0 2), (One 1 3), (One 2 4). Qed.
(** that 0 * q is empty or rejected: it is a composite system of one system, like 1 * q; *)
Theorem C96_zero_refuted (fdiv : nat -> nat -> nat) (lim q : nat) : times fdiv lim 0 q = times fdiv lim 1 q.
Proof. by []. Qed.
(** that the value of a + is a composite system with the left operand in it: an empty one is dropped. *)
Theorem C96_empty_refuted : exists (h : heap) (r : world * result nat), h = (run divn 9 [:: Add 1 2] (start (fun i => i < 2) dsE)).1 /\
  r = plus divn 9 0 1 (h, 5) /\ r.2 = Ok 1 /\ treeOf 9 r.1.1 1 = Group 1 [:: One 2 4] /\ sup (r.1.1 0) = None.
Proof. by do 2 eexists; split; [reflexivity|]; split; [reflexivity|]; split; [|split]; vm_compute; reflexivity. Qed.

Print Assumptions C96_sum.
Print Assumptions C96_chain.
Print Assumptions C96_copy.
Print Assumptions C96_times.
Print Assumptions C96_same.
Print Assumptions C96_minus.
Print Assumptions C96_order_refuted.
Print Assumptions C96_zero_refuted.
Print Assumptions C96_empty_refuted.
