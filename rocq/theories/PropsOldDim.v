(** C94: the dimensions kept by the older single and composite systems. *)
From Verif Require Import Py.
From mathcomp Require Import all_ssreflect.
From Verif Require Import OldDimModel OldDimSpec OldDimProofs OldNestProofs.
Set Implicit Arguments.
Unset Strict Implicit.
Unset Printing Implicit Defensive.

(** C94: after any session with a composite system of single systems, every system in it has the dimensions of the
    systems before and after it, and the total dimension of each is the dimension of the composite system.  [run] with
    a result [Ok] raises no exception.  [big] is 2^53 for floating-point division. *)
Theorem C94_flat (fdiv : nat -> nat -> nat) (big lim c : nat) (ds : nat -> nat) (l : seq op) :
  exactUpTo big fdiv -> 0 < big -> 2 < lim -> (forall x, 0 < ds x) ->
  good c big (Flat [::] ds [::]) l ->
  let f := foldl step (Flat [::] ds [::]) l in
  exists h, run fdiv lim l (start (pred1 c) ds) = (h, Ok tt) /\
    subs (h c) = members f /\
    (exists h', dimension lim c h = (h', Ok (total f)) /\ totalDim lim c h = (h', Ok (total f))) /\
    forall s, s != c ->
      dim (h s) = Some (dims f s) /\
      if s \in members f
      then [/\ getBef s h = (h, Ok (before f s)), getAft s h = (h, Ok (after f s)) & totalDim lim s h = (h, Ok (total f))]
      else [/\ getBef s h = (h, Ok 1), getAft s h = (h, Ok 1) & totalDim lim s h = (h, Ok (dims f s))].
Proof.
case: lim => [|[|[|lim]]] // hd hb _ pos hg f.
have [|h [e i]] := run_inv hd lim (start_inv c pos) _ hg; first by rewrite /total big_nil.
exists h; split=> //; have [u cm pos' [d [ec _]] hs] := i; split; first by rewrite ec.
split; first by have [h' [r1 _ r2]] := read_comp lim.+1 i; exists h'.
move=> s sc; split; first by rewrite hs.
have := read_one lim.+2 i sc; rewrite -/f; case: ifP => sm r.
  split=> //; first by rewrite getBefP hs //= sm ?bf_pos // bfE.
  by rewrite getAftP hs //= sm ?af_pos // afE.
by split=> //; [rewrite getBefP|rewrite getAftP]; rewrite hs //= sm.
Qed.

(** C94: composite systems nested to any depth, each complete before it is put into another one: every single and
    composite system has the dimensions before and after it, over all the levels. *)
Theorem C94_nested (fdiv : nat -> nat -> nat) (big lim : nat) (comp : nat -> bool) (ds : nat -> nat) (t : tree) :
  exactUpTo big fdiv -> made comp ds t -> uniq (ids t) -> height t <= lim -> size_of t <= big ->
  exists h, [/\ run fdiv lim (build t) (start comp ds) = (h, Ok tt), treeOf lim h (nameOf t) = t,
    exists h', totalDim lim (nameOf t) h = (h', Ok (size_of t)) &
    forall i b a, (i, (b, a)) \in places t 1 1 -> getBef i h = (h, Ok b) /\ getAft i h = (h, Ok a)].
Proof.
move=> hd hm u hl hB; have [|h [e g o]] := build_at hd (h := start comp ds) (t := t) _ hm u hl hB; first by [].
exists h; split=> //; first exact: (at_tree g hl).
  have [h' [e1 g1 _]] := dimension_at g u hl; exists h'; have [b1 a1 _] := at_name g1.
  by rewrite /totalDim (bindOk _ e1) /bindM /getBef /getAft b1 a1 /= !muln1.
move=> i b a hp; have [e1 e2] := at_places g hp; have hi := places_in hp.
have [p1 p2] := at_pos g isT isT hi; rewrite getBefP // getAftP // e1 e2.
by [].
Qed.

(** What is not true: *)
Lemma pairE (A B : Type) (r : A * B) b : r.2 = b -> r = (r.1, b).
Proof. by case: r => x y /= ->. Qed.
(** the dimension of a system that was taken out is still counted. *)
Theorem C94_removed_refuted : exists l (h : heap) s,
  [/\ run divn 9 l (start (pred1 0) (fun _ => 2)) = (h, Ok tt), l = [:: Add 0 1; Add 0 2; Add 0 3; Remove 0 3; Dim 3 8],
      treeOf 9 h 0 = Group 0 [:: One 1 2; One 2 2], s = 2 &
      bef (h s) = 8 /\ (s, (2, 1)) \in places (treeOf 9 h 0) 1 1].
Proof.
pose l := [:: Add 0 1; Add 0 2; Add 0 3; Remove 0 3; Dim 3 8].
exists l, (run divn 9 l (start (pred1 0) (fun _ => 2))).1, 2.
split; [apply: pairE; vm_compute; reflexivity|reflexivity|vm_compute; reflexivity|reflexivity|].
by split; vm_compute; reflexivity.
Qed.
(** Nested composite systems: adding to the inner one later, *)
Theorem C94_late_refuted : exists l (h : heap),
  [/\ run divn 9 l (start (fun i => i \in [:: 0; 10]) (fun i => i.+1)) = (h, Ok tt), l = [:: Add 10 1; Add 0 10; Add 0 3; Add 10 2],
      treeOf 9 h 0 = Group 0 [:: Group 10 [:: One 1 2; One 2 3]; One 3 4] &
      [/\ bef (h 3) = 2, aft (h 2) = 1, (3, (6, 1)) \in places (treeOf 9 h 0) 1 1 & (2, (2, 4)) \in places (treeOf 9 h 0) 1 1]].
Proof.
pose l := [:: Add 10 1; Add 0 10; Add 0 3; Add 10 2].
exists l, (run divn 9 l (start (fun i => i \in [:: 0; 10]) (fun i => i.+1))).1.
split; [apply: pairE; vm_compute; reflexivity|reflexivity|vm_compute; reflexivity|].
by split; vm_compute; reflexivity.
Qed.
(** taking a system out of the inner one, *)
Theorem C94_inner_refuted : exists l (h : heap),
  [/\ run divn 20 l (start (fun i => i \in [:: 0; 10]) (fun i => i.+1)) = (h, Ok tt),
      l = [:: Add 10 1; Add 10 2; Add 0 10; Add 0 3; Remove 10 2],
      treeOf 9 h 0 = Group 0 [:: Group 10 [:: One 1 2]; One 3 4] &
      bef (h 3) = 6 /\ (3, (2, 1)) \in places (treeOf 9 h 0) 1 1].
Proof.
pose l := [:: Add 10 1; Add 10 2; Add 0 10; Add 0 3; Remove 10 2].
exists l, (run divn 20 l (start (fun i => i \in [:: 0; 10]) (fun i => i.+1))).1.
split; [apply: pairE; vm_compute; reflexivity|reflexivity|vm_compute; reflexivity|].
by split; vm_compute; reflexivity.
Qed.
(** and assigning a dimension three levels down. *)
Theorem C94_deep_refuted : exists l (h : heap),
  [/\ run divn 20 l (start (fun i => i \in [:: 0; 10; 20]) (fun i => i.+1)) = (h, Ok tt),
      l = [:: Add 20 1; Add 20 2; Add 10 4; Add 10 20; Add 0 10; Add 0 3; Dim 2 6],
      treeOf 9 h 0 = Group 0 [:: Group 10 [:: One 4 5; Group 20 [:: One 1 2; One 2 6]]; One 3 4] &
      [/\ bef (h 3) = 30, (3, (60, 1)) \in places (treeOf 9 h 0) 1 1, aft (h 2) = 8 & (2, (10, 4)) \in places (treeOf 9 h 0) 1 1]].
Proof.
pose l := [:: Add 20 1; Add 20 2; Add 10 4; Add 10 20; Add 0 10; Add 0 3; Dim 2 6].
exists l, (run divn 20 l (start (fun i => i \in [:: 0; 10; 20]) (fun i => i.+1))).1.
split; [apply: pairE; vm_compute; reflexivity|reflexivity|vm_compute; reflexivity|].
by split; vm_compute; reflexivity.
Qed.

(** ** Cases that meet the hypotheses *)
Lemma divn_exact big : exactUpTo big divn.
Proof. by move=> q b hb _; rewrite mulnK. Qed.
Lemma totalE f : total f = foldr muln 1 (map (dims f) (members f)).
Proof. by rewrite /total; elim: (members f) => [|x l IH]; rewrite ?big_nil // big_cons IH. Qed.
Definition ex_l : seq op :=
  [:: Add 0 1; Dim 1 5; Add 0 2; Look 0; Add 0 3; Dim 2 7; Look 2; Remove 0 1; Add 0 4; Look 0; Add 0 1; Dim 1 3; Add 0 2].
Example C94_ex_good : good 0 2000 (Flat [::] (fun i => i.+2) [::]) ex_l.
Proof. by cbn [good ex_l]; rewrite !totalE; vm_compute. Qed.
Example C94_ex : let f := foldl step (Flat [::] (fun i => i.+2) [::]) ex_l in
  [/\ members f = [:: 2; 3; 4; 1], map (dims f) (members f) = [:: 7; 5; 6; 3], map (before f) (members f) = [:: 1; 7; 35; 210] &
      map (after f) (members f) = [:: 90; 18; 3; 1]].
Proof. by rewrite /before /after /= !big_cons !big_nil /=. Qed.
Definition ex_t : tree := Group 0 [:: One 1 2; Group 10 [:: One 2 3; Group 20 [:: One 3 4; One 4 5]; Group 30 [::]]; One 5 6].
Example C94_ex_tree :
  [/\ made (fun i => i \in [:: 0; 10; 20; 30]) (fun i => i.+1) ex_t, uniq (ids ex_t), height ex_t <= 4, size_of ex_t <= 1000 &
      (3, (6, 30)) \in places ex_t 1 1].
Proof. by vm_compute. Qed.

Print Assumptions C94_flat.
Print Assumptions C94_nested.
Print Assumptions C94_removed_refuted.
Print Assumptions C94_late_refuted.
Print Assumptions C94_inner_refuted.
Print Assumptions C94_deep_refuted.
