(** C11-C14, C53, C54: parameter sweeps. *)
From Coq Require Import QArith.
From Verif Require Import Py SweepModel SweepSpec SweepProofs.
Local Open Scope string_scope.
Local Open Scope list_scope.
Local Open Scope nat_scope.

(** *** C11 *)
(** Decomposing the rank of a grid tuple gives the tuple back, and every flat
    index below the number of points is the rank of the tuple it decomposes to:
    a bijection.  The argument list is reversed because prepare builds inds
    with insert(0, .), see C12. *)
Theorem C11_index_decomposition_bijective :
  forall lens : list nat,
    (forall idx, in_grid lens idx ->
        rank lens idx < prod lens /\ indicesForSweep (rank lens idx) (rev lens) = Ok idx)
    /\ (forall ind, ind < prod lens ->
        exists idx, indicesForSweep ind (rev lens) = Ok idx /\ in_grid lens idx /\ rank lens idx = ind).
Proof.
  exact (fun lens => conj (fun idx H => conj (rank_bound lens idx H) (indices_rank lens idx H))
                          (indices_grid lens)).
Qed.
Print Assumptions C11_index_decomposition_bijective.

(** Flat order is lexicographic order: the last index varies fastest. *)
Theorem C11_flat_order_is_lexicographic :
  forall (lens a b : list nat), in_grid lens a -> in_grid lens b ->
    (rank lens a < rank lens b <-> lex_lt a b).
Proof. exact rank_lex. Qed.
Print Assumptions C11_flat_order_is_lexicographic.

Example C11_sample :
  in_grid [2; 3; 4] [1; 0; 3] /\ rank [2; 3; 4] [1; 0; 3] = 15
  /\ indicesForSweep 15 [4; 3; 2] = Ok [1; 0; 3]
  /\ lex_lt [0; 2; 3] [1; 0; 0].
Proof. repeat split; try reflexivity; repeat constructor; simpl; lia. Qed.

(** *** C12 *)
(** Any list of sweeps whose first one is not combinatorial is a list of groups. *)
Theorem C12_sweeps_form_groups :
  forall (V : Type) (sw : sweep V) (sws : list (sweep V)), sw_comb sw = false ->
    exists gs : list (group V), gs <> [] /\ flatten gs = sw :: sws.
Proof. exact (fun V sw sws => @groups_exist V sw sws). Qed.
Print Assumptions C12_sweeps_form_groups.

(** The number of points is the product of the groups' lengths. *)
Theorem C12_number_of_points :
  forall (V : Type) (gs : list (group V)) (old : list nat * nat), gs <> [] ->
    prepare (flatten gs) old = (rev (sizes gs), prod (sizes gs)).
Proof. exact (fun V gs old => @prepare_spec V gs old). Qed.
Print Assumptions C12_number_of_points.

(** Running the point of grid tuple idx gives every swept parameter the value
    selected by its group's index, and touches nothing else. *)
Theorem C12_point_assigns_selected_values :
  forall (V : Type) (gs : list (group V)) (idx : list nat) (s : store V),
    gs <> [] -> Forall long_enough gs -> in_grid (sizes gs) idx ->
    exists s',
      runPoint (flatten gs) (fst (prepare (flatten gs) ([], 1))) (rank (sizes gs) idx) s = (s', Ok tt)
      /\ (forall t v, assigned (scheduled gs idx) t v -> s' t = v)
      /\ (forall t, Forall (fun e => ~ In t (snd (fst e))) (scheduled gs idx) -> s' t = s t).
Proof. exact (fun V gs idx s => @runPoint_spec V gs idx s). Qed.
Print Assumptions C12_point_assigns_selected_values.

Definition sample_groups : list (group nat) :=
  [Group ([10; 20], [TAttr 1 "frequency"]) [([30; 40], [TAttr 2 "frequency"; TAttr 3 "frequency"])];
   Group ([5; 6; 7], [TAux "g"]) []].

Example C12_sample :
  Forall long_enough sample_groups /\ in_grid (sizes sample_groups) [1; 2]
  /\ rank (sizes sample_groups) [1; 2] = 5
  /\ (let s' := fst (runPoint (flatten sample_groups) (fst (prepare (flatten sample_groups) ([], 1))) 5 (fun _ => 0)) in
      map s' [TAttr 1 "frequency"; TAttr 2 "frequency"; TAttr 3 "frequency"; TAux "g"; TAux "h"] = [20; 40; 40; 7; 0])
  /\ assigned (scheduled sample_groups [1; 2]) (TAttr 3 "frequency") 40.
Proof.
  split; [repeat constructor|]. split; [repeat constructor|]. split; [reflexivity|]. split; [reflexivity|].
  exists [([10; 20], [TAttr 1 "frequency"], 1)], [([5; 6; 7], [TAux "g"], 2)],
         [30; 40], [TAttr 2 "frequency"; TAttr 3 "frequency"], 1.
  split; [reflexivity|]. split; [simpl; tauto|]. split; [reflexivity|].
  repeat constructor. simpl. intros [H|[]]; discriminate.
Qed.

(** *** C13 *)
(** If the first sweep is flagged combinatorial, every point of the run raises
    IndexError. *)
Theorem C13_first_combinatorial_always_fails :
  forall (V : Type) (sw : sweep V) (sws : list (sweep V)) (old : list nat * nat) (ind : nat) (s : store V),
    sw_comb sw = true -> ind < snd (prepare (sw :: sws) old) ->
    snd (runPoint (sw :: sws) (fst (prepare (sw :: sws) old)) ind s) = Err IndexError.
Proof. exact (fun V sw sws old ind s => @first_combinatorial_fails V sw sws old ind s). Qed.
Print Assumptions C13_first_combinatorial_always_fails.

(** So it does not behave as if it were not flagged. *)
Theorem C13_first_combinatorial_harmless_refuted :
  exists (vals : list nat) (tg : list target) (s : store nat),
    let run c := runPoint [Sweep c vals tg] (fst (prepare [Sweep c vals tg] ([], 1))) 0 s in
    snd (run false) = Ok tt /\ snd (run true) = Err IndexError.
Proof. exists [1; 2], [TAux "g"], (fun _ => 0). split; reflexivity. Qed.
Print Assumptions C13_first_combinatorial_harmless_refuted.

(** *** C14 *)
(** Values of a linear sweep: min + i*step, all at least min and below
    max + step, max is the last value when max-min is a multiple of step, and
    every min + k*step up to max is included. *)
Theorem C14_linear_values :
  forall (mn mx st : Q) (l : list Q), (0 < st)%Q -> (mn <= mx)%Q -> arange mn (mx + st) st = Ok l ->
  (forall i v, nth_error l i = Some v -> v = (mn + inject_Z (Z.of_nat i) * st)%Q)
  /\ (forall v, In v l -> (mn <= v)%Q /\ (v < mx + st)%Q)
  /\ (forall k : nat, (mx == mn + inject_Z (Z.of_nat k) * st)%Q ->
        List.length l = S k /\ forall v, nth_error l k = Some v -> (v == mx)%Q)
  /\ (forall k : nat, (mn + inject_Z (Z.of_nat k) * st <= mx)%Q -> k < List.length l).
Proof. exact linear_values. Qed.
Print Assumptions C14_linear_values.

(** When it is not a multiple, the list goes beyond max (by less than a step). *)
Theorem C14_values_beyond_max :
  forall mn mx st : Q, (0 < st)%Q -> (mn <= mx)%Q ->
    (forall k : nat, ~ (mx == mn + inject_Z (Z.of_nat k) * st)%Q) ->
    exists l v, arange mn (mx + st) st = Ok l /\ In v l /\ (mx < v)%Q.
Proof. exact linear_overshoot. Qed.
Print Assumptions C14_values_beyond_max.

(** Reading the list twice gives the same list. *)
Theorem C14_list_is_stable :
  forall (pow : Q -> Q) (a : swattr), let (a', l) := getSweepList pow a in snd (getSweepList pow a') = l.
Proof. exact getSweepList_twice. Qed.
Print Assumptions C14_list_is_stable.

(** But it does not follow a later change of sweepMax. *)
Theorem C14_list_follows_bounds_refuted :
  exists (pow : Q -> Q) (a : swattr) (mx : Q),
    let (a1, l1) := getSweepList pow a in
    let a2 := SwAttr (a_min a1) (Some mx) (a_step a1) (a_num a1) (a_log a1) (a_list a1) in
    a_max a <> Some mx /\ snd (getSweepList pow a2) = l1
    /\ snd (getSweepList pow (SwAttr (a_min a) (Some mx) (a_step a) (a_num a) (a_log a) None)) <> l1.
Proof.
  exists (fun x => x), (SwAttr (Some 0%Q) (Some 1%Q) (Some 1%Q) 0 false None), 2%Q.
  split; [discriminate|]. split; [reflexivity|vm_compute; discriminate].
Qed.
Print Assumptions C14_list_follows_bounds_refuted.

Example C14_sample :
  exists l, arange 0 (1 + (1#4)) (1#4) = Ok l /\ List.length l = 5
  /\ exists l', arange 0 (1 + (3#10)) (3#10) = Ok l' /\ List.length l' = 5.
Proof. eexists; split; [reflexivity|]. split; [reflexivity|]. eexists; split; reflexivity. Qed.

(** *** C53: re-running after the sweeps have been removed *)
Theorem C53_rerun_without_sweeps_refuted :
  exists (sws : list (sweep nat)),
    let (inds, multip) := prepare sws ([], 1) in
    let after_removal := prepare ([] : list (sweep nat)) (inds, multip) in
    let fresh := prepare ([] : list (sweep nat)) ([], 1) in
    snd fresh = 1 /\ snd after_removal = 3.
Proof. exists [Sweep false [1; 2; 3] [TAux "g"]]. split; reflexivity. Qed.
Print Assumptions C53_rerun_without_sweeps_refuted.

(** As long as a sweep is left, the point count only depends on the current
    sweeps. *)
Theorem C53_point_count_depends_on_current_sweeps :
  forall (V : Type) (gs : list (group V)) (old old' : list nat * nat), gs <> [] ->
    prepare (flatten gs) old = prepare (flatten gs) old'.
Proof.
  exact (fun V gs old old' H => eq_trans (@prepare_spec V gs old H) (eq_sym (@prepare_spec V gs old' H))).
Qed.
Print Assumptions C53_point_count_depends_on_current_sweeps.

(** *** C54: removing a system from all sweeps *)
(** If every sweep contains the system, it is removed from all of them and the
    sweeps left without a system disappear. *)
Theorem C54_remove_system_from_all_sweeps :
  forall (o : nat) (sws : list (nat * list nat)), Forall (fun e => In o (snd e)) sws ->
    removeSweep (RemSystem o) sws =
    (filter (fun e => negb (match snd e with [] => true | _ => false end))
            (map (fun e => (fst e, del o (snd e))) sws), Ok tt).
Proof. exact removeSystem_all. Qed.
Print Assumptions C54_remove_system_from_all_sweeps.

(** Otherwise the first sweep without it stops the loop with KeyError; it and
    all later sweeps are unchanged, even those that contain the system. *)
Theorem C54_missing_system_stops_removal :
  forall (o w : nat) (sys : list nat) (before after : list (nat * list nat)),
    Forall (fun e => In o (snd e)) before -> ~ In o sys ->
    snd (removeSweep (RemSystem o) (before ++ (w, sys) :: after)) = Err KeyError
    /\ exists b', fst (removeSweep (RemSystem o) (before ++ (w, sys) :: after)) = b' ++ (w, sys) :: after.
Proof. exact (fun o w sys before after => removeSystem_missing o w sys before after). Qed.
Print Assumptions C54_missing_system_stops_removal.

Theorem C54_remove_from_some_sweeps_refuted :
  exists (o : nat) (sws : list (nat * list nat)),
    (exists e, In e sws /\ In o (snd e))
    /\ (exists e, In e (fst (removeSweep (RemSystem o) sws)) /\ In o (snd e)).
Proof.
  exists 7, [(0, [3]); (1, [7])]. split; exists (1, [7]); simpl; tauto.
Qed.
Print Assumptions C54_remove_from_some_sweeps_refuted.

Example C54_sample :
  removeSweep (RemSystem 7) [(0, [3; 7]); (1, [7])] = ([(0, [3])], Ok tt).
Proof. reflexivity. Qed.
