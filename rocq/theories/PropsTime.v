(** Properties of bound parameters and time parameters. *)
From Coq Require Import QArith Qround.
From Verif Require Import Py TimeModel TimeSpec TimeProofs.
#[local] Open Scope nat_scope.

(** C18: reading a parameter gives the value of the unbound end of its chain of
    bounds (and exhausts the recursion limit iff the chain is too long). *)
Theorem C18_reads_end_of_chain : forall lim h k o v,
  value lim h k o = Ok v <-> exists n e, n < lim /\ chain h k o n e /\ p_val (t_par (h e) k) = v.
Proof. exact value_chain. Qed.

(** C18: after any history of assignments, reads and bounds that go upward in
    some hierarchy of at most [lim] levels, every parameter can be read: no
    cycle arises. *)
Theorem C18_hierarchy_never_cyclic : forall rank lim ops,
  (forall x, rank x < lim) -> Forall (upward rank) ops ->
  forall k o, exists v, value lim (history lim ops) k o = Ok v.
Proof. exact history_reads. Qed.

(** C18: assigning a property of o changes no parameter whose chain does not
    pass through o, and is read back by every parameter whose chain does. *)
Theorem C18_set_affects_exactly_bound : forall lim o k v h w, value lim h k o = Ok w ->
  (forall j q, ~ passes h j q o -> value lim (fst (set_prop lim o k v h)) j q = value lim h j q) /\
  (forall q u, passes h k q o -> value lim h k q = Ok u ->
     exists v', value lim (fst (set_prop lim o k v h)) k q = Ok (Some v') /\ (v' == v)%Q).
Proof.
  intros lim o k v h w V. split.
  - intros j q. apply set_prop_unaffected.
  - exact (set_prop_read lim o k v h w V).
Qed.
Definition ex_hist : list top :=
  [Bind false 2 1; Bind false 1 0; Set_ 0 KSize (1 # 10); Set_ 0 KTotal 1; Set_ 1 KSamples 3].
Example C18_ex : Forall (upward (fun x => 2 - x)) ex_hist /\
  value 10 (history 10 ex_hist) KSize 2 = Ok (Some (1 # 10)) /\
  chain (history 10 ex_hist) KSize 2 2 0 /\ passes (history 10 ex_hist) KSize 2 1.
Proof.
  split; [|split; [|split]].
  - repeat constructor; cbn; lia.
  - vm_compute. reflexivity.
  - apply chain_step with (b := 1); [reflexivity|]. apply chain_step with (b := 0); [reflexivity|].
    constructor. intros b. vm_compute. discriminate.
  - apply pass_step with (b := 1); [reflexivity|constructor].
Qed.

(** C18: an explicit assignment does not always break the bound: assigning the
    value the parameter already reads leaves it bound, and a later change of the
    source overrides what was assigned. *)
Theorem C18_assignment_breaks_bound_refuted : exists ops,
  value 100 (history 100 (ops ++ [Set_ 1 KSize 1])) KSize 1 = Ok (Some 1%Q) /\
  value 100 (history 100 (ops ++ [Set_ 1 KSize 1; Set_ 0 KSize 2])) KSize 1 = Ok (Some 2%Q).
Proof. exists [Bind false 1 0; Set_ 0 KSize 1]. vm_compute. split; reflexivity. Qed.

(** C18: the check against circular bounds looks at objects, while bounds are
    kept per parameter: assigning one parameter in between, or binding an
    object to itself, gives a cycle, and reading never ends. *)
Theorem C18_no_cycles_refuted :
  (exists ops, forall lim, value lim (history 100 ops) KSize 0 = Err RecursionError
     /\ ops = [Bind false 1 0; Set_ 1 KSamples 5; Bind false 0 1]) /\
  (forall lim, value lim (history 100 [Bind false 0 0]) KSize 0 = Err RecursionError).
Proof.
  assert (C : forall h, p_bound (t_par (h 0) KSize) = BObj 1 -> p_bound (t_par (h 1) KSize) = BObj 0 ->
    forall l, value l h KSize 0 = Err RecursionError /\ value l h KSize 1 = Err RecursionError).
  { intros h B0 B1. induction l as [|l [I0 I1]]; [split; reflexivity|]. rewrite !value_eq, B0, B1. auto. }
  split.
  - exists [Bind false 1 0; Set_ 1 KSamples 5; Bind false 0 1]. intros lim. split; [|reflexivity].
    apply C; reflexivity.
  - induction lim as [|l IH]; [reflexivity|]. rewrite value_eq. exact IH.
Qed.

(** C56: reading a parameter at the end of a chain of n bounds evaluates the
    getter 2^(n+1)-1 times. *)
Theorem C56_read_cost : forall h k o n e lim, chain h k o n e -> n < lim -> cost lim h k o = 2 ^ (S n) - 1.
Proof. intros h k o n e lim C. exact (cost_chain h k o n e C lim). Qed.
Example C56_ex : cost 10 (history 10 ex_hist) KSize 2 = 7.
Proof. vm_compute. reflexivity. Qed.

(** C19: whenever reading stepCount succeeds, in whatever state, it gives
    floor(totalTime/stepSize) + 1 for the totalTime and stepSize that are read
    afterwards; a totalTime that had a value, and stepSize, are not changed. *)
Theorem C19_count_is_floor_plus_one : forall lim o h h' r, get_stepCount lim o h = (h', Ok r) ->
  exists T s, value lim h' KTotal o = Ok (Some T) /\ value lim h' KSize o = Ok (Some s) /\ ~ (s == 0)%Q /\
    r = Some (inject_Z (Qfloor (T / s)) + 1)%Q /\
    (forall T', value lim h KTotal o = Ok (Some T') -> T = T') /\ value lim h KSize o = Ok (Some s).
Proof. exact get_stepCount_floor. Qed.

(** C19: after assigning totalTime and stepSize, in either order and from any
    state with readable parameters, stepCount is floor(T/s)+1. *)
Theorem C19_total_and_size : forall lim o T s h,
  (forall k, exists v, value lim h k o = Ok v) -> ~ (s == 0)%Q ->
  (exists h3 n, get_stepCount lim o (fst (set_stepSize lim o s (fst (set_totalTime lim o T h)))) = (h3, Ok (Some n))
     /\ (n == inject_Z (Qfloor (T / s)) + 1)%Q) /\
  (exists h3 n, get_stepCount lim o (fst (set_totalTime lim o T (fst (set_stepSize lim o s h)))) = (h3, Ok (Some n))
     /\ (n == inject_Z (Qfloor (T / s)) + 1)%Q).
Proof.
  intros lim o T s h R N. split; [exact (total_then_size lim o T s h R N)|exact (size_then_total lim o T s h R N)].
Qed.

(** C19: the number of steps that was assigned is not the one that is read:
    after totalTime = T, stepCount = n the count reads n+1. *)
Theorem C19_assigned_count_reads_one_more : forall lim o T (n : positive) h,
  (forall k, exists v, value lim h k o = Ok v) -> ~ (T == 0)%Q ->
  exists h3 m, get_stepCount lim o (fst (set_stepCount lim o (inject_Z (Zpos n)) (fst (set_totalTime lim o T h))))
               = (h3, Ok (Some m)) /\ (m == inject_Z (Zpos n) + 1)%Q.
Proof. exact total_then_count. Qed.
Theorem C19_count_reads_back_refuted : exists T n,
  snd (get_stepCount 10 0 (fst (set_stepCount 10 0 n (fst (set_totalTime 10 0 T (fun _ => fresh)))))) <> Ok (Some n) /\
  match snd (get_stepCount 10 0 (fst (set_stepCount 10 0 n (fst (set_totalTime 10 0 T (fun _ => fresh)))))) with
  | Ok (Some m) => (m == n + 1)%Q
  | _ => False
  end.
Proof. exists 2%Q, 4%Q. vm_compute. split; [discriminate|reflexivity]. Qed.

(** C19: the order of the assignments matters: stepCount first and totalTime
    second leaves the number of steps unreadable, for all values. *)
Theorem C19_count_then_total_unreadable : forall lim o (n T : Q), 0 < lim ->
  snd (get_stepCount lim o (fst (set_totalTime lim o T (fst (set_stepCount lim o n (fun _ => fresh)))))) = Err ValueError.
Proof. exact count_then_total. Qed.

(** C19: the time list has floor(T/s)+2 points, the i-th one is i*s, and the
    last one lies strictly beyond the total time, by at most one step. *)
Theorem C19_time_list : forall lim o h T s,
  value lim h KTotal o = Ok (Some T) -> value lim h KSize o = Ok (Some s) -> (0 < s)%Q -> (0 <= T)%Q ->
  exists h' l, timeList lim o h = (h', Ok l) /\
    Z.of_nat (List.length l) = (Qfloor (T / s) + 2)%Z /\
    (forall i t, nth_error l i = Some t -> t = (inject_Z (Z.of_nat i) * s)%Q) /\
    (exists t, nth_error l (List.length l - 1) = Some t /\ (T < t)%Q /\ (t <= T + s)%Q).
Proof. exact timeList_spec. Qed.
Example C19_ex : match snd (timeList 10 2 (history 10 ex_hist)) with
  | Ok l => map Qred l = map Qred [0; 1#10; 2#10; 3#10; 4#10; 5#10; 6#10; 7#10; 8#10; 9#10; 1; 11#10]%Q
  | Err _ => False end.
Proof. vm_compute. reflexivity. Qed.

Print Assumptions C18_reads_end_of_chain.
Print Assumptions C18_hierarchy_never_cyclic.
Print Assumptions C18_set_affects_exactly_bound.
Print Assumptions C18_assignment_breaks_bound_refuted.
Print Assumptions C18_no_cycles_refuted.
Print Assumptions C56_read_cost.
Print Assumptions C19_count_is_floor_plus_one.
Print Assumptions C19_total_and_size.
Print Assumptions C19_assigned_count_reads_one_more.
Print Assumptions C19_count_reads_back_refuted.
Print Assumptions C19_count_then_total_unreadable.
Print Assumptions C19_time_list.
