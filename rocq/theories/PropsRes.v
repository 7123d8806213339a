(** Properties of result storage and of the sweep loops. *)
From Coq Require Import QArith Permutation.
From Verif Require Import Py ResModel ResSpec SweepModel SweepSpec ResProofs.
#[local] Open Scope nat_scope.
#[local] Open Scope string_scope.
#[local] Open Scope list_scope.

(** C15: with sweep lengths [lens] (in the order the sweeps were created), the
    results of every object and key end up as a nested list of exactly that
    shape, and results[k][i1]...[im] is what was recorded at that grid point (a
    list with a single element stands for its element).  Same for states. *)
Theorem C15_results_match_points : forall (A : Type) (avg : nat -> A -> A -> A) point lens s,
  lens <> [] ->
  (forall p, p < prod lens ->
     Forall (fun o => op_index o < List.length s) (point p) /\ separate (point p)) ->
  (forall i k, all_or_none (fun p => recorded avg (point p) i k) (prod lens)) ->
  (forall i k, all_or_none (fun p => recordedState (point p) i k) (prod lens)) ->
  exists s', runRes avg true point (prod lens) (rev lens) s = Ok s' /\ List.length s' = List.length s /\
    forall i q, nth_error s' i = Some q -> q_resLast q = q_results q /\ q_stLast q = q_states q /\ forall k,
      ((exists v, dget (q_results q) k = Some v /\ has_shape lens v /\
         forall idx, in_grid lens idx -> exists x,
           recorded avg (point (rank lens idx)) i k = Some x /\ pget v idx = Some (alone x))
       \/ (dget (q_results q) k = None /\ forall p, p < prod lens -> recorded avg (point p) i k = None)) /\
      ((exists v, dget (q_states q) k = Some v /\ has_shape lens v /\
         forall idx, in_grid lens idx -> exists x,
           recordedState (point (rank lens idx)) i k = Some x /\ pget v idx = Some (alone x))
       \/ (dget (q_states q) k = None /\ forall p, p < prod lens -> recordedState (point p) i k = None)).
Proof. intros A avg point lens s N. exact (run_shapes avg point (prod lens) lens s N eq_refl). Qed.

(** C15: without sweeps there is one point, and results[k] is what it
    recorded. *)
Theorem C15_results_without_sweep : forall (A : Type) (avg : nat -> A -> A -> A) point s,
  Forall (fun o => op_index o < List.length s) (point 0) -> separate (point 0) ->
  exists s', runRes avg true point 1 [] s = Ok s' /\ List.length s' = List.length s /\
    forall i q, nth_error s' i = Some q -> forall k,
      dget (q_results q) k = recorded avg (point 0) i k /\ dget (q_states q) k = recordedState (point 0) i k.
Proof. exact @run_no_sweep. Qed.

(** C15: a key recorded at some points but not at all of them makes the whole
    run fail when the results are reshaped. *)
Theorem C15_partial_recording_fails : forall (A : Type) (avg : nat -> A -> A -> A) point lens s i k p p',
  lens <> [] -> i < List.length s ->
  (forall p, p < prod lens ->
     Forall (fun o => op_index o < List.length s) (point p) /\ separate (point p)) ->
  p < prod lens -> recorded avg (point p) i k <> None ->
  p' < prod lens -> recorded avg (point p') i k = None ->
  runRes avg true point (prod lens) (rev lens) s = Err IndexError.
Proof.
  intros A avg point lens s i k p p' N. exact (partial_recording_fails avg point (prod lens) lens s i k p p' N eq_refl).
Qed.

Definition ex_point (p : nat) : list (rop Q) :=
  [Single 0 "n" (Scal (inject_Z (Z.of_nat p))); State 1 "psi" (Scal 1%Q); State 1 "psi" (Scal 2%Q);
   Avg 1 "m" (inject_Z (Z.of_nat p)); Single 0 "n2" (Scal 0%Q); Avg 1 "m" 0%Q; Single 0 "n2" (Scal 5%Q)].
Example C15_ex :
  match runRes qavg true ex_point 6 [3; 2] [qblank; qblank] with
  | Ok [q; r] => dget (q_results q) "n" =
      Some (PL [PL [Scal 0%Q; Scal 1%Q; Scal 2%Q]; PL [Scal 3%Q; Scal 4%Q; Scal 5%Q]])
  | _ => False
  end.
Proof. vm_compute. reflexivity. Qed.
Example C15_ex_hyp i k : separate (ex_point i) /\ all_or_none (fun p => recorded qavg (ex_point p) i k) 6.
Proof.
  split.
  - intros j k'. unfold ex_point. destruct j as [|[|j]]; cbn; auto.
  - destruct i as [|[|i]]; unfold recorded, ex_point; cbn -[String.eqb].
    + destruct (String.eqb "n" k) eqn:E1, (String.eqb "n2" k) eqn:E2; [left|left|left|right]; intros p Hp; cbn; discriminate || reflexivity.
    + destruct (String.eqb "m" k); [left|right]; intros p Hp; cbn; try discriminate; reflexivity.
    + right. reflexivity.
Qed.

(** C16: the averaged values of a point leave behind their arithmetic mean,
    however the calls are interleaved with others. *)
Theorem C16_average_is_mean : forall (s : list (qres Q)) ops,
  Forall (fun o => op_index o < List.length s) ops -> separate ops ->
  (forall i q k v, nth_error s i = Some q -> dget (q_calc q) k = Some v -> exists x l, v = PL (x :: l)) ->
  (forall i q, nth_error s i = Some q -> NoDup (map fst (q_calc q))) ->
  exists s', runPointRes qavg ops s = Ok s' /\
    forall i q k, nth_error s' i = Some q -> averaged ops i k <> [] ->
      exists a, dget (q_resLast q) k = Some (Scal a) /\ (a == qmean (averaged ops i k))%Q.
Proof.
  intros s ops HI HS HC HN.
  assert (CH : calc_holds s).
  { exists (fun i k => match nth_error s i with
      | Some q => match dget (q_calc q) k with Some (PL l) => l | _ => [] end | None => [] end).
    intros i q Hq. split; [exact (HN i q Hq)|]. intros k. rewrite Hq.
    destruct (dget (q_calc q) k) as [v|] eqn:E; auto. destruct (HC i q k v Hq E) as (x & l & ->). reflexivity. }
  destruct (runPoint_records qavg ops s HI HS CH) as (s' & E & _ & _ & _ & G). exists s'. split; auto.
  intros i q k Hq Hne. destruct (G i q Hq) as (_ & _ & G'). destruct (G' k) as [G1 _]. rewrite G1.
  unfold recorded. destruct (HS i k) as [Z|Z]; [rewrite Z|congruence].
  destruct (averaged ops i k) as [|x l]; [congruence|].
  destruct (run_avg_mean x l) as (a & Ra & Ma). rewrite Ra. eauto.
Qed.
Example C16_ex :
  match runPointRes qavg [Avg 0 "m" 1%Q; Single 0 "n" (Scal 7%Q); Avg 0 "m" 2%Q; Avg 0 "k" 9%Q; Avg 0 "m" 6%Q] [qblank] with
  | Ok [q] => match dget (q_resLast q) "m" with Some (Scal a) => (a == 3)%Q | _ => False end
  | _ => False
  end.
Proof. vm_compute. reflexivity. Qed.

(** C17: with a pool of workers, in whatever order the points are executed, the
    results and states are the ones of a single-process run; and one run fails
    iff the other does. *)
Theorem C17_multiprocess_equals_single : forall (A : Type) (avg : nat -> A -> A -> A) point sched n inds s,
  Permutation sched (seq 0 n) ->
  (forall q k v, In q s -> dget (q_calc q) k = Some v -> exists l, v = PL l) ->
  match nonParalEvol avg point n inds s, paralEvol avg point sched n inds s with
  | Ok r, Ok r' => map observable r = map observable r'
  | Err _, Err _ => True
  | _, _ => False
  end.
Proof.
  intros A avg point sched n inds s HP HC. apply single_multi.
  - apply Forall_forall. intros q Hq k v. apply HC; auto.
  - intros i Hi. apply (Permutation_in i (Permutation_sym HP)). apply in_seq. lia.
Qed.
Example C17_ex :
  match nonParalEvol qavg ex_point 4 [4] [qblank; qblank], paralEvol qavg ex_point [2; 0; 3; 1] 4 [4] [qblank; qblank] with
  | Ok [q; r], Ok [q'; r'] => dget (q_states r) "psi" = dget (q_states r') "psi" /\ dget (q_states r) "psi" <> None
  | _, _ => False
  end.
Proof. vm_compute. split; [reflexivity|discriminate]. Qed.

(** C17: values stored through [calculated] do not come back from the
    workers. *)
Theorem C17_calculated_refuted : exists point : nat -> list (rop Q),
  match nonParalEvol qavg point 2 [2] [qblank], paralEvol qavg point [0; 1] 2 [2] [qblank] with
  | Ok [q], Ok [q'] => dget (q_calc q) "c" <> None /\ dget (q_calc q') "c" = None
  | _, _ => False
  end.
Proof. exists (fun p => [Calc 0 "c" (Scal 1%Q)]). vm_compute. split; [discriminate|reflexivity]. Qed.

(** C55: run(resetRes=False) after a run over one sweep.  Whatever the second
    run records, the results it leaves under a key of the first run are those
    of the first run: nothing of the second run is kept. *)
Theorem C55_rerun_without_reset_keeps_old : forall (A : Type) (avg : nat -> A -> A -> A) point1 point2 m s, 0 < m ->
  (forall p, p < m -> Forall (fun o => op_index o < List.length s) (point1 p) /\ separate (point1 p)) ->
  (forall p, p < m -> Forall (fun o => op_index o < List.length s) (point2 p) /\ separate (point2 p)) ->
  (forall i k, all_or_none (fun p => recorded avg (point1 p) i k) m) ->
  (forall i k, all_or_none (fun p => recordedState (point1 p) i k) m) ->
  (forall i k, all_or_none (fun p => recorded avg (point2 p) i k) m) ->
  (forall i k, all_or_none (fun p => recordedState (point2 p) i k) m) ->
  exists s1 s2, runRes avg true point1 m [m] s = Ok s1 /\ runRes avg false point2 m [m] s1 = Ok s2 /\
    List.length s2 = List.length s /\
    forall i q k, nth_error s2 i = Some q -> (forall p, p < m -> recorded avg (point1 p) i k <> None) ->
      exists v, dget (q_results q) k = Some v /\
        forall j, j < m -> exists x, recorded avg (point1 j) i k = Some x /\ pget v [j] = Some (alone (alone x)).
Proof. exact @rerun_keeps_old. Qed.

(** C55: so the results of the second run are lost, and in a run without
    sweeps the second run leaves a single element of the first one. *)
Theorem C55_rerun_keeps_both_refuted : exists point1 point2 : nat -> list (rop Q),
  (match runRes qavg true point1 2 [2] [qblank] with
   | Ok s => match runRes qavg false point2 2 [2] s with
             | Ok [q] => dget (q_results q) "n" = Some (PL [Scal 1%Q; Scal 1%Q])
             | _ => False
             end
   | _ => False
   end) /\
  (match runRes qavg true (fun p => point1 p ++ point1 p) 1 [] [qblank] with
   | Ok s => match runRes qavg false (fun p => point2 p ++ point2 p) 1 [] s with
             | Ok [q] => dget (q_results q) "n" = Some (Scal 1%Q)
             | _ => False
             end
   | _ => False
   end).
Proof.
  exists (fun _ => [Single 0 "n" (Scal 1%Q)]), (fun _ => [Single 0 "n" (Scal 2%Q)]).
  vm_compute. split; reflexivity.
Qed.

Print Assumptions C15_results_match_points.
Print Assumptions C15_results_without_sweep.
Print Assumptions C15_partial_recording_fails.
Print Assumptions C16_average_is_mean.
Print Assumptions C17_multiprocess_equals_single.
Print Assumptions C17_calculated_refuted.
Print Assumptions C55_rerun_without_reset_keeps_old.
Print Assumptions C55_rerun_keeps_both_refuted.
