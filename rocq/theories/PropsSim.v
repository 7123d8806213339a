(** Properties of the time evolution loop. *)
From Verif Require Import Py SimModel SimSpec SimProofs.

(** C20: at every sweep point, for every step count n: the pre-calculations are
    called; then at times 0, ..., n the states are stored and all computes are
    called with the states after exactly that many steps; then the
    post-calculations are called.  Nothing else is observed, in any other order. *)
Theorem C20_observed_at_every_time : forall St Vec m2v v2m n density ps (pts : list (point St Vec)) (w : sim St),
  NoDup (map p_id ps) ->
  logE (runPoints St Vec m2v v2m n density ps pts w) = logE w ++ flat_map (fun x =>
    calculated St false ps ++
    flat_map (observed St Vec m2v v2m (pt_V x) (pt_U x) (pt_S x) density (pt_init x) ps) (seq 0 (S n))
    ++ calculated St true ps) pts.
Proof. intros. now apply runPoints_log. Qed.

(** C20: a protocol that keeps its states stores exactly n + 1 of them: the
    initial one and one after each step; one that deletes them stores none. *)
Theorem C20_stored_states : forall St Vec m2v v2m aV aU aS density n init ps (w : sim St) p,
  NoDup (map p_id ps) -> In p ps -> logE w = [] ->
  stored St (p_id p) (logE (runPoint St Vec m2v v2m aV aU aS density true n init ps w))
  = if p_del p then [] else map (traj St Vec m2v v2m aV aU aS density init p) (seq 0 (S n)).
Proof. exact stored_states. Qed.

(** C20: the compute function of the simulation is called n + 1 times, each time
    with the states of all its protocols in order. *)
Theorem C20_simulation_compute : forall St Vec m2v v2m aV aU aS density n init ps (w : sim St),
  NoDup (map p_id ps) -> logE w = [] ->
  simCalls St (logE (runPoint St Vec m2v v2m aV aU aS density true n init ps w))
  = map (fun t => map (fun p => traj St Vec m2v v2m aV aU aS density init p t) ps) (seq 0 (S n)).
Proof. exact sim_calls. Qed.

(** C57: the compute function of a system that several protocols use is called
    once per time, with the state of the first of these protocols only. *)
Theorem C57_system_sees_first_protocol : forall St Vec m2v v2m aV aU aS density n init before p after (w : sim St),
  NoDup (map p_id (before ++ p :: after)) -> Forall (fun x => p_sys x <> p_sys p) before -> logE w = [] ->
  sysCalls St (p_sys p) (logE (runPoint St Vec m2v v2m aV aU aS density true n init (before ++ p :: after) w))
  = map (traj St Vec m2v v2m aV aU aS density init p) (seq 0 (S n)).
Proof. intros. now apply system_calls. Qed.

(** Two protocols on the same system, the second open; the state is a number,
    protocol 0 adds 1 each step and protocol 1 (through vectors) doubles. *)
Definition p0 := Prot 0 7 false false false [].
Definition p1 := Prot 1 7 true false false [].
Definition p2 := Prot 2 8 false true true [(0, 2); (1, 1)].
Definition demo n := runPoint nat nat (fun s => s) (fun v => v) (fun _ _ v => 2 * v) (fun i _ s => s + S i)
  (fun _ _ k s => 10 * s + k) (fun s => s + 1) true n (fun i => i) [p0; p1; p2] (Sim (fun _ => 0) (fun _ => []) []).
Example C20_case : NoDup (map p_id [p0; p1; p2]) /\ In p0 [p0; p1; p2] /\
  stored nat 0 (logE (demo 3)) = [0; 1; 3; 6] /\ stored nat 1 (logE (demo 3)) = [2; 4; 8; 16] /\
  stored nat 2 (logE (demo 3)) = [] /\ simCalls nat (logE (demo 1)) = [[0; 2; 2]; [1; 4; 2001]].
Proof. repeat split; try reflexivity; [|now left]. repeat constructor; cbn; intuition discriminate. Qed.
Example C57_case : sysCalls nat 7 (logE (demo 2)) = [0; 1; 3] /\ sysCalls nat 8 (logE (demo 1)) = [2; 2001].
Proof. split; reflexivity. Qed.

Print Assumptions C20_observed_at_every_time.
Print Assumptions C20_stored_states.
Print Assumptions C20_simulation_compute.
Print Assumptions C57_system_sees_first_protocol.
