(** C89: when a run uses a pool of processes, and of how many. *)
From Coq Require Import ZArith Lia Permutation.
From Verif Require Import Py ResModel ResSpec ResProofs PropsRes RunEndModel PropsRunEnd PoolModel PoolSpec.
#[local] Open Scope Z_scope.

Section Session.
Variable cpu : Z.
Variable windows minor8 : bool.
Variable dflt : string.
Notation poolRun := (poolRun cpu windows minor8 dflt).
Notation session := (session cpu windows minor8 dflt).

Lemma lastPool_app ev ev' d : lastPool (ev ++ ev') d = lastPool ev' (lastPool ev d).
Proof. revert d. induction ev as [|[n s|[n|] [|]|n] ev IH]; intros d; cbn; auto. Qed.
Lemma setStart_cores m : cores (setStart windows minor8 m) = cores m.
Proof. unfold setStart. destruct (_ && _)%bool; reflexivity. Qed.

(** What is remembered after any session is the number of processes of the last run with a pool that did not raise. *)
Theorem C89_memory : forall cs m ev m', session cs m = (ev, m') -> cores m' = lastPool ev (cores m).
Proof.
  induction cs as [|c cs IH]; intros m ev m'; cbn [PoolModel.session]; [intros E; now injection E as <- <-|].
  destruct (poolRun (c_sim c) (c_p c) (c_c c) m) as [[e1 m1] r] eqn:E1. destruct (session cs m1) as [e2 m2] eqn:E2.
  intros E. injection E as <- <-. rewrite lastPool_app, (IH _ _ _ E2). f_equal. revert E1. unfold PoolModel.poolRun.
  destruct (request cpu (c_p c) (c_c c) (cores (setStart windows minor8 m))) as [[n|]|];
    [destruct (n <? 1); [|destruct (c_sim c (Some n))]|destruct (c_sim c None)|]; intros E; injection E as <- <- _; cbn; auto using setStart_cores.
Qed.

(** A pool that was used has at least one process. *)
Theorem C89_positive : forall cs m ev m' n, session cs m = (ev, m') -> (forall k, cores m = Some k -> 1 <= k) ->
  (In (Ran (Some n) true) ev \/ In (Ran (Some n) false) ev \/ lastPool ev (cores m) = Some n) -> 1 <= n.
Proof.
  induction cs as [|c cs IH]; intros m ev m' n; cbn [PoolModel.session].
  - intros E C. injection E as <- <-. intros [[]|[[]|L]]. now apply C.
  - destruct (poolRun (c_sim c) (c_p c) (c_c c) m) as [[e1 m1] r] eqn:E1. destruct (session cs m1) as [e2 m2] eqn:E2.
    intros E C. injection E as <- <-.
    assert (G : cores m1 = lastPool e1 (cores m) /\ (forall k, cores m1 = Some k -> 1 <= k) /\ forall b, In (Ran (Some n) b) e1 -> 1 <= n).
    { revert E1. unfold PoolModel.poolRun.
      destruct (request cpu (c_p c) (c_c c) (cores (setStart windows minor8 m))) as [[k|]|];
        [destruct (Z.ltb_spec k 1); [|destruct (c_sim c (Some k))]|destruct (c_sim c None)|]; intros E; injection E as <- <- _; cbn;
        rewrite ?setStart_cores; split; auto; split; auto; try (intros b H0; now intuition discriminate).
      - intros k' X. injection X as <-. lia.
      - intros b [X|[X|[X|[]]]]; try discriminate. injection X as <- _. lia.
      - intros b [X|[X|[]]]; try discriminate. injection X as <- _. lia. }
    destruct G as (G1 & G2 & G3). rewrite lastPool_app, <- G1. rewrite !in_app_iff. intros H.
    destruct H as [[H|H]|[[H|H]|H]]; eauto.
Qed.

(** So after any session of a process, run() uses a pool iff an earlier run did so without raising, with as many processes as the last of
    these.  This holds whatever is given as coreCount, which p=None ignores. *)
Theorem C89_default : forall R (sim : option Z -> result R) cs c ev m, session cs newProcess = (ev, m) ->
  match lastPool ev None with
  | None => fst (fst (poolRun sim PNone c m)) = [Ran None (match sim None with Ok _ => true | Err _ => false end)] /\
            snd (poolRun sim PNone c m) = sim None
  | Some n => snd (poolRun sim PNone c m) = sim (Some n) /\
              In (Ran (Some n) (match sim (Some n) with Ok _ => true | Err _ => false end)) (fst (fst (poolRun sim PNone c m)))
  end.
Proof.
  intros R sim cs c ev m E. pose proof (fun n => C89_positive cs newProcess ev m n E) as P. apply C89_memory in E. cbn in E. unfold PoolModel.poolRun. cbn [request]. rewrite setStart_cores, E.
  destruct (lastPool ev None) as [n|] eqn:L0.
  - assert (L : 1 <= n) by (apply P; [discriminate|right; right; exact L0]). destruct (Z.ltb_spec n 1); [lia|]. destruct (sim (Some n)); cbn; auto.
  - destruct (sim None); cbn; auto.
Qed.
(** The cases in which the arguments decide. *)
Theorem C89_off : forall R (sim : option Z -> result R) c m,
  fst (fst (poolRun sim PFalse c m)) = [Ran None (match sim None with Ok _ => true | Err _ => false end)] /\
  snd (poolRun sim PFalse c m) = sim None /\ cores (snd (fst (poolRun sim PFalse c m))) = cores m.
Proof.
  intros. unfold PoolModel.poolRun. cbn [request]. destruct (sim None); cbn; auto using setStart_cores.
Qed.
Theorem C89_on : forall R (sim : option Z -> result R) p c m n,
  (p = PTrue /\ (c = CInt n \/ (exists s, c = CStr s /\ lower s = "all"%string /\ n = cpu - 1) \/
                 (c = CNone /\ n = match cores m with Some k => k | None => cpu - 1 end))) \/ p = PPool n ->
  (n < 1 -> fst (fst (poolRun sim p c m)) = [] /\ snd (poolRun sim p c m) = Err ValueError) /\
  (1 <= n -> snd (poolRun sim p c m) = sim (Some n) /\
     exists method, fst (fst (poolRun sim p c m)) =
       Opened n method :: match sim (Some n) with Ok _ => [Ran (Some n) true; Closed n] | Err _ => [Ran (Some n) false] end).
Proof.
  intros R sim p c m n H.
  assert (E : request cpu p c (cores (setStart windows minor8 m)) = Ok (Some n)).
  { rewrite setStart_cores. destruct H as [(-> & [->|[(s & -> & L & ->)|(-> & ->)]])| ->]; cbn; auto.
    - now rewrite L.
    - destruct (cores m); reflexivity. }
  unfold PoolModel.poolRun. rewrite E. split; intros L; destruct (Z.ltb_spec n 1); try lia; [auto|].
  destruct (sim (Some n)); cbn; eauto.
Qed.
(** Arguments that are neither: nothing is run and nothing is remembered. *)
Theorem C89_wrong : forall R (sim : option Z -> result R) p c m,
  (p = POther \/ (p = PTrue /\ (c = COther \/ exists s, c = CStr s /\ lower s <> "all"%string))) ->
  exists e, snd (poolRun sim p c m) = Err e /\ fst (fst (poolRun sim p c m)) = [] /\ cores (snd (fst (poolRun sim p c m))) = cores m.
Proof.
  intros R sim p c m H. unfold PoolModel.poolRun.
  destruct H as [->|(-> & [->|(s & -> & N)])]; cbn [request]; try (eexists; split; [reflexivity|cbn; auto using setStart_cores]).
  destruct (String.eqb_spec (lower s) "all"); [congruence|]. eexists; split; [reflexivity|cbn; auto using setStart_cores].
Qed.

(** The pools that are left open by a session are those in use when a simulation raised. *)
Theorem C89_leak : forall cs m ev m' l, session cs m = (ev, m') -> openPools ev l = failedPools ev l.
Proof.
  assert (A1 : forall ev ev' l, openPools (ev ++ ev') l = openPools ev' (openPools ev l)).
  { induction ev as [|[n s|[n|] [|]|n] ev IH]; intros ev' l; cbn; auto. }
  assert (A2 : forall ev ev' l, failedPools (ev ++ ev') l = failedPools ev' (failedPools ev l)).
  { induction ev as [|[n s|[n|] [|]|n] ev IH]; intros ev' l; cbn; auto. }
  induction cs as [|c cs IH]; intros m ev m' l; cbn [PoolModel.session]; [intros E; now injection E as <- <-|].
  destruct (poolRun (c_sim c) (c_p c) (c_c c) m) as [[e1 m1] r] eqn:E1. destruct (session cs m1) as [e2 m2] eqn:E2.
  intros E. injection E as <- <-. rewrite A1, A2.
  assert (G : openPools e1 l = failedPools e1 l).
  { revert E1. unfold PoolModel.poolRun.
    destruct (request cpu (c_p c) (c_c c) (cores (setStart windows minor8 m))) as [[n|]|];
      [destruct (n <? 1); [|destruct (c_sim c (Some n))]|destruct (c_sim c None)|]; intros E; injection E as <- _ _; reflexivity. }
  rewrite G. eauto.
Qed.

(** The start method: on systems other than Windows, with Python 3.8 or later, all pools of a process are forked, unless the user chose
    another method before the first run; in all cases all of them are started with the same method. *)
Theorem C89_fork : forall cs ev m chosen n s, session cs (PMem None false chosen) = (ev, m) -> In (Opened n s) ev ->
  s = match chosen with
      | Some x => x
      | None => if (negb windows && minor8)%bool then "fork"%string else dflt
      end.
Proof.
  intros cs ev m chosen n s.
  set (t := match chosen with Some x => x | None => if (negb windows && minor8)%bool then "fork"%string else dflt end).
  assert (G : forall cs m ev m', (start m = Some t \/ (start m = None /\ reRun m = false /\ chosen = None) \/
       (start m = None /\ t = dflt /\ (reRun m = true \/ windows = true \/ minor8 = false)) \/ (start m = chosen /\ reRun m = false)) ->
     session cs m = (ev, m') -> In (Opened n s) ev -> s = t).
  { clear cs ev m. induction cs as [|c cs IH]; intros m ev m' I; cbn [PoolModel.session]; [intros E; injection E as <- <-; intros []|].
    destruct (poolRun (c_sim c) (c_p c) (c_c c) m) as [[e1 m1] r] eqn:E1. destruct (session cs m1) as [e2 m2] eqn:E2.
    intros E. injection E as <- <-. rewrite in_app_iff.
    assert (J : start (setStart windows minor8 m) = Some t \/ (start (setStart windows minor8 m) = None /\ t = dflt /\
       (reRun (setStart windows minor8 m) = true \/ windows = true \/ minor8 = false))).
    { unfold setStart, t in *. destruct m as [co re st]. cbn [reRun start cores] in *.
      destruct chosen, windows, minor8, re; cbn in *; intuition (subst; cbn in *; try congruence; auto). }
    assert (T : start (settle dflt (setStart windows minor8 m)) = Some t).
    { cbn. destruct J as [->|(-> & -> & _)]; reflexivity. }
    assert (K : (forall x, In (Opened n x) e1 -> x = t) /\ (start m1 = Some t \/ (start m1 = None /\ t = dflt /\ (reRun m1 = true \/ windows = true \/ minor8 = false)))).
    { revert E1. unfold PoolModel.poolRun.
      destruct (request cpu (c_p c) (c_c c) (cores (setStart windows minor8 m))) as [[k|]|];
        [destruct (k <? 1); [|destruct (c_sim c (Some k))]|destruct (c_sim c None)|]; intros E; injection E as <- <- _; cbn [start reRun] in *;
        (split; [intros x H; cbn [In] in H; intuition (try discriminate)|auto]).
      all: match goal with X : Opened _ _ = Opened _ _ |- _ => clear - X T; cbn in T, X; congruence end. }
    destruct K as (K1 & K2). intros [H|H]; [now apply K1|]. apply (IH m1 e2 m2); auto. intuition. }
  intros E. apply (G cs (PMem None false chosen) ev m); auto.
Qed.
End Session.

(** What is returned and stored does not depend on p, coreCount, the machine or what was run before: two runs of one simulation whose
    settings are accepted both fail, or have the same value and leave the same results and states. *)
Lemma upd_obs {A} i k (v : pv A) : forall qs qs', map observable qs = map observable qs' ->
  match upd_at i (putState k v) qs, upd_at i (putState k v) qs' with
  | Ok r, Ok r' => map observable r = map observable r'
  | Err e, Err e' => e = e'
  | _, _ => False
  end.
Proof.
  induction i as [|i IH]; intros [|q qs] [|q' qs'] E; try discriminate; cbn; auto.
  - cbn in E. injection E as E1 E2 E3 E4 E5. unfold observable. cbn. rewrite E1, E2, E3, E4. now f_equal.
  - cbn [map] in E. assert (E0 : observable q = observable q') by congruence. assert (E6 : map observable qs = map observable qs') by congruence.
    specialize (IH qs qs' E6). destruct (upd_at i _ qs), (upd_at i _ qs'); auto. cbn. congruence.
Qed.
Lemma spread_obs {A} find (items : list (string * pv A)) : forall qs qs', map observable qs = map observable qs' ->
  match spread find items qs, spread find items qs' with
  | Ok r, Ok r' => map observable r = map observable r'
  | Err e, Err e' => e = e'
  | _, _ => False
  end.
Proof.
  induction items as [|[k v] items IH]; intros qs qs' E; cbn; auto. destruct (find k) as [i|]; auto.
  pose proof (upd_obs i k v qs qs' E) as U. destruct (upd_at i _ qs), (upd_at i _ qs'); try contradiction; cbn; auto. now apply IH.
Qed.
Lemma runEnd_obs {A} find me key (qs qs' : list (qres A)) : map observable qs = map observable qs' ->
  match runEnd find me key qs, runEnd find me key qs' with
  | Ok (v, r), Ok (v', r') => v = v' /\ map observable r = map observable r'
  | Err e, Err e' => e = e'
  | _, _ => False
  end.
Proof.
  intros E. unfold runEnd.
  assert (N : forall a b : list (qres A), map observable a = map observable b ->
    match nth_error a me, nth_error b me with Some x, Some y => q_stLast x = q_stLast y | None, None => True | _, _ => False end).
  { intros a b H. assert (X := f_equal (fun l => nth_error l me) H). cbn in X. rewrite !nth_error_map in X.
    destruct (nth_error a me), (nth_error b me); cbn in X; try discriminate; auto. unfold observable in X. congruence. }
  pose proof (N qs qs' E) as N1. destruct (nth_error qs me) as [q|], (nth_error qs' me) as [q'|]; try contradiction; auto.
  rewrite N1. pose proof (spread_obs find (q_stLast q') qs qs' E) as S1.
  destruct (spread find (q_stLast q') qs) as [r|], (spread find (q_stLast q') qs') as [r'|]; try contradiction; cbn; auto.
  pose proof (N r r' S1) as N2. destruct (nth_error r me) as [y|], (nth_error r' me) as [y'|]; try contradiction; auto. rewrite N2.
  destruct (dget (q_stLast y') key); auto.
  pose proof (upd_obs me key (PL []) r r' S1) as U. destruct (upd_at me _ r), (upd_at me _ r'); try contradiction; cbn; auto.
Qed.
Theorem C89_results : forall (A : Type) (avg : nat -> A -> A -> A) find point n inds resetRes me key qs
    cpu1 w1 v1 d1 (sched1 : Z -> list nat) p1 c1 m1 cpu2 w2 v2 d2 (sched2 : Z -> list nat) p2 c2 m2,
  (forall k, Permutation (sched1 k) (seq 0 n)) -> (forall k, Permutation (sched2 k) (seq 0 n)) ->
  (forall q k v, In q qs -> dget (q_calc q) k = Some v -> exists l, v = PL l) ->
  let a := wholeRun cpu1 w1 v1 d1 avg find point sched1 n inds resetRes me key p1 c1 qs m1 in
  let b := wholeRun cpu2 w2 v2 d2 avg find point sched2 n inds resetRes me key p2 c2 qs m2 in
  fst (fst a) <> [] -> fst (fst b) <> [] ->
  match snd a, snd b with
  | Ok (x, r), Ok (y, r') => x = y /\ map observable r = map observable r'
  | Err _, Err _ => True
  | _, _ => False
  end.
Proof.
  intros A avg find point n inds resetRes me key qs cpu1 w1 v1 d1 sched1 p1 c1 m1 cpu2 w2 v2 d2 sched2 p2 c2 m2 P1 P2 HC a b Na Nb.
  set (s := if resetRes then resetAll qs else qs).
  assert (HC' : forall q k v, In q s -> dget (q_calc q) k = Some v -> exists l, v = PL l).
  { unfold s. destruct resetRes; auto. intros q k v Hq. unfold resetAll in Hq. apply in_map_iff in Hq. destruct Hq as (? & <- & _). discriminate. }
  assert (G : forall cpu w v d sched p c m, (forall k, Permutation (sched k) (seq 0 n)) ->
    let z := wholeRun cpu w v d avg find point sched n inds resetRes me key p c qs m in fst (fst z) <> [] ->
    match snd z, bind (nonParalEvol avg point n inds s) (runEnd find me key) with
    | Ok (x, r), Ok (y, r') => x = y /\ map observable r = map observable r'
    | Err _, Err _ => True
    | _, _ => False
    end).
  { intros cpu w v d sched p c m P z. unfold z, wholeRun. fold s.
    assert (H : forall pool, match runSimulation avg point sched n inds s pool, nonParalEvol avg point n inds s with
      | Ok r, Ok r' => map observable r = map observable r' | Err _, Err _ => True | _, _ => False end).
    { intros [k|]; cbn.
      - pose proof (C17_multiprocess_equals_single A avg point (sched k) n inds s (P k) HC') as X.
        destruct (nonParalEvol avg point n inds s), (paralEvol avg point (sched k) n inds s); auto.
      - destruct (nonParalEvol avg point n inds s); auto. }
    unfold poolRun. destruct (request cpu p c (cores (setStart w v m))) as [[k|]|]; [destruct (k <? 1)| |]; cbn [fst snd]; try congruence.
    - intros _. specialize (H (Some k)). destruct (runSimulation avg point sched n inds s (Some k)) as [r|], (nonParalEvol avg point n inds s) as [r'|];
        try contradiction; cbn; auto. pose proof (runEnd_obs find me key r r' H) as X.
      destruct (runEnd find me key r) as [[? ?]|], (runEnd find me key r') as [[? ?]|]; auto.
    - intros _. specialize (H None). destruct (runSimulation avg point sched n inds s None) as [r|], (nonParalEvol avg point n inds s) as [r'|];
        try contradiction; cbn; auto. pose proof (runEnd_obs find me key r r' H) as X.
      destruct (runEnd find me key r) as [[? ?]|], (runEnd find me key r') as [[? ?]|]; auto. }
  pose proof (G cpu1 w1 v1 d1 sched1 p1 c1 m1 P1 Na) as G1. pose proof (G cpu2 w2 v2 d2 sched2 p2 c2 m2 P2 Nb) as G2.
  fold a in G1. fold b in G2. destruct (snd a) as [[x r]|], (snd b) as [[y r']|], (bind _ _) as [[z t]|]; try contradiction; auto.
  destruct G1, G2. split; congruence.
Qed.

(** *** A session: run(coreCount=4) is not parallel; run(p=True) uses all cores but one; run(p=False); run() is parallel again; a run that
    raises leaves a pool open; then run() uses the pool size of before. *)
Definition okSim (_ : option Z) : result unit := Ok tt.
Definition badSim (_ : option Z) : result unit := Err KeyError.
Example C89_ex : session 8 false true "spawn" [Call PNone (CInt 4) okSim; Call PTrue CNone okSim; Call PFalse CNone okSim; Call PNone CNone okSim;
    Call PTrue (CInt 2) badSim; Call PTrue (CStr "ALL") okSim; Call (PPool 3) CNone okSim; Call PNone CNone okSim] newProcess =
  ([Ran None true; Opened 7 "fork"; Ran (Some 7) true; Closed 7; Ran None true; Opened 7 "fork"; Ran (Some 7) true; Closed 7;
    Opened 2 "fork"; Ran (Some 2) false; Opened 7 "fork"; Ran (Some 7) true; Closed 7; Opened 3 "fork"; Ran (Some 3) true; Closed 3;
    Opened 3 "fork"; Ran (Some 3) true; Closed 3], PMem (Some 3) true (Some "fork"%string)).
Proof. vm_compute. reflexivity. Qed.
(** One simulation, run in one process and by a pool that takes the points backwards. *)
Example C89_ex_results :
  let one := wholeRun 4 false true "spawn" (fun _ a _ => a) findE pointE (fun _ => [2; 1; 0]%nat) 3 [3]%nat true 0 "pR" PFalse CNone oldE newProcess in
  let many := wholeRun 4 false true "spawn" (fun _ a _ => a) findE pointE (fun _ => [2; 1; 0]%nat) 3 [3]%nat true 0 "pR" PTrue CNone oldE newProcess in
  fst (fst one) = [Ran None true] /\ fst (fst many) = [Opened 3 "fork"; Ran (Some 3) true; Closed 3] /\
  match snd one, snd many with
  | Ok (v, _), Ok (v', _) => v = v' /\ pget v [2; 1]%nat = Some (Scal 21%nat)
  | _, _ => False
  end.
Proof. vm_compute. repeat split. Qed.
(** coreCount alone does not switch multiprocessing on, and on a machine with one core run(p=True) fails. *)
Theorem C89_coreCount_refuted : forall R (sim : option Z -> result R) cpu w v d n,
  fst (fst (poolRun cpu w v d sim PNone (CInt n) newProcess)) = [Ran None (match sim None with Ok _ => true | Err _ => false end)].
Proof.
  intros. unfold poolRun. cbn [request]. rewrite setStart_cores. cbn. destruct (sim None); reflexivity.
Qed.
Theorem C89_oneCore_refuted : forall R (sim : option Z -> result R) w v d, snd (poolRun 1 w v d sim PTrue CNone newProcess) = Err ValueError.
Proof. intros. destruct (C89_on 1 w v d R sim PTrue CNone newProcess 0) as (H & _); [cbn; auto 6|]. now apply H. Qed.

Print Assumptions C89_memory.
Print Assumptions C89_default.
Print Assumptions C89_positive.
Print Assumptions C89_off.
Print Assumptions C89_on.
Print Assumptions C89_wrong.
Print Assumptions C89_leak.
Print Assumptions C89_fork.
Print Assumptions C89_results.
Print Assumptions C89_coreCount_refuted.
Print Assumptions C89_oneCore_refuted.
