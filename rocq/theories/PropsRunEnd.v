(** C88: what run returns and where the states of a run are found. *)
From Coq Require Import QArith Lia Permutation.
From Verif Require Import Py TimeModel ProtModel ProtSpec ProtProofs TimeDepModel TimeDepSpec TimeDepProofs PropsTimeDep
  SweepModel SweepSpec SweepProofs ResModel ResSpec ResProofs PropsRes SweepRunModel SweepRunSpec SweepRunProofs PropsSweepRun
  RunEndModel RunEndSpec RunEndProofs.
#[local] Open Scope nat_scope.

Section End.
Variable A : Type.
Variable avg : nat -> A -> A -> A.
Variable find : string -> option nat.
Notation runAll := (runAll avg find).

(** After a run of any kind: what is returned is what the simulation has under the key, or an empty list; every state of
    the simulation is also in the states of the object that its key names; no result and no other state is touched; and the only
    key that may be added is the one that is returned. *)
Theorem C88_end : forall r point n inds me key qs qs1, Forall uniqueKeys qs -> me < List.length qs ->
  runRes avg r point n inds qs = Ok qs1 -> List.length qs1 = List.length qs ->
  (forall k w, states qs1 me k = Some w -> exists i, find k = Some i /\ i < List.length qs) ->
  exists v qs2, runAll r point n inds me key qs = Ok (v, qs2) /\ List.length qs2 = List.length qs /\
    v = match states qs1 me key with Some w => w | None => PL [] end /\
    states qs2 me key = Some v /\
    (forall k w, states qs1 me k = Some w -> states qs2 me k = Some w) /\
    (forall k w i, states qs1 me k = Some w -> find k = Some i -> states qs2 i k = Some w) /\
    (forall i k, (states qs1 me k = None \/ find k <> Some i) -> (i <> me \/ k <> key) -> states qs2 i k = states qs1 i k) /\
    (forall i k, results qs2 i k = results qs1 i k).
Proof.
  intros r point n inds me key qs qs1 U Lm E L F. unfold RunEndModel.runAll. rewrite E. cbn [bind].
  assert (N := run_nd avg r point n inds qs qs1 U E).
  destruct (end_ok find me key qs1 N) as (v & qs2 & R & L2 & Rs & V & G).
  { now rewrite L. }
  { intros k w W. destruct (F k w W) as (i & Fi & Li). exists i. now rewrite L. }
  change (@stateAt A) with (@states A) in *.
  assert (M : forall k w, states qs1 me k = Some w -> states qs2 me k = Some w).
  { intros k w W. rewrite G, W. destruct (match find k with Some i => Nat.eqb me i | None => false end); auto. }
  exists v, qs2. split; [exact R|split; [congruence|split; [exact V|split; [|split; [exact M|split; [|split]]]]]].
  - destruct (states qs1 me key) as [w|] eqn:W.
    + rewrite (M key w W). now rewrite V.
    + rewrite G, W, Nat.eqb_refl, String.eqb_refl. now rewrite V.
  - intros k w i W Fi. rewrite G, W, Fi, Nat.eqb_refl. reflexivity.
  - intros i k C D. rewrite G. destruct (states qs1 me k) as [w|].
    + destruct C as [C|C]; [discriminate|]. destruct (find k) as [j|]; auto. destruct (Nat.eqb_spec i j); auto. subst. congruence.
    + destruct (Nat.eqb_spec i me), (String.eqb_spec k key); subst; cbn; auto. destruct D; congruence.
  - intros i k. assert (Ei := f_equal (fun l => nth_error l i) Rs). cbn in Ei. rewrite !nth_error_map in Ei. unfold results.
    destruct (nth_error qs2 i), (nth_error qs1 i); cbn in Ei; try discriminate; auto. unfold rest in Ei. congruence.
Qed.

(** If a key of the states names no object, run raises KeyError. *)
Theorem C88_unknown : forall r point n inds me key qs qs1 k w, Forall uniqueKeys qs ->
  runRes avg r point n inds qs = Ok qs1 -> (forall x i, find x = Some i -> i < List.length qs) ->
  states qs1 me k = Some w -> find k = None -> runAll r point n inds me key qs = Err KeyError.
Proof.
  intros r point n inds me key qs qs1 k w U E H S F. unfold RunEndModel.runAll. rewrite E. cbn [bind].
  apply (end_unknown find me key qs1 k w); auto.
  - exact (run_nd avg r point n inds qs qs1 U E).
  - intros x i Fx. rewrite (run_length avg r point n inds qs qs1 E). now apply (H x).
Qed.

(** After a run over sweeps: what is returned is the grid of the states that the points stored under the key, and every state that the
    simulation stores is found, as such a grid, in the simulation and in the object its key names. *)
Theorem C88_sweep : forall point lens me key qs, Forall uniqueKeys qs -> lens <> [] -> 0 < prod lens -> me < List.length qs ->
  (forall p, p < prod lens -> Forall (fun o => op_index o < List.length qs) (point p) /\ ResSpec.separate (point p)) ->
  (forall i k, all_or_none (fun p => recorded avg (point p) i k) (prod lens)) ->
  (forall i k, all_or_none (fun p => recordedState (point p) i k) (prod lens)) ->
  (forall p k, p < prod lens -> recordedState (point p) me k <> None -> exists i, find k = Some i /\ i < List.length qs) ->
  exists v qs2, runAll true point (prod lens) (rev lens) me key qs = Ok (v, qs2) /\ List.length qs2 = List.length qs /\
    states qs2 me key = Some v /\
    (recordedState (point 0) me key = None -> v = PL []) /\
    (forall k i, recordedState (point 0) me k <> None -> find k = Some i ->
       exists w, states qs2 me k = Some w /\ states qs2 i k = Some w /\ has_shape lens w /\
         forall idx, in_grid lens idx -> exists x, recordedState (point (rank lens idx)) me k = Some x /\ pget w idx = Some (alone x)).
Proof.
  intros point lens me key qs U Nl Pos Lm HP H1 H2 HF.
  destruct (C15_results_match_points A avg point lens qs Nl HP H1 H2) as (qs1 & E & L & G).
  destruct (nth_error qs1 me) as [q|] eqn:Eq; [|apply nth_error_None in Eq; lia].
  assert (S1 : forall k, states qs1 me k = dget (q_states q) k) by (intros k; unfold states; now rewrite Eq).
  destruct (G me q Eq) as (_ & _ & Gk).
  destruct (C88_end true point (prod lens) (rev lens) me key qs qs1 U Lm E L) as (v & qs2 & R & L2 & V & K & M & Fd & _ & _).
  { intros k w W. rewrite S1 in W. destruct (Gk k) as (_ & [(w' & _ & _ & C)|(W' & _)]); [|congruence].
    apply (HF 0 k Pos). destruct (H2 me k) as [X|X]; [now apply X|].
    destruct (indices_grid lens 0 Pos) as (idx & _ & Gi & Ri). destruct (C idx Gi) as (x & X1 & _). rewrite Ri in X1. now rewrite X1. }
  exists v, qs2. split; [exact R|split; [exact L2|split; [exact K|split]]].
  - intros Z. rewrite V, S1. destruct (Gk key) as (_ & [(w & W & _ & C)|(W & _)]); [|now rewrite W].
    destruct (indices_grid lens 0 Pos) as (idx & _ & Gi & Ri). destruct (C idx Gi) as (x & X1 & _). rewrite Ri in X1. congruence.
  - intros k i Z Fi. destruct (Gk k) as (_ & [(w & W & Sh & C)|(_ & C)]); [|now specialize (C 0 Pos)].
    rewrite <- S1 in W. exists w. split; [now apply M|split; [now apply (Fd k w i)|split; [exact Sh|exact C]]].
Qed.

(** Without sweeps: what the one point stored. *)
Theorem C88_single : forall point me key qs, Forall uniqueKeys qs -> me < List.length qs ->
  Forall (fun o => op_index o < List.length qs) (point 0) -> ResSpec.separate (point 0) ->
  (forall k, recordedState (point 0) me k <> None -> exists i, find k = Some i /\ i < List.length qs) ->
  exists v qs2, runAll true point 1 [] me key qs = Ok (v, qs2) /\ List.length qs2 = List.length qs /\
    v = match recordedState (point 0) me key with Some w => w | None => PL [] end /\ states qs2 me key = Some v /\
    (forall k i, recordedState (point 0) me k <> None -> find k = Some i ->
       states qs2 me k = recordedState (point 0) me k /\ states qs2 i k = recordedState (point 0) me k) /\
    (forall i k, i < List.length qs -> results qs2 i k = recorded avg (point 0) i k).
Proof.
  intros point me key qs U Lm HP HS HF.
  destruct (C15_results_without_sweep A avg point qs HP HS) as (qs1 & E & L & G).
  assert (S1 : forall i k, i < List.length qs -> states qs1 i k = recordedState (point 0) i k /\ results qs1 i k = recorded avg (point 0) i k).
  { intros i k Li. unfold states, results. destruct (nth_error qs1 i) as [q|] eqn:Eq; [|apply nth_error_None in Eq; lia].
    destruct (G i q Eq k). auto. }
  destruct (C88_end true point 1 [] me key qs qs1 U Lm E L) as (v & qs2 & R & L2 & V & K & M & Fd & _ & Rs).
  { intros k w W. rewrite (proj1 (S1 me k Lm)) in W. apply HF. congruence. }
  exists v, qs2. rewrite (proj1 (S1 me key Lm)) in V. repeat split; auto.
  - destruct (recordedState (point 0) me k) as [w|] eqn:W; [|congruence]. apply M. now rewrite (proj1 (S1 me k Lm)).
  - destruct (recordedState (point 0) me k) as [w|] eqn:W; [|congruence]. apply (Fd k); auto. now rewrite (proj1 (S1 me k Lm)).
  - intros i k Li. rewrite Rs. now apply S1.
Qed.

(** A run does not depend on what is stored before it. *)
Theorem C88_forgets : forall point n inds me key qs qs', List.length qs = List.length qs' ->
  runAll true point n inds me key qs = runAll true point n inds me key qs'.
Proof.
  intros point n inds me key qs qs' L. unfold RunEndModel.runAll, runRes.
  assert (E : resetAll qs = resetAll qs') by (revert qs' L; induction qs as [|q qs IH]; intros [|q' qs'] L; try discriminate; auto;
    cbn; f_equal; apply IH; now injection L).
  now rewrite E.
Qed.

(** What happens to an object for which the points of the run record nothing and which no state of the run names, such as the one
    of another simulation: a run empties it, and a run with resetRes=False regroups all that it has a second time. *)
Theorem C88_others : forall r point n inds me key qs v qs2 i k, Forall uniqueKeys qs -> me < List.length qs -> i < List.length qs -> i <> me ->
  (forall p o, p < n -> In o (point p) -> op_index o <> i) -> (forall k, find k <> Some i) ->
  (forall q1, runRes avg r point n inds qs = Ok q1 -> forall k w, states q1 me k = Some w -> exists j, find k = Some j /\ j < List.length qs) ->
  runAll r point n inds me key qs = Ok (v, qs2) ->
  let after old new := if r then new = None else
    match old with
    | Some w => exists w', finVal inds w = Ok w' /\ new = Some w'
    | None => new = None
    end in
  after (states qs i k) (states qs2 i k) /\ after (results qs i k) (results qs2 i k).
Proof.
  intros r point n inds me key qs v qs2 i k U Lm Li Ni P Fi Ft R after.
  destruct (runRes avg r point n inds qs) as [q1|] eqn:E; [|unfold RunEndModel.runAll in R; rewrite E in R; discriminate].
  destruct (C88_end r point n inds me key qs q1 U Lm E (run_length avg r point n inds qs q1 E) (Ft q1 eq_refl))
    as (v' & q2' & R' & _ & _ & _ & _ & _ & O & Rs).
  rewrite R in R'. injection R' as <- <-.
  rewrite (O i k (or_intror (Fi k)) (or_introl Ni)), (Rs i k). clear O Rs.
  destruct (nth_error_ok qs i Li) as (q & Q).
  destruct (run_other avg r point n inds qs q1 i q) as (q' & Q' & D1 & D2); auto.
  { intros p Hp. apply Forall_forall. intros o. now apply P. }
  apply finDict_get with (k := k) in D1. apply finDict_get with (k := k) in D2. unfold states, results. rewrite Q, Q'.
  unfold after. destruct r; [split; [exact D2|exact D1]|]. split; [exact D2|exact D1].
Qed.

(** So with resetRes=False and without sweeps only the first element is left of every list of any other simulation, and a list
    without elements makes the run fail. *)
Theorem C88_others_first : forall point me key qs v qs2 i k l, Forall uniqueKeys qs -> me < List.length qs -> i < List.length qs -> i <> me ->
  (forall o, In o (point 0) -> op_index o <> i) -> (forall k, find k <> Some i) ->
  (forall q1, runRes avg false point 1 [] qs = Ok q1 -> forall k w, states q1 me k = Some w -> exists j, find k = Some j /\ j < List.length qs) ->
  runAll false point 1 [] me key qs = Ok (v, qs2) ->
  results qs i k = Some (PL l) -> exists x r, l = x :: r /\ results qs2 i k = Some x.
Proof.
  intros point me key qs v qs2 i k l U Lm Li Ni P Fi Ft R E.
  destruct (C88_others false point 1 [] me key qs v qs2 i k U Lm Li Ni) as (_ & H); auto.
  { intros p o Hp. assert (p = 0) by lia. subst. apply P. }
  cbv beta iota in H. rewrite E in H. destruct H as (w & W & ->). destruct l as [|x r]; [discriminate|]. cbn in W. injection W as <-. eauto.
Qed.
End End.

(** Composed with C87: what run returns for the protocol of the simulation, over sweeps, is the grid of the lists of its states. *)
Theorem C88_trajectories : forall (M V State A : Type) mul one adj shape veq leafU dep updates u_first u_rest u_val fixed act tdf superOf
    (avg : nat -> A -> A -> A) par init comp emb resOf nameOf keepStates rs top gs find lim h m d n (s : ProtModel.st M V) p,
  usable M V mul one veq leafU dep updates u_first u_rest fixed tdf superOf rs top ->
  sweepable V State A tdf par init comp rs top gs -> unused M V s -> allFollow superOf rs lim h m -> ownSize h m d ->
  In p rs -> keepStates (nid p) = true -> NoDup (map nid rs) ->
  (forall q, In q rs -> resOf (nid q) = resOf (nid p) -> nameOf (nid q) = nameOf (nid p) -> nid q = nid p) ->
  (forall e k c x, storedStates (comp e k c) (resOf (nid p)) x = []) ->
  sameKeys V State A comp -> (forall e cs, ResSpec.separate (record V State A comp emb resOf nameOf keepStates e rs 0 cs)) ->
  0 < prod (sizes gs) ->
  forall old ix qs, Forall uniqueKeys qs -> (forall q, In q rs -> resOf (nid q) < List.length qs) ->
  (forall e k c o, In o (comp e k c) -> op_index o < List.length qs) ->
  (forall q, In q rs -> exists i, find (nameOf (nid q)) = Some i /\ i < List.length qs) ->
  let run := bind (fullRun M V State A mul one adj shape veq leafU dep updates u_first u_rest u_val fixed act tdf superOf
       avg par init comp emb resOf nameOf keepStates lim h m n rs (flatten gs) old ix s qs)
     (fun x => runEnd find (resOf (nid p)) (nameOf (nid p)) (fst (fst x))) in
  exists v qs2 i, run = Ok (v, qs2) /\ find (nameOf (nid p)) = Some i /\
    states qs2 (resOf (nid p)) (nameOf (nid p)) = Some v /\ states qs2 i (nameOf (nid p)) = Some v /\ has_shape (sizes gs) v /\
    forall idx se ixe, in_grid (sizes gs) idx -> unused M V se -> isAt V par gs idx (env s) (env se) ->
      exists tr ixe' se',
        evolveRun M V State mul one adj shape veq leafU dep updates u_first u_rest u_val fixed act tdf superOf lim h m n rs ixe (init (env se)) se
          = Ok (tr, ixe', se') /\ List.length tr = n /\
        pget v idx = Some (alone (PL (map (fun c => Scal (emb (c (nid p)))) (init (env se) :: tr)))).
Proof.
  intros M V State A mul one adj shape veq leafU dep updates u_first u_rest u_val fixed act tdf superOf avg par init comp emb resOf nameOf
    keepStates rs top gs find lim h m d n s p U Sw N F O Hp Kp ND Uq Cq SK Sep Pos old ix qs Un HN HC Ft run.
  destruct (C87_states M V State A mul one adj shape veq leafU dep updates u_first u_rest u_val fixed act tdf superOf avg par init comp emb resOf nameOf
    keepStates rs top gs lim h m d n s p U Sw N F O Hp Kp ND Uq (fun e k c => Cq e k c _) SK Sep Pos old ix qs HN HC) as (q1 & ix' & s' & q & v & E & Q & D & Sh & T).
  destruct (C87_sweep M V State A mul one adj shape veq leafU dep updates u_first u_rest u_val fixed act tdf superOf avg par init comp emb resOf nameOf
    keepStates rs top gs lim h m d n s U Sw N F O) as (point & X & Y & _ & R). destruct (R old ix qs) as (R1 & _). clear R.
  rewrite E in R1. cbn [bind fst snd] in R1. symmetry in R1.
  assert (L := run_length avg true point _ _ qs q1 R1).
  destruct (C88_end A avg find true point (prod (sizes gs)) (rev (sizes gs)) (resOf (nid p)) (nameOf (nid p)) qs q1 Un (HN p Hp) R1 L)
    as (v2 & qs2 & E2 & L2 & V2 & K2 & _ & Fd & _).
  { intros k w W. destruct (in_dec string_dec k (map (fun q => nameOf (nid q)) rs)) as [I|I].
    { apply in_map_iff in I. destruct I as (q0 & <- & Hq). now apply Ft. }
    exfalso. assert (W0 : states q1 (resOf (nid p)) k = None); [|congruence].
    apply (run_nokey avg point (prod (sizes gs)) (rev (sizes gs)) qs q1); auto. intros i Hi.
    destruct (indices_grid (sizes gs) i Hi) as (idx & _ & G & <-). destruct (X idx G) as (se & Ue & Es).
    destruct (Y idx se ix G Ue Es) as (? & ? & P).
    destruct (C87_alone M V State A mul one adj shape veq leafU dep updates u_first u_rest u_val fixed act tdf superOf par init comp emb resOf nameOf
      keepStates rs top lim h m d n ix se U Ue F O) as (tr & ? & ? & P' & _). rewrite P in P'.
    apply (f_equal (fun z => match z with Ok (y, _, _) => y | Err _ => [] end)) in P'. cbv beta iota in P'. rewrite P'.
    generalize 0. generalize (init (env se) :: tr) as cs0. intros cs0; induction cs0 as [|c cs IH]; intros k0; [reflexivity|]. cbn [record].
    rewrite !stored_app, Cq, IH. cbn. rewrite app_nil_r. unfold stateOps.
    assert (Z : forall l, incl l rs -> storedStates (map (fun q => ResModel.State (resOf (nid q)) (nameOf (nid q)) (Scal (emb (c (nid q)))))
       (filter (fun q => keepStates (nid q)) l)) (resOf (nid p)) k = []).
    { induction l as [|q0 l IHl]; intros Il; [reflexivity|]. cbn [filter]. assert (I2 := IHl (fun x Hx => Il x (or_intror Hx))).
      destruct (keepStates (nid q0)); auto. cbn [map storedStates]. destruct (String.eqb_spec (nameOf (nid q0)) k) as [<-|]; [|now rewrite andb_false_r].
      exfalso. apply I. apply (in_map (fun q => nameOf (nid q))). apply Il. now left. }
    apply Z, incl_refl. }
  assert (S1 : states q1 (resOf (nid p)) (nameOf (nid p)) = Some v) by (unfold states; now rewrite Q).
  rewrite S1 in V2. subst v2. destruct (Ft p Hp) as (i & Fi & _).
  exists v, qs2, i. split; [|split; [exact Fi|split; [exact K2|split; [now apply (Fd _ v i)|split; [exact Sh|exact T]]]]].
  unfold run. rewrite E. cbn [bind fst snd]. unfold runAll in E2. rewrite R1 in E2. exact E2.
Qed.

(** *** A concrete case: two simulations, object 0 is that of the simulation that runs, "pR" names object 1 and "qR" object 2; object 3
    belongs to another simulation and has results already. *)
#[local] Open Scope string_scope.
#[local] Open Scope nat_scope.
Definition findE (k : string) : option nat := if String.eqb k "pR" then Some 1 else if String.eqb k "qR" then Some 2 else Some 0.
Definition pointE (p : nat) : list (rop nat) :=
  [ResModel.State 0 "pR" (Scal (10 * p)); ResModel.State 0 "qR" (Scal (10 * p + 5)); Single 1 "n" (Scal p);
   ResModel.State 0 "pR" (Scal (10 * p + 1)); ResModel.State 0 "qR" (Scal (10 * p + 6)); Single 1 "n" (Scal p)].
Definition oldE : list (qres nat) := [qblank; qblank; qblank;
  QRes [("n", PL [Scal 1; Scal 2; Scal 3])] [] [("n", PL [Scal 1; Scal 2; Scal 3])] [] [] []].
Definition runE (r : bool) (n : nat) (inds : list nat) (key : string) := runAll (fun _ a _ => a) findE r pointE n inds 0 key oldE.
Example C88_ex : match runE true 2 [2] "pR" with
  | Ok (v, qs) => v = PL [PL [Scal 0; Scal 1]; PL [Scal 10; Scal 11]] /\ states qs 0 "pR" = Some v /\ states qs 1 "pR" = Some v /\
      states qs 2 "qR" = Some (PL [PL [Scal 5; Scal 6]; PL [Scal 15; Scal 16]]) /\ results qs 3 "n" = None
  | _ => False
  end.
Proof. vm_compute. repeat split. Qed.
Example C88_ex_hyp : Forall uniqueKeys oldE /\
  (forall p, p < 2 -> Forall (fun o => op_index o < 4) (pointE p) /\ ResSpec.separate (pointE p)) /\
  (forall i k, all_or_none (fun p => recordedState (pointE p) i k) 2) /\
  (forall i k, all_or_none (fun p => recorded (fun _ a _ => a) (pointE p) i k) 2).
Proof.
  split; [|split; [|split]].
  - repeat constructor; intros [].
  - intros p _. split; [repeat constructor; cbn; lia|]. intros i k. right. reflexivity.
  - intros i k. unfold recordedState, pointE. cbn -[Nat.mul Nat.add String.eqb].
    destruct i as [|i]; [|right; intros; reflexivity]. cbn -[Nat.mul Nat.add String.eqb].
    destruct (String.eqb "pR" k), (String.eqb "qR" k); [left|left|left|right]; intros p Hp; try discriminate; reflexivity.
  - intros i k. unfold recorded, pointE. cbn -[Nat.mul Nat.add String.eqb]. destruct i as [|[|i]]; try (right; intros; reflexivity).
    cbn -[Nat.mul Nat.add String.eqb]. destruct (String.eqb "n" k); [left|right]; intros p Hp; try discriminate; reflexivity.
Qed.
(** With a key that names no object. *)
Definition findU (k : string) : option nat := if String.eqb k "qR" then None else findE k.
Example C88_ex_unknown : runAll (fun _ a _ => a) findU true pointE 2 [2] 0 "pR" oldE = Err KeyError /\
  match runRes (fun _ a _ => a) true pointE 2 [2] oldE with Ok qs1 => states qs1 0 "qR" <> None | _ => False end /\
  findU "qR" = None /\ (forall x i, findU x = Some i -> i < List.length oldE).
Proof.
  split; [vm_compute; reflexivity|split; [vm_compute; discriminate|split; [reflexivity|]]].
  intros x i. unfold findU, findE. destruct (String.eqb x "qR"); [discriminate|]. destruct (String.eqb x "pR"); intros [= <-]; cbn; lia.
Qed.
(** Without sweeps and resetRes=False: the results of the other simulation are cut to their first element. *)
Example C88_ex_cut : match runE false 1 [] "pR" with
  | Ok (v, qs) => v = PL [Scal 0; Scal 1] /\ results oldE 3 "n" = Some (PL [Scal 1; Scal 2; Scal 3]) /\ results qs 3 "n" = Some (Scal 1)
  | _ => False
  end.
Proof. vm_compute. repeat split. Qed.

(** The run of C87_ex, with its end: what is returned is the grid of the lists of states. *)
Example C88_ex_trajectories : match bind (runS gsS None ([], 0)) (runEnd (fun k => if String.eqb k "st" then Some 0 else None) 0 "st") with
  | Ok (v, qs) => pget v [1; 2] = Some (PL [Scal [9]; Scal [200; 1; 9]; Scal [200; 2; 200; 1; 9]])%Z /\ states qs 0 "st" = Some v
  | _ => False
  end.
Proof. vm_compute. auto. Qed.

(** A simulation whose protocols keep no state under its key returns an empty list, and that empty list is then one of its states: run() and then
    run(resetRes=False) fails, although run() twice does not. *)
Theorem C88_empty_refuted : exists q1, runE true 1 [] "simR" = Ok (PL [], q1) /\ states q1 0 "simR" = Some (PL []) /\
  runAll (fun _ a _ => a) findE false pointE 1 [] 0 "simR" q1 = Err IndexError /\
  runAll (fun _ a _ => a) findE true pointE 1 [] 0 "simR" q1 = Ok (PL [], q1).
Proof.
  destruct (runE true 1 [] "simR") as [[v q]|] eqn:E; vm_compute in E; [|discriminate]. injection E as <- <-.
  eexists. split; [reflexivity|]. vm_compute. repeat split.
Qed.

Print Assumptions C88_end.
Print Assumptions C88_unknown.
Print Assumptions C88_sweep.
Print Assumptions C88_single.
Print Assumptions C88_forgets.
Print Assumptions C88_others.
Print Assumptions C88_others_first.
Print Assumptions C88_trajectories.
Print Assumptions C88_empty_refuted.
