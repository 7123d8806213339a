(** C87: every point of a run with sweeps is a run of its own. *)
From Coq Require Import QArith Lia Permutation.
From Verif Require Import Py TimeModel ProtModel ProtSpec ProtProofs TimeDepModel TimeDepSpec TimeDepProofs PropsTimeDep
  SweepModel SweepSpec SweepProofs ResModel ResSpec ResProofs PropsRes SweepRunModel SweepRunSpec SweepRunProofs.
#[local] Open Scope nat_scope.

Section Run.
Variables M V State A : Type.
Variable mul : M -> M -> M.
Variable one : M.
Variable adj : M -> M.
Variable shape : M -> nat * nat.
Variable veq : V -> V -> bool.
Variable leafU : (nat -> V) -> nat -> M.
Variable dep : nat -> list nat.
Variable updates : nat -> list nat.
Variable u_first : nat -> nat.
Variable u_rest : nat -> list nat.
Variable u_val : nat -> V.
Variable fixed : nat -> bool.
Variable act : M -> State -> State.
Variable tdf : nat -> option (Q -> list (nat * V)).
Variable superOf : nat -> option sysT.
Variable avg : nat -> A -> A -> A.
Variable par : target -> option nat.
Variable init : (nat -> V) -> nat -> State.
Variable comp : (nat -> V) -> nat -> (nat -> State) -> list (rop A).
Variable emb : State -> A.
Variable resOf : nat -> nat.
Variable nameOf : nat -> string.
Variable keepStates : nat -> bool.
Variable rs : list node.
Variable top : node -> sysT.
Variable gs : list (group V).
Notation st := (ProtModel.st M V).
Notation fresh := (fresh M V mul one adj leafU updates u_first u_rest u_val).
Notation atTime := (atTime V tdf).
Notation notTimed := (notTimed V tdf rs top).
Notation isAt := (isAt V par gs).
Notation pointRun := (pointRun M V State A mul one adj shape veq leafU dep updates u_first u_rest u_val fixed act tdf superOf
  par init comp emb resOf nameOf keepStates).
Notation fullRun := (fullRun M V State A mul one adj shape veq leafU dep updates u_first u_rest u_val fixed act tdf superOf
  avg par init comp emb resOf nameOf keepStates).
Notation fullPar := (fullPar M V State A mul one adj shape veq leafU dep updates u_first u_rest u_val fixed act tdf superOf
  avg par init comp emb resOf nameOf keepStates).
Notation usable := (usable M V mul one veq leafU dep updates u_first u_rest fixed tdf superOf rs top).
Notation record := (record V State A comp emb resOf nameOf keepStates).

(** The sweeps: there are some, every group has enough values, and no two targets are the same
    parameter.  The initial states and what the compute functions record depend on parameters that
    no function of time sets, and on the states of the protocols. *)
Definition sweepable : Prop :=
  gs <> [] /\ Forall long_enough gs /\ (forall t t' p, par t = Some p -> par t' = Some p -> t = t') /\
  (forall e e' n, In n rs -> (forall p, notTimed p -> e p = e' p) -> init e (nid n) = init e' (nid n)) /\
  (forall e e' k c c', (forall p, notTimed p -> e p = e' p) -> (forall n, In n rs -> c (nid n) = c' (nid n)) ->
     comp e k c = comp e' k c').

Section One.
Variable lim : nat.
Variable h : heap.
Variable m : nat.
Variable d : Q.
Hypothesis F : allFollow superOf rs lim h m.
Hypothesis O : ownSize h m d.
Lemma clock : forall i idx n o y, In n rs -> In o (allids n) -> superOf o = Some y ->
  currentTime lim h (set idx m (Z.of_nat i)) (simOf y) = (d * inject_Z (Z.of_nat (S i)))%Q.
Proof.
  intros i ix p o y Hp Ho Hy. destruct (F p o y Hp Ho Hy) as (l & L & Fl).
  rewrite (C86_time lim h m l (simOf y) d _ Fl L O). unfold set. rewrite Nat.eqb_refl. now rewrite Nat2Z.inj_succ.
Qed.
End One.

(** A run without sweeps with new protocols: what is recorded is, time by time, that of the states
    that start at the initial state and follow the unitaries of the protocol. *)
Theorem C87_alone : forall lim h m d n idx (s : st), usable -> unused M V s -> allFollow superOf rs lim h m -> ownSize h m d ->
  exists tr idx' s', pointRun lim h m n rs [] [] idx s 0 = Ok (record (env s) rs 0 (init (env s) :: tr), idx', s') /\
    List.length tr = n /\
    forall k p, k < n -> In p rs -> exists e, atTime (top p) (d * inject_Z (Z.of_nat (S k)))%Q (env s) e /\
      nth (S k) (init (env s) :: tr) (init (env s)) (nid p) = act (fresh e p) (nth k (init (env s) :: tr) (init (env s)) (nid p)).
Proof.
  intros lim h m d n idx s U N F O.
  destruct (C86_run M V State mul one adj shape veq leafU dep updates u_first u_rest u_val fixed act tdf superOf rs top
    lim h m d n idx (init (env s)) s U N F O) as (tr & idx' & s' & E & L & T).
  exists tr, idx', s'. split; [|split; [exact L|exact T]]. unfold SweepRunModel.pointRun. cbn [SweepRunModel.runPointS].
  rewrite E. reflexivity.
Qed.

(** The states stored for a protocol, at the initial time and after every step. *)
Lemma stored_app (l l' : list (rop A)) i k : storedStates (l ++ l') i k = storedStates l i k ++ storedStates l' i k.
Proof.
  induction l as [|o l IH]; [reflexivity|]. cbn. destruct o; auto. destruct (_ && _)%bool; cbn; now rewrite IH.
Qed.
Theorem C87_stored : forall p e cs k, In p rs -> keepStates (nid p) = true -> NoDup (map nid rs) ->
  (forall q, In q rs -> resOf (nid q) = resOf (nid p) -> nameOf (nid q) = nameOf (nid p) -> nid q = nid p) ->
  (forall e k c, storedStates (comp e k c) (resOf (nid p)) (nameOf (nid p)) = []) ->
  storedStates (record e rs k cs) (resOf (nid p)) (nameOf (nid p)) = map (fun c => Scal (emb (c (nid p)))) cs.
Proof.
  intros p e cs k Hp Kp ND Uq Cq. revert k.
  assert (G : forall c, storedStates (stateOps State A emb resOf nameOf keepStates rs c) (resOf (nid p)) (nameOf (nid p)) = [Scal (emb (c (nid p)))]).
  { intros c. unfold stateOps.
    assert (Z : forall l, incl l rs -> ~ In (nid p) (map nid l) ->
       storedStates (map (fun q => ResModel.State (resOf (nid q)) (nameOf (nid q)) (Scal (emb (c (nid q))))) (filter (fun q => keepStates (nid q)) l))
         (resOf (nid p)) (nameOf (nid p)) = []).
    { induction l as [|q l IH]; intros Hl Np; [reflexivity|]. cbn [filter].
      assert (IH' := IH (fun x X => Hl x (or_intror X)) (fun X => Np (or_intror X))).
      destruct (keepStates (nid q)); [|exact IH']. cbn [map storedStates].
      destruct (Nat.eqb_spec (resOf (nid q)) (resOf (nid p))) as [E1|]; [|exact IH'].
      destruct (String.eqb_spec (nameOf (nid q)) (nameOf (nid p))) as [E2|]; [|exact IH']. exfalso. apply Np. left.
      apply Uq; auto. apply Hl. now left. }
    assert (H : forall l, incl l rs -> NoDup (map nid l) -> In p l ->
       storedStates (map (fun q => ResModel.State (resOf (nid q)) (nameOf (nid q)) (Scal (emb (c (nid q))))) (filter (fun q => keepStates (nid q)) l))
         (resOf (nid p)) (nameOf (nid p)) = [Scal (emb (c (nid p)))]).
    { induction l as [|q l IH]; intros Hl Nl Hin; [destruct Hin|]. inversion Nl as [|? ? Nq Nl' E]; subst. cbn [filter].
      destruct (Nat.eq_dec (nid q) (nid p)) as [E|E].
      - rewrite E, Kp. cbn [map storedStates]. rewrite E, Nat.eqb_refl, String.eqb_refl. cbn [andb]. f_equal.
        apply Z; [intros x X; apply Hl; now right|now rewrite <- E].
      - destruct Hin as [->|Hin]; [congruence|]. assert (IH' := IH (fun x X => Hl x (or_intror X)) Nl' Hin).
        destruct (keepStates (nid q)); [|exact IH']. cbn [map storedStates].
        destruct (Nat.eqb_spec (resOf (nid q)) (resOf (nid p))) as [E1|]; [|exact IH'].
        destruct (String.eqb_spec (nameOf (nid q)) (nameOf (nid p))) as [E2|]; [|exact IH']. exfalso. apply E.
        apply Uq; auto. apply Hl. now left. }
    apply H; auto. apply incl_refl. }
  induction cs as [|c cs IH]; intros k; [reflexivity|]. cbn [SweepRunModel.record map]. rewrite !stored_app, G, Cq, IH. reflexivity.
Qed.

(** The run with sweeps: the results are those of a list of points (of which C15 says where they
    are kept), and what is recorded at a point is what a run without sweeps records that starts
    with new protocols and the parameters of the point, whatever ran before it.  The same holds for
    a second run. *)
Theorem C87_sweep : forall lim h m d n (s : st), usable -> sweepable -> unused M V s -> allFollow superOf rs lim h m -> ownSize h m d ->
  exists point : nat -> list (rop A),
    (forall idx, in_grid (sizes gs) idx -> exists se, unused M V se /\ isAt idx (env s) (env se)) /\
    (forall idx se ixe, in_grid (sizes gs) idx -> unused M V se -> isAt idx (env s) (env se) ->
       exists ixe' se', pointRun lim h m n rs [] [] ixe se 0 = Ok (point (rank (sizes gs) idx), ixe', se')) /\
    (forall old ix qs sched, Permutation sched (seq 0 (prod (sizes gs))) ->
       fullPar lim h m n rs (flatten gs) old ix s qs sched =
       paralEvol avg point sched (prod (sizes gs)) (rev (sizes gs)) (resetAll qs)) /\
    forall old ix qs,
      bind (fullRun lim h m n rs (flatten gs) old ix s qs) (fun x => Ok (fst (fst x))) =
        runRes avg true point (prod (sizes gs)) (rev (sizes gs)) qs /\
      forall qs' ix' s', fullRun lim h m n rs (flatten gs) old ix s qs = Ok (qs', ix', s') -> forall old2 qs2,
        bind (fullRun lim h m n rs (flatten gs) old2 ix' s' qs2) (fun x => Ok (fst (fst x))) =
          runRes avg true point (prod (sizes gs)) (rev (sizes gs)) qs2.
Proof.
  intros lim h m d n s (H1 & H2 & H3 & H4 & H5 & H6 & H7 & H8 & H9 & H10 & H11) (S1 & S2 & S3 & S4 & S5) U F O.
  pose proof (clock lim h m d F O) as C.
  assert (I : AllInv M V mul one adj leafU updates u_first u_rest u_val rs s) by (intros r _ e1 w _ _; left; apply U).
  pose (point := fun i => match pointRun lim h m n rs (flatten gs) (rev (sizes gs)) (fun _ => (-1)%Z) s i with
                          | Ok (ops, _, _) => ops | Err _ => [] end).
  assert (X : forall idx, in_grid (sizes gs) idx -> exists se, unused M V se /\ isAt idx (env s) (env se)).
  { intros idx G. destruct (point_env M V mul one adj shape veq leafU dep updates u_first u_rest u_val fixed tdf par
      H1 H4 H5 H2 H3 rs H6 top S3 gs S1 S2 idx s s G I) as (s1 & _ & _ & _ & E); [reflexivity|].
    exists (St (env s1) (flag s) (fun _ => None) (mhc s) (mem s)). split; [intros o; reflexivity|exact E]. }
  pose proof (fun ix idx se ixe => point_ok M V State A mul one adj shape veq leafU dep updates u_first u_rest u_val fixed act tdf superOf avg par
    init comp emb resOf nameOf keepStates H1 H4 H5 H2 H3 rs H6 top H7 H8 H9 H10 H11 S3 gs S1 S2 S4 S5 lim h m d C n idx s s ix se ixe) as PO.
  assert (Y : forall idx se ixe, in_grid (sizes gs) idx -> unused M V se -> isAt idx (env s) (env se) ->
       exists ixe' se', pointRun lim h m n rs [] [] ixe se 0 = Ok (point (rank (sizes gs) idx), ixe', se')).
  { intros idx se ixe G Ue E. destruct (PO (fun _ => (-1)%Z) idx se ixe G I (fun _ _ _ => eq_refl) Ue E)
      as (ops & ix' & s' & ixe' & se' & P1 & P2 & _). exists ixe', se'. unfold point. rewrite P1. exact P2. }
  assert (L : forall idx, in_grid (sizes gs) idx -> exists se ixe ixe' se', unused M V se /\ isAt idx (env s) (env se) /\
     pointRun lim h m n rs [] [] ixe se 0 = Ok (point (rank (sizes gs) idx), ixe', se')).
  { intros idx G. destruct (X idx G) as (se & Ue & E). destruct (Y idx se (fun _ => (-1)%Z) G Ue E) as (ixe' & se' & P).
    exists se, (fun _ => (-1)%Z), ixe', se'. auto. }
  assert (R : forall s1, AllInv M V mul one adj leafU updates u_first u_rest u_val rs s1 ->
     (forall p, notTimed p -> unswept V par gs p -> env s1 p = env s p) -> forall old ix qs,
     bind (fullRun lim h m n rs (flatten gs) old ix s1 qs) (fun x => Ok (fst (fst x))) =
        runRes avg true point (prod (sizes gs)) (rev (sizes gs)) qs).
  { intros s1 I1 B1 old ix qs. unfold SweepRunModel.fullRun. rewrite prepare_spec by exact S1. unfold runRes, nonParalEvol.
    rewrite <- (loop_ok M V State A mul one adj shape veq leafU dep updates u_first u_rest u_val fixed act tdf superOf avg par
      init comp emb resOf nameOf keepStates H1 H4 H5 H2 H3 rs H6 top H7 H8 H9 H10 H11 S3 gs S1 S2 S4 S5 lim h m d C n s point L
      (seq 0 (prod (sizes gs))) (fun i Hi => proj2 (proj1 (in_seq _ _ _) Hi)) ix s1 (resetAll qs) I1 B1).
    destruct (SweepRunModel.fullLoop _ _ _ _ _ _ _ _ _ _ _ _ _ _ _ _ _ _ _ _ _ _ _ _ _ _ _ _ _ _ _ _ _ _ _ _ _ _) as [[[q ix1] s2]|]; cbn [bind fst snd]; [|reflexivity].
    destruct (finaliseAll _ q); reflexivity. }
  exists point. split; [exact X|split; [exact Y|split]].
  - intros old ix qs sched P. unfold SweepRunModel.fullPar. rewrite prepare_spec by exact S1. unfold paralEvol. do 2 f_equal.
    assert (Hs : forall i, In i sched -> i < prod (sizes gs)) by (intros i Hi; apply (Permutation_in _ P) in Hi; apply in_seq in Hi; lia).
    clear P. generalize (fun _ : nat => @None (result (list (list (string * pv A) * list (string * pv A))))). 
    induction sched as [|i sched IH]; intros tb; [reflexivity|]. cbn [SweepRunModel.executeF execute].
    assert (T : SweepRunModel.fullTask M V State A mul one adj shape veq leafU dep updates u_first u_rest u_val fixed act tdf superOf
        avg par init comp emb resOf nameOf keepStates lim h m n rs (flatten gs) (rev (sizes gs)) ix s (resetAll qs) i = task avg point (resetAll qs) i).
    { unfold SweepRunModel.fullTask, task.
      destruct (indices_grid (sizes gs) i (Hs i (or_introl eq_refl))) as (idx & _ & G & <-). destruct (X idx G) as (se & Ue & E).
      destruct (PO ix idx se ix G I (fun _ _ _ => eq_refl) Ue E) as (ops & ix' & s' & ixe' & se' & P1 & P2 & _).
      destruct (Y idx se ix G Ue E) as (? & ? & P3). rewrite P2 in P3. injection P3 as -> _ _. rewrite P1. reflexivity. }
    rewrite T. apply IH. intros j Hj. apply Hs. now right.
  - intros old ix qs. split; [now apply R|]. intros qs' ix' s' E old2 qs2. revert E. unfold SweepRunModel.fullRun at 1. rewrite prepare_spec by exact S1.
    destruct (SweepRunModel.fullLoop _ _ _ _ _ _ _ _ _ _ _ _ _ _ _ _ _ _ _ _ _ _ _ _ _ _ _ _ _ _ _ _ _ _ _ _ _ _) as [[[q ix1] s2]|] eqn:EL; cbn [bind fst snd]; [|discriminate].
    destruct (finaliseAll _ q); cbn [bind]; [|discriminate]. intros E. injection E as <- <- <-.
    destruct (loop_inv M V State A mul one adj shape veq leafU dep updates u_first u_rest u_val fixed act tdf superOf avg par
      init comp emb resOf nameOf keepStates H1 H4 H5 H2 H3 rs H6 top H7 H8 H9 H10 H11 S3 gs S1 S2 S4 S5 lim h m d C n s X
      (seq 0 (prod (sizes gs))) (fun i Hi => proj2 (proj1 (in_seq _ _ _) Hi)) ix s (resetAll qs) q ix1 s2 I (fun _ _ _ => eq_refl) EL) as (I2 & B2).
    now apply R.
Qed.

(** With a pool of processes, in whatever order the points are run, the results are the same. *)
Theorem C87_parallel : forall lim h m d n (s : st) old ix qs sched, usable -> sweepable -> unused M V s -> allFollow superOf rs lim h m ->
  ownSize h m d -> Permutation sched (seq 0 (prod (sizes gs))) ->
  match fullRun lim h m n rs (flatten gs) old ix s qs, fullPar lim h m n rs (flatten gs) old ix s qs sched with
  | Ok (r, _, _), Ok r' => map observable r = map observable r'
  | Err _, Err _ => True
  | _, _ => False
  end.
Proof.
  intros lim h m d n s old ix qs sched U S N F O P.
  assert (Hc : forall q k v, In q (resetAll qs) -> dget (q_calc q) k = Some v -> exists l, v = PL l).
  { intros q k v Hq. unfold resetAll in Hq. apply in_map_iff in Hq. destruct Hq as (? & <- & _). discriminate. }
  destruct (C87_sweep lim h m d n s U S N F O) as (point & _ & _ & R1 & R2).
  rewrite (R1 old ix qs sched P). destruct (R2 old ix qs) as (R3 & _). unfold runRes in R3.
  pose proof (C17_multiprocess_equals_single A avg point sched (prod (sizes gs)) (rev (sizes gs)) (resetAll qs) P Hc) as C.
  rewrite <- R3 in C. destruct (SweepRunModel.fullRun _ _ _ _ _ _ _ _ _ _ _ _ _ _ _ _ _ _ _ _ _ _ _ _ _ _ _ _ _ _ _ _ _ _ _ _ _) as [[[r ?] ?]|]; exact C.
Qed.

(** The keys that the compute functions use do not depend on the point. *)
Definition tag (o : rop A) : nat * nat * string :=
  match o with Single i k _ => (0, i, k) | Avg i k _ => (1, i, k) | ResModel.State i k _ => (2, i, k) | Calc i k _ => (3, i, k) end.
Definition sameKeys : Prop := forall e e' k c c', map tag (comp e k c) = map tag (comp e' k c').

Lemma tag_record e e' cs : sameKeys -> forall cs' k, List.length cs = List.length cs' ->
  map tag (record e rs k cs) = map tag (record e' rs k cs').
Proof.
  intros K. induction cs as [|c cs IH]; intros [|c' cs'] k L; try discriminate; [reflexivity|]. cbn [SweepRunModel.record].
  rewrite !map_app, (K e e' k c c'), (IH cs' (S k)) by (now injection L). f_equal. unfold stateOps. rewrite !map_map. reflexivity.
Qed.
Lemma tag_singles (l l' : list (rop A)) i k : map tag l = map tag l' -> (singles l i k = [] <-> singles l' i k = []) /\
  (averaged l i k = [] <-> averaged l' i k = []) /\ (storedStates l i k = [] <-> storedStates l' i k = []).
Proof.
  revert l'. induction l as [|o l IH]; intros [|o' l'] E; try discriminate; [tauto|]. cbn [map] in E. injection E as E1 E2. specialize (IH _ E2).
  destruct o, o'; cbn [tag] in E1; try discriminate; injection E1 as <- <-; cbn [singles averaged storedStates];
    try (match goal with |- context [if ?b then _ else _] => destruct b end); try tauto;
    repeat split; (intros; discriminate) || tauto.
Qed.

(** The states a user finds after the run: states[name][i1]...[ik] of a protocol is the list of its
    states, at the initial time and after every step, in a run without sweeps with the parameters
    of the point (i1, ..., ik). *)
Theorem C87_states : forall lim h m d n (s : st) p, usable -> sweepable -> unused M V s -> allFollow superOf rs lim h m -> ownSize h m d ->
  In p rs -> keepStates (nid p) = true -> NoDup (map nid rs) ->
  (forall q, In q rs -> resOf (nid q) = resOf (nid p) -> nameOf (nid q) = nameOf (nid p) -> nid q = nid p) ->
  (forall e k c, storedStates (comp e k c) (resOf (nid p)) (nameOf (nid p)) = []) ->
  sameKeys -> (forall e cs, ResSpec.separate (record e rs 0 cs)) ->
  0 < prod (sizes gs) ->
  forall old ix qs, (forall q, In q rs -> resOf (nid q) < List.length qs) ->
  (forall e k c o, In o (comp e k c) -> op_index o < List.length qs) ->
  exists qs' ix' s' q v, fullRun lim h m n rs (flatten gs) old ix s qs = Ok (qs', ix', s') /\
    nth_error qs' (resOf (nid p)) = Some q /\ dget (q_states q) (nameOf (nid p)) = Some v /\ has_shape (sizes gs) v /\
    forall idx se ixe, in_grid (sizes gs) idx -> unused M V se -> isAt idx (env s) (env se) ->
      exists tr ixe' se',
        evolveRun M V State mul one adj shape veq leafU dep updates u_first u_rest u_val fixed act tdf superOf lim h m n rs ixe (init (env se)) se
          = Ok (tr, ixe', se') /\ List.length tr = n /\
        pget v idx = Some (alone (PL (map (fun c => Scal (emb (c (nid p)))) (init (env se) :: tr)))).
Proof.
  intros lim h m d n s p U S N F O Hp Kp ND Uq Cq SK Sep Pos old ix qs HN HC.
  destruct (C87_sweep lim h m d n s U S N F O) as (point & X & Y & _ & R2). destruct (R2 old ix qs) as (R3 & _). clear R2.
  assert (Z : forall idx se ixe, in_grid (sizes gs) idx -> unused M V se -> isAt idx (env s) (env se) ->
    exists tr ixe' se', evolveRun M V State mul one adj shape veq leafU dep updates u_first u_rest u_val fixed act tdf superOf lim h m n rs ixe (init (env se)) se
          = Ok (tr, ixe', se') /\ List.length tr = n /\ point (rank (sizes gs) idx) = record (env se) rs 0 (init (env se) :: tr)).
  { intros idx se ixe G Ue E. destruct (C86_run M V State mul one adj shape veq leafU dep updates u_first u_rest u_val fixed act tdf superOf rs top
      lim h m d n ixe (init (env se)) se U Ue F O) as (tr & ixe' & se' & Ev & L & _). exists tr, ixe', se'. split; [exact Ev|split; [exact L|]].
    destruct (Y idx se ixe G Ue E) as (? & ? & P). unfold SweepRunModel.pointRun in P. cbn [SweepRunModel.runPointS] in P. rewrite Ev in P.
    cbn [bind fst snd] in P. now injection P. }
  assert (Zi : forall i, i < prod (sizes gs) -> exists e cs, List.length cs = Datatypes.S n /\ point i = record e rs 0 cs).
  { intros i Hi. destruct (indices_grid (sizes gs) i Hi) as (idx & _ & G & <-). destruct (X idx G) as (se & Ue & E).
    destruct (Z idx se (fun _ => 0%Z) G Ue E) as (tr & ? & ? & _ & L & P). exists (env se), (init (env se) :: tr). split; [cbn; now rewrite L|exact P]. }
  assert (Fi : forall e cs k, Forall (fun o => op_index o < List.length qs) (record e rs k cs)).
  { intros e. induction cs as [|c cs IH]; intros k; [constructor|]. cbn [SweepRunModel.record]. apply Forall_app. split; [|apply Forall_app; split; auto].
    - apply Forall_forall. intros o Ho. unfold stateOps in Ho. apply in_map_iff in Ho. destruct Ho as (q & <- & Hq). apply filter_In in Hq. cbn. apply HN. tauto.
    - apply Forall_forall. intros o. apply HC. }
  assert (T : forall i j, i < prod (sizes gs) -> j < prod (sizes gs) -> map tag (point i) = map tag (point j)).
  { intros i j Hi Hj. destruct (Zi i Hi) as (e & cs & L & ->). destruct (Zi j Hj) as (e' & cs' & L' & ->). apply tag_record; auto. congruence. }
  assert (AN : forall f : list (rop A) -> option (pv A), (forall i j, i < prod (sizes gs) -> j < prod (sizes gs) -> f (point i) = None -> f (point j) = None) ->
    all_or_none (fun i => f (point i)) (prod (sizes gs))).
  { intros f Hf. destruct (Nat.eq_dec (prod (sizes gs)) 0) as [E|E]; [left; intros i Hi; lia|].
    destruct (f (point 0)) eqn:E0; [left; intros i Hi E1|right; intros i Hi].
    - specialize (Hf i 0 Hi ltac:(lia) E1). congruence.
    - apply (Hf 0 i); auto. }
  assert (gs0 : sizes gs <> []) by (destruct S as (S1 & _); destruct gs; [congruence|discriminate]).
  destruct (C15_results_match_points A avg point (sizes gs) qs gs0) as (qs' & E & L & H).
  { intros i Hi. destruct (Zi i Hi) as (e & cs & _ & ->). auto. }
  { intros i k. apply (AN (fun l => recorded avg l i k)). intros a b Ha Hb.
    destruct (tag_singles (point a) (point b) i k (T a b Ha Hb)) as (A1 & A2 & _). unfold recorded, run_avg.
    destruct (singles (point a) i k); [|discriminate]. rewrite (proj1 A1 eq_refl).
    destruct (averaged (point a) i k); [|discriminate]. now rewrite (proj1 A2 eq_refl). }
  { intros i k. apply (AN (fun l => recordedState l i k)). intros a b Ha Hb.
    destruct (tag_singles (point a) (point b) i k (T a b Ha Hb)) as (_ & _ & A3). unfold recordedState.
    destruct (storedStates (point a) i k); [|discriminate]. now rewrite (proj1 A3 eq_refl). }
  rewrite E in R3. destruct (fullRun lim h m n rs (flatten gs) old ix s qs) as [[[r ix'] s']|]; [|discriminate]. cbn in R3. injection R3 as ->.
  destruct (nth_error qs' (resOf (nid p))) as [q|] eqn:Eq.
  2:{ exfalso. apply nth_error_None in Eq. specialize (HN p Hp). lia. }
  destruct (H _ q Eq) as (_ & _ & Hk). destruct (Hk (nameOf (nid p))) as (_ & [(v & V1 & V2 & V3)|(_ & V2)]).
  - exists qs', ix', s', q, v. repeat split; auto. intros idx se ixe G Ue Es. destruct (Z idx se ixe G Ue Es) as (tr & ixe' & se' & Ev & Lt & P).
    exists tr, ixe', se'. split; [exact Ev|split; [exact Lt|]]. destruct (V3 idx G) as (x & X1 & ->).
    unfold recordedState in X1. rewrite P, (C87_stored p (env se) (init (env se) :: tr) 0 Hp Kp ND Uq Cq) in X1. cbn [map] in X1 |- *. now injection X1 as <-.
  - exfalso. destruct (Zi 0 Pos) as (e & cs & Lc & P). specialize (V2 0 Pos). unfold recordedState in V2.
    rewrite P, (C87_stored p e cs 0 Hp Kp ND Uq Cq) in V2. destruct cs; discriminate.
Qed.
End Run.

(** *** A concrete run: the unitary of leaf 10 is the list of the parameters 0 and 1; parameter 0 is
    the time; parameters 1 and 2 are swept, one after the other, and 2 is the initial state.  States
    are the lists of all values applied. *)
Definition leafS (e : nat -> Z) (o : nat) : list Z := if Nat.eqb o 10 then [e 1; e 0] else [].
Definition depS (p : nat) : list nat := if Nat.ltb p 2 then [10] else [].
Definition parS (t : target) : option nat :=
  match t with
  | TAttr 0 x => if String.eqb x "t" then Some 0 else if String.eqb x "w" then Some 1 else if String.eqb x "x" then Some 2 else None
  | _ => None
  end.
Definition gsS : list (group Z) := [Group ([100; 200]%Z, [TAttr 0 "w"]) []; Group ([7; 8; 9]%Z, [TAttr 0 "x"]) []].
Definition initS (e : nat -> Z) (o : nat) : list Z := [e 2].
Definition compS (e : nat -> Z) (k : nat) (c : nat -> list Z) : list (rop (list Z)) := [Single 0 "copy" (Scal (c 10))].
Definition runS (gs : list (group Z)) (sched : option (list nat)) (old : list nat * nat) : result (list (qres (list Z))) :=
  let h := TimeModel.history 100 [Set_ 0 KSize 1; Bind false 1 0] in
  let args := flatten gs in
  match sched with
  | None => bind (fullRun (list Z) Z (list Z) (list Z) (fun a b => a ++ b) [] (fun a => a) (fun _ => (1, 1)) Z.eqb leafS
      depS (fun _ => []) (fun _ => 0) (fun _ => []) (fun _ => 50%Z) (fun _ => false)
      (fun u s => u ++ s) tdfW superW (fun _ a _ => a) parS initS compS (fun s => s) (fun _ => 0) (fun _ => "st"%string) (fun _ => true)
      100 h 0 2 [Leaf 10] args old (fun _ => (-1)%Z) sW [qblank]) (fun x => Ok (fst (fst x)))
  | Some sc => fullPar (list Z) Z (list Z) (list Z) (fun a b => a ++ b) [] (fun a => a) (fun _ => (1, 1)) Z.eqb leafS
      depS (fun _ => []) (fun _ => 0) (fun _ => []) (fun _ => 50%Z) (fun _ => false)
      (fun u s => u ++ s) tdfW superW (fun _ a _ => a) parS initS compS (fun s => s) (fun _ => 0) (fun _ => "st"%string) (fun _ => true)
      100 h 0 2 [Leaf 10] args old (fun _ => (-1)%Z) sW [qblank] sc
  end.
Example C87_ex : match runS gsS None ([], 0) with
  | Ok [q] => match dget (q_states q) "st" with
              | Some v => pget v [1; 2] = Some (PL [Scal [9]; Scal [200; 1; 9]; Scal [200; 2; 200; 1; 9]])%Z /\
                          pget v [0; 0] = Some (PL [Scal [7]; Scal [100; 1; 7]; Scal [100; 2; 100; 1; 7]])%Z /\
                          dget (q_results q) "copy" = Some v
              | None => False
              end
  | _ => False
  end.
Proof. vm_compute. auto. Qed.
Example C87_ex_parallel : match runS gsS None ([], 0), runS gsS (Some [3; 0; 5; 1; 4; 2]) ([], 0) with
  | Ok [q], Ok [q'] => observable q = observable q'
  | _, _ => False
  end.
Proof. vm_compute. reflexivity. Qed.
Example C87_ex_usable : usable (list Z) Z (fun a b => a ++ b) [] Z.eqb leafS depS
    (fun _ => []) (fun _ => 0) (fun _ => []) (fun _ => false) tdfW superW [Leaf 10] (fun _ => Sys 1 [] [5]) /\
  sweepable Z (list Z) (list Z) tdfW parS initS compS [Leaf 10] (fun _ => Sys 1 [] [5]) gsS /\
  sameKeys Z (list Z) (list Z) compS /\ 0 < prod (sizes gsS).
Proof.
  assert (G : forall t p v, gives Z tdfW (Sys 1 [] [5]) t p v <-> p = 0 /\ v = Qnum t).
  { intros t p v. split.
    - intros (ter & f & T & E & I). inversion T as [? ? ? H|? ? ? ? H]; subst; [|contradiction].
      destruct H as [<-|[]]. injection E as <-. destruct I as [I|[]]. injection I as <- <-. auto.
    - intros (-> & ->). exists 5, (fun t => [(0, Qnum t)]). split; [apply term_here; now left|]. split; [reflexivity|now left]. }
  split; [|split; [|split]].
  - unfold usable. split; [|split; [|split; [|split; [|split; [|split; [|split; [|split; [|split; [|split]]]]]]]]].
    + intros; apply Z.eqb_eq.
    + apply app_nil_r.
    + reflexivity.
    + split; [reflexivity|split; [constructor|]]. intros o o' u [].
    + intros e e' o H. unfold leafS. destruct (Nat.eqb_spec o 10); subst; auto. f_equal; [|f_equal]; apply H; now left.
    + split; [intros n [<-|[]]; constructor|]. constructor; [intros []|constructor].
    + intros n [<-|[]]. reflexivity.
    + intros n _. split.
      * intros t p v v' A B. apply G in A, B. destruct A, B. congruence.
      * intros t t' p v A. apply G in A. destruct A as [-> _]. exists (Qnum t'). now apply G.
    + intros n o y [<-|[]] [<-|[]] E. injection E as <-. constructor.
    + intros n o u t v _ _ [].
    + intros n n' t p v o _ _ A _ _. now exists v.
  - split; [discriminate|]. split; [repeat constructor|]. split; [|split].
    + intros [[|a] x|x] [[|a'] x'|x'] p; unfold parS; try discriminate.
      destruct (String.eqb_spec x "t"), (String.eqb_spec x "w"), (String.eqb_spec x "x"), (String.eqb_spec x' "t"), (String.eqb_spec x' "w"),
        (String.eqb_spec x' "x"); subst; congruence.
    + intros e e' n _ H. unfold initS. f_equal. apply H. intros n' t v _ X. apply G in X. destruct X. discriminate.
    + intros e e' k c c' _ H. unfold compS. do 3 f_equal. apply (H (Leaf 10)). now left.
  - intros e e' k c c'. reflexivity.
  - cbn. lia.
Qed.

(** A sweep of a parameter that a function of time sets has no effect: all points are the same. *)
Theorem C87_timed_refuted : match runS [Group ([5; 6]%Z, [TAttr 0 "t"]) []] None ([], 0) with
  | Ok [q] => match dget (q_states q) "st" with
              | Some v => pget v [0] = Some (PL [Scal [7]; Scal [7; 1; 7]; Scal [7; 2; 7; 1; 7]])%Z /\ pget v [1] = pget v [0]
              | None => False
              end
  | _ => False
  end.
Proof. vm_compute. auto. Qed.

Print Assumptions C87_alone.
Print Assumptions C87_stored.
Print Assumptions C87_sweep.
Print Assumptions C87_parallel.
Print Assumptions C87_states.
