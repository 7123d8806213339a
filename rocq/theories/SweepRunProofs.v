(** Proofs for C87. *)
From Coq Require Import QArith Lia.
From Verif Require Import Py TimeModel ProtModel ProtSpec ProtProofs TimeDepModel TimeDepSpec TimeDepProofs
  SweepModel SweepSpec SweepProofs ResModel SweepRunModel SweepRunSpec.
#[local] Open Scope nat_scope.

Section P.
Variables M V State A : Type.
Variable mul : M -> M -> M.
Variable one : M.
Variable adj : M -> M.
Variable shape : M -> nat * nat.
Variable veq : V -> V -> bool.
Variable leafU : (nat -> V) -> nat -> M.
Variable dep : nat -> list nat.
Variable updates : nat -> list nat.
Variable u_first : nat -> nat.
Variable u_rest : nat -> list nat.
Variable u_val : nat -> V.
Variable fixed : nat -> bool.
Variable act : M -> State -> State.
Variable tdf : nat -> option (Q -> list (nat * V)).
Variable superOf : nat -> option sysT.
Variable avg : nat -> A -> A -> A.
Variable par : target -> option nat.
Variable init : (nat -> V) -> nat -> State.
Variable comp : (nat -> V) -> nat -> (nat -> State) -> list (rop A).
Variable emb : State -> A.
Variable resOf : nat -> nat.
Variable nameOf : nat -> string.
Variable keepStates : nat -> bool.
Notation st := (ProtModel.st M V).
Notation fresh := (fresh M V mul one adj leafU updates u_first u_rest u_val).
Notation evolveRun := (evolveRun M V State mul one adj shape veq leafU dep updates u_first u_rest u_val fixed act tdf superOf).
Notation pointRun := (pointRun M V State A mul one adj shape veq leafU dep updates u_first u_rest u_val fixed act tdf superOf
  par init comp emb resOf nameOf keepStates).
Notation fullLoop := (fullLoop M V State A mul one adj shape veq leafU dep updates u_first u_rest u_val fixed act tdf superOf
  avg par init comp emb resOf nameOf keepStates).
Notation runPointS := (runPointS M V veq dep par).
Notation runSweepS := (runSweepS M V veq dep par).
Notation assignT := (assignT M V veq dep par).
Notation record := (record V State A comp emb resOf nameOf keepStates).
Notation stateOps := (stateOps State A emb resOf nameOf keepStates).
Notation gives := (gives V tdf).
Notation atTime := (atTime V tdf).
Notation AllInv := (AllInv M V mul one adj leafU updates u_first u_rest u_val).

Hypothesis veq_eq : forall x y, veq x y = true <-> x = y.
Hypothesis simple : simple_updates updates u_first u_rest.
Hypothesis bounds : complete_bounds M V leafU dep.
Hypothesis one_r : forall m, mul m one = m.
Hypothesis not_fixed : forall o, fixed o = false.
Variable rs : list node.
Hypothesis Sep : separate rs.
Variable top : node -> sysT.
Hypothesis Top : forall n, In n rs -> superOf (nid n) = Some (top n).
Hypothesis One : forall n, In n rs -> oneValue V tdf (top n).
Hypothesis Sub : forall n o y, In n rs -> In o (allids n) -> superOf o = Some y -> within y (top n).
Hypothesis Upd : forall n o u t v, In n rs -> In o (allids n) -> In u (updates o) -> ~ gives (top n) t (u_first u) v.
Hypothesis Other : forall n n' t p v o, In n rs -> In n' rs -> gives (top n') t p v -> In o (leaves n) -> In o (dep p) ->
  exists v', gives (top n) t p v'.
Hypothesis par_inj : forall t t' p, par t = Some p -> par t' = Some p -> t = t'.
Notation notTimed := (notTimed V tdf rs top).

Lemma inv_setParam p v s : AllInv rs s -> AllInv rs (setParam M V veq dep p v s).
Proof.
  intros I. destruct (history_fresh M V mul one adj shape veq leafU dep updates u_first u_rest u_val fixed veq_eq simple bounds one_r not_fixed
    rs [OSet p v] Sep) with (s := s) as (s' & H1 & H2 & H3); auto.
  { repeat constructor. }
  cbn in H1. injection H1 as <-. exact H3.
Qed.

(** The sweeps act on the parameters as those of SweepModel.v on a store. *)
Definition rel (g : store V) (s : st) : Prop := forall t p, par t = Some p -> g t = env s p.
Lemma rel_assign g s t v : rel g s -> rel (SweepModel.assign g t v) (assignT s t v).
Proof.
  intros R t' p' H'. unfold SweepModel.assign, SweepRunModel.assignT. destruct (target_eqb_spec t' t) as [->|N].
  - rewrite H'. destruct (setParam_spec M V veq dep veq_eq p' v s) as (B & _). rewrite B. unfold ProtSpec.assign. now rewrite Nat.eqb_refl.
  - destruct (par t) as [p|] eqn:E; [|now apply R]. destruct (setParam_spec M V veq dep veq_eq p v s) as (B & _). rewrite B. unfold ProtSpec.assign.
    destruct (Nat.eqb_spec p' p) as [->|]; [|now apply R]. exfalso. apply N. now apply (par_inj t' t p).
Qed.
Lemma inv_assign s t v : AllInv rs s -> AllInv rs (assignT s t v).
Proof. intros I. unfold SweepRunModel.assignT. destruct (par t); auto. now apply inv_setParam. Qed.
(** What no target is stays. *)
Definition outside (p : nat) (sws : list (sweep V)) := forall t, par t = Some p -> forall sw, In sw sws -> ~ In t (sw_targets sw).
Lemma update_ok ts v : forall g s, rel g s -> AllInv rs s ->
  let s' := fold_left (fun s t => assignT s t v) ts s in
  rel (fold_left (fun g t => SweepModel.assign g t v) ts g) s' /\ AllInv rs s' /\
  forall p, (forall t, par t = Some p -> ~ In t ts) -> env s' p = env s p.
Proof.
  induction ts as [|t ts IH]; intros g s R I; cbn; [auto|].
  destruct (IH _ _ (rel_assign g s t v R) (inv_assign s t v I)) as (A1 & A2 & A3). split; [exact A1|split; [exact A2|]].
  intros p Hp. rewrite A3 by (intros t' H' X; apply (Hp t' H'); now right).
  unfold SweepRunModel.assignT. destruct (par t) as [q|] eqn:E; auto.
  destruct (setParam_spec M V veq dep veq_eq q v s) as (B & _). rewrite B. unfold ProtSpec.assign.
  destruct (Nat.eqb_spec p q) as [->|]; auto. exfalso. apply (Hp t E). now left.
Qed.
Lemma sweep_ok sws : forall il k g s, rel g s -> AllInv rs s ->
  snd (runSweepS sws il k s) = snd (runSweep_loop sws il k g) /\
  rel (fst (runSweep_loop sws il k g)) (fst (runSweepS sws il k s)) /\ AllInv rs (fst (runSweepS sws il k s)) /\
  forall p, outside p sws -> env (fst (runSweepS sws il k s)) p = env s p.
Proof.
  induction sws as [|sw sws IH]; intros il k g s R I; cbn [SweepRunModel.runSweepS runSweep_loop]; [auto|].
  destruct (nth_error il _) as [i|]; [|auto]. unfold runOneS, runOne. destruct (nth_error (sw_list sw) i) as [v|]; [|cbn; auto].
  destruct (update_ok (sw_targets sw) v g s R I) as (A1 & A2 & A3).
  specialize (IH il (if sw_comb sw then S k else k) _ _ A1 A2). destruct IH as (B1 & B2 & B3 & B4).
  split; [exact B1|split; [exact B2|split; [exact B3|]]]. intros p Hp. 
  rewrite <- A3. { apply B4. intros t Ht x Hx. apply Hp; auto. now right. }
  intros t Ht. apply Hp; auto. now left.
Qed.

(** ** One point *)
Variable gs : list (group V).
Hypothesis gs0 : gs <> [].
Hypothesis long : Forall long_enough gs.
Hypothesis initLocal : forall e e' n, In n rs -> (forall p, notTimed p -> e p = e' p) -> init e (nid n) = init e' (nid n).
Hypothesis compLocal : forall e e' k c c', (forall p, notTimed p -> e p = e' p) -> (forall n, In n rs -> c (nid n) = c' (nid n)) ->
  comp e k c = comp e' k c'.
Variable lim : nat.
Variable h : heap.
Variable m : nat.
Variable d : Q.
Hypothesis clock : forall i idx n o y, In n rs -> In o (allids n) -> superOf o = Some y ->
  currentTime lim h (set idx m (Z.of_nat i)) (simOf y) = (d * inject_Z (Z.of_nat (S i)))%Q.

Definition unswept (p : nat) := outside p (flatten gs).
Lemma flatten_targets t sw : In sw (flatten gs) -> In t (sw_targets sw) ->
  forall idx, List.length idx = List.length gs -> Exists (fun x => In t (snd (fst x))) (scheduled gs idx).
Proof.
  assert (G : forall b (g : group V) i rest, In sw (flatten_group b g) -> In t (sw_targets sw) ->
     Exists (fun x => In t (snd (fst x))) (map (fun f => (fst f, snd f, i : nat)) (lead g :: followers g) ++ rest)).
  { intros b g i rest H T. apply Exists_app. left. apply Exists_exists. cbn in H. destruct H as [<-|H].
    - exists (fst (lead g), snd (lead g), i). split; [now left|exact T].
    - apply in_map_iff in H. destruct H as (f & <- & H). exists (fst f, snd f, i). split; [|exact T].
      right. apply in_map_iff. exists f. auto. }
  assert (G2 : forall (l : list (group V)) idx, In sw (flat_map (flatten_group false) l) -> In t (sw_targets sw) ->
     List.length idx = List.length l -> Exists (fun x => In t (snd (fst x))) (scheduled l idx)).
  { induction l as [|g l IH]; intros [|i idx] H T L; try discriminate; [destruct H|]. cbn [flat_map] in H. apply in_app_or in H.
    destruct H as [H|H]; [now apply (G false)|]. cbn [scheduled]. apply Exists_app. right. apply IH; auto. }
  intros H T idx L. destruct gs as [|g l]; [destruct H|]. destruct idx as [|i idx]; [discriminate|].
  cbn [flatten] in H. apply in_app_or in H. destruct H as [H|H]; [now apply (G true)|].
  cbn [scheduled]. apply Exists_app. right. apply G2; auto.
Qed.
Lemma targets_flatten t idx x : In x (scheduled gs idx) -> In t (snd (fst x)) -> exists sw, In sw (flatten gs) /\ In t (sw_targets sw).
Proof.
  assert (G : forall b (g : group V) i, In x (map (fun f => (fst f, snd f, i : nat)) (lead g :: followers g)) -> In t (snd (fst x)) ->
     exists sw, In sw (flatten_group b g) /\ In t (sw_targets sw)).
  { intros b g i H T. apply in_map_iff in H. destruct H as (f & <- & [<-|H]).
    - eexists. split; [now left|exact T].
    - eexists. split; [right; apply in_map_iff; exists f; split; [reflexivity|exact H]|exact T]. }
  assert (G2 : forall (l : list (group V)) idx, In x (scheduled l idx) -> In t (snd (fst x)) ->
     exists sw, In sw (flat_map (flatten_group false) l) /\ In t (sw_targets sw)).
  { induction l as [|g l IH]; intros [|i ix] H T; [destruct H..|]. cbn [scheduled] in H. apply in_app_or in H. destruct H as [H|H].
    - destruct (G false g i H T) as (sw & H1 & H2). exists sw. split; auto. apply in_or_app. now left.
    - destruct (IH ix H T) as (sw & H1 & H2). exists sw. split; auto. apply in_or_app. now right. }
  intros H T. destruct gs as [|g l]; [destruct idx; destruct H|]. destruct idx as [|i idx]; [destruct H|]. cbn [scheduled] in H.
  apply in_app_or in H. destruct H as [H|H].
  - destruct (G true g i H T) as (sw & H1 & H2). exists sw. split; auto. apply in_or_app. now left.
  - destruct (G2 l idx H T) as (sw & H1 & H2). exists sw. split; auto. apply in_or_app. now right.
Qed.

Lemma swept_dec p : (exists t sw, par t = Some p /\ In sw (flatten gs) /\ In t (sw_targets sw)) \/ unswept p.
Proof.
  assert (D : forall ts, (exists t, par t = Some p /\ In t ts) \/ (forall t, par t = Some p -> ~ In t ts)).
  { induction ts as [|t ts [(u & U1 & U2)|H]]; [right; auto|left; exists u; split; auto; now right|].
    destruct (par t) as [q|] eqn:E; [destruct (Nat.eq_dec q p) as [->|N]|].
    - left. exists t. split; auto. now left.
    - right. intros u U [->|X]; [congruence|now apply (H u)].
    - right. intros u U [->|X]; [congruence|now apply (H u)]. }
  unfold unswept, outside. induction (flatten gs) as [|sw sws [(t & x & H1 & H2 & H3)|H]]; [right; intros ? _ ? []|..].
  - left. exists t, x. repeat split; auto. now right.
  - destruct (D (sw_targets sw)) as [(t & T1 & T2)|N].
    + left. exists t, sw. repeat split; auto. now left.
    + right. intros t T x [<-|X]; [now apply N|now apply (H t)].
Qed.

Lemma assigned_ex (sch : list (list V * list target * nat)) t : Forall (fun e => snd e < List.length (fst (fst e))) sch ->
  Exists (fun x => In t (snd (fst x))) sch -> exists v, assigned sch t v.
Proof.
  intros F. induction F as [|[[vals tg] i] sch Hi F IH]; intros X; [inversion X|].
  assert (D : Exists (fun x => In t (snd (fst x))) sch \/ Forall (fun x => ~ In t (snd (fst x))) sch).
  { clear. induction sch as [|x sch [H|H]]; [right; constructor|left; now right|].
    destruct (existsb (target_eqb t) (snd (fst x))) eqn:E; [left; left; now apply existsb_target|].
    right. constructor; auto. intros X. apply existsb_target in X. congruence. }
  destruct D as [D|D].
  - destruct (IH D) as (v & b & a & vs & tg' & j & -> & H). exists v, ((vals, tg, i) :: b), a, vs, tg', j. split; [reflexivity|exact H].
  - inversion X as [? ? H|? ? H]; subst.
    + cbn in Hi. destruct (nth_error vals i) as [v|] eqn:E; [|apply nth_error_None in E; lia].
      exists v, [], sch, vals, tg, i. repeat split; auto.
    + exfalso. apply Exists_exists in H. destruct H as (x & H1 & H2). rewrite Forall_forall in D. exact (D x H1 H2).
Qed.
Lemma point_env idx (s0 s : st) : in_grid (sizes gs) idx -> AllInv rs s ->
  (forall p, notTimed p -> unswept p -> env s p = env s0 p) ->
  exists s1, runPointS (flatten gs) (rev (sizes gs)) (rank (sizes gs) idx) s = (s1, Ok tt) /\ AllInv rs s1 /\
    (forall e, isAt V par gs idx (env s0) e -> forall p, notTimed p -> env s1 p = e p) /\ isAt V par gs idx (env s) (env s1).
Proof.
  intros G I B. pose (g := (fun t => match par t with Some p => env s p | None => env s 0 end) : store V).
  assert (R : rel g s) by (intros t p H; unfold g; now rewrite H).
  assert (Li : List.length idx = List.length gs).
  { rewrite (in_grid_length _ _ G). apply map_length. }
  destruct (runPoint_spec gs idx g gs0 long G) as (g' & P1 & P2 & P3).
  rewrite prepare_spec in P1 by auto. cbn [fst] in P1. unfold SweepModel.runPoint in P1. unfold SweepRunModel.runPointS.
  destruct (rev (sizes gs)) as [|r0 rr] eqn:Er.
  { exfalso. apply gs0. assert (E : sizes gs = []) by (rewrite <- (rev_involutive (sizes gs)), Er; reflexivity).
    destruct gs; [reflexivity|discriminate]. }
  rewrite <- Er in *. rewrite (indices_rank _ _ G) in *. unfold runSweep in P1.
  destruct (sweep_ok (flatten gs) idx 0 g s R I) as (A1 & A2 & A3 & A4). rewrite P1 in A1, A2. cbn [fst snd] in A1, A2.
  exists (fst (runSweepS (flatten gs) idx 0 s)). split; [destruct (runSweepS (flatten gs) idx 0 s); cbn in *; now subst|].
  split; [exact A3|split; [|split]].
  2:{ intros t v p Hv T. rewrite <- (A2 t p T). now apply P2. }
  2:{ intros p Hp. apply A4. intros t T sw S1 S2. specialize (Hp t T). pose proof (flatten_targets t sw S1 S2 idx Li) as X.
    apply Exists_exists in X. destruct X as (x & X1 & X2). rewrite Forall_forall in Hp. exact (Hp x X1 X2). }
  intros e (E1 & E2) p Np. destruct (swept_dec p) as [(t & sw & T1 & T2 & T3)|U].
  - pose proof (flatten_targets t sw T2 T3 idx Li) as X. apply Exists_exists in X. destruct X as (x & X1 & X2).
    destruct (assigned_ex (scheduled gs idx) t (scheduled_in_range gs idx long G)) as (v & Hv); [apply Exists_exists; eauto|].
    rewrite <- (A2 t p T1), (P2 t v Hv). symmetry. now apply (E1 t).
  - rewrite A4 by exact U. rewrite B by auto. symmetry. apply E2. intros t T. apply Forall_forall. intros x X1 X2.
    destruct (targets_flatten t idx x X1 X2) as (sw & S1 & S2). now apply (U t T sw).
Qed.

(** ** Traces *)
Definition trace (e : nat -> V) (c : nat -> State) (tr : list (nat -> State)) (n : nat) : Prop :=
  List.length tr = n /\ forall k p, k < n -> In p rs -> exists e', atTime (top p) (d * inject_Z (Z.of_nat (S k)))%Q e e' /\
    nth (S k) (c :: tr) c (nid p) = act (fresh e' p) (nth k (c :: tr) c (nid p)).
Lemma trace_unique e c c' tr tr' n : trace e c tr n -> trace e c' tr' n -> (forall p, In p rs -> c (nid p) = c' (nid p)) ->
  forall k p, k <= n -> In p rs -> nth k (c :: tr) c (nid p) = nth k (c' :: tr') c' (nid p).
Proof.
  intros (L & T) (L' & T') H. induction k as [|k IH]; intros p Hk Hp; [now apply H|].
  destruct (T k p Hk Hp) as (e1 & A1 & B1). destruct (T' k p Hk Hp) as (e2 & A2 & B2). rewrite B1, B2, IH by (auto; lia).
  f_equal. apply (fresh_ext M V mul one adj leafU dep updates u_first u_rest u_val bounds). intros q.
  destruct (gives_dec V tdf (top p) (d * inject_Z (Z.of_nat (S k))) q) as [(v & Gv)|N].
  - now rewrite (proj1 A1 q v Gv), (proj1 A2 q v Gv).
  - now rewrite (proj2 A1 q N), (proj2 A2 q N).
Qed.
Lemma evolve_trace n idx (s0 s : st) c : AllInv rs s -> (forall p, notTimed p -> env s p = env s0 p) ->
  exists tr idx' s', evolveRun lim h m n rs idx c s = Ok (tr, idx', s') /\ trace (env s0) c tr n /\ AllInv rs s' /\
    (forall p, notTimed p -> env s' p = env s0 p).
Proof.
  intros I K.
  destruct (evolve_ok M V State mul one adj shape veq leafU dep updates u_first u_rest u_val fixed act tdf superOf
      veq_eq simple bounds one_r not_fixed rs Sep top Top One Sub Upd Other lim h idx m (fun i => (d * inject_Z (Z.of_nat (S i)))%Q) (seq 0 n))
    with (idx := idx) (s0 := s0) (cur := c) (s := s) as (tr & idx' & s' & E & L & _ & _ & I' & K' & C); auto.
  { intros i ix p o y _ Hp Ho Hy _. now apply (clock i ix p o). }
  exists tr, idx', s'. rewrite seq_length in L, C. split; [exact E|split; [split; [exact L|]|split; [exact I'|]]].
  - intros k p Hk Hp. destruct (C k p Hk Hp) as (e & A1 & B1). rewrite seq_nth in A1 by auto. exists e. auto.
  - exact K'.
Qed.

Lemma stateOps_ext ps c c' : incl ps rs -> (forall p, In p rs -> c (nid p) = c' (nid p)) -> stateOps ps c = stateOps ps c'.
Proof.
  intros Hi H. unfold SweepRunModel.stateOps. apply map_ext_in. intros p Hp. apply filter_In in Hp. rewrite H; auto. apply Hi. tauto.
Qed.
Lemma record_ext e e' : (forall p, notTimed p -> e p = e' p) -> forall cs cs' k, List.length cs = List.length cs' ->
  (forall j p a, j < List.length cs -> In p rs -> nth j cs a (nid p) = nth j cs' a (nid p)) -> record e rs k cs = record e' rs k cs'.
Proof.
  intros E. induction cs as [|c cs IH]; intros [|c' cs'] k L H; try discriminate; [reflexivity|]. cbn [SweepRunModel.record].
  assert (H0 : forall p, In p rs -> c (nid p) = c' (nid p)) by (intros p Hp; apply (H 0 p c); auto; cbn; lia).
  rewrite (stateOps_ext rs c c' (incl_refl _) H0), (compLocal e e' k c c' E H0). do 2 f_equal. apply IH; [now injection L|].
  intros j p a Hj Hp. apply (H (S j) p a); auto. cbn. lia.
Qed.

(** What a point records is what a new run of its own records with the parameters of the point. *)
Lemma point_ok n idx (s0 s : st) ix (se : st) ixe : in_grid (sizes gs) idx -> AllInv rs s ->
  (forall p, notTimed p -> unswept p -> env s p = env s0 p) -> unused M V se -> isAt V par gs idx (env s0) (env se) ->
  exists ops ix' s' ixe' se', pointRun lim h m n rs (flatten gs) (rev (sizes gs)) ix s (rank (sizes gs) idx) = Ok (ops, ix', s') /\
    pointRun lim h m n rs [] [] ixe se 0 = Ok (ops, ixe', se') /\ AllInv rs s' /\
    (forall p, notTimed p -> unswept p -> env s' p = env s0 p).
Proof.
  intros G I B U E. destruct (point_env idx s0 s G I B) as (s1 & P1 & I1 & E1 & _). specialize (E1 _ E).
  destruct (evolve_trace n ix se s1 (init (env s1)) I1 E1) as (tr & ix' & s' & X1 & X2 & X3 & X4).
  assert (Ie : AllInv rs se) by (intros r _ e1 w _ _; left; apply U).
  destruct (evolve_trace n ixe se se (init (env se)) Ie (fun p _ => eq_refl)) as (tre & ixe' & se' & Y1 & Y2 & _ & _).
  exists (record (env s1) rs 0 (init (env s1) :: tr)), ix', s', ixe', se'. unfold SweepRunModel.pointRun. rewrite P1. cbn [SweepRunModel.runPointS].
  rewrite X1, Y1. cbn [bind fst snd]. split; [reflexivity|split; [|split; [exact X3|]]].
  - do 3 f_equal. symmetry. apply record_ext; [exact E1| |].
    + cbn. f_equal. rewrite (proj1 X2), (proj1 Y2). reflexivity.
    + intros j p a Hj Hp. cbn in Hj. rewrite (proj1 X2) in Hj.
      rewrite (nth_indep _ a (init (env s1))) by (cbn; rewrite (proj1 X2); lia).
      rewrite (nth_indep (init (env se) :: tre) a (init (env se))) by (cbn; rewrite (proj1 Y2); lia).
      apply (trace_unique (env se) (init (env s1)) (init (env se)) tr tre n); auto; lia.
  - intros p Np Up. rewrite X4 by auto. apply E. intros t T. apply Forall_forall. intros x Hx1 Hx2.
    destruct (targets_flatten t idx x Hx1 Hx2) as (sw & S1 & S2). now apply (Up t T sw).
Qed.

(** ** All points *)
Lemma loop_ok n (s0 : st) (point : nat -> list (rop A)) :
  (forall idx, in_grid (sizes gs) idx -> exists se ixe ixe' se', unused M V se /\ isAt V par gs idx (env s0) (env se) /\
     pointRun lim h m n rs [] [] ixe se 0 = Ok (point (rank (sizes gs) idx), ixe', se')) ->
  forall pts, (forall i, In i pts -> i < prod (sizes gs)) -> forall ix s qs, AllInv rs s ->
  (forall p, notTimed p -> unswept p -> env s p = env s0 p) ->
  bind (fullLoop lim h m n rs (flatten gs) (rev (sizes gs)) pts ix s qs) (fun x => Ok (fst (fst x))) = singleLoop avg point pts qs.
Proof.
  intros H. induction pts as [|i pts IH]; intros Hp ix s qs I B; [reflexivity|]. cbn [SweepRunModel.fullLoop singleLoop].
  destruct (indices_grid (sizes gs) i (Hp i (or_introl eq_refl))) as (idx & _ & G & <-).
  destruct (H idx G) as (se & ixe & ixe' & se' & U & E & R).
  destruct (point_ok n idx s0 s ix se ixe G I B U E) as (ops & ix' & s' & ixe2 & se2 & P1 & P2 & I' & B').
  rewrite R in P2. injection P2 as <- _ _. rewrite P1. cbn [bind fst snd].
  destruct (runPointRes avg (point _) qs) as [q1|]; cbn [bind]; [|reflexivity].
  destruct (organiseSingle q1) as [q2|]; cbn [bind]; [|reflexivity].
  apply IH; auto. intros j Hj. apply Hp. now right.
Qed.
Lemma loop_inv n (s0 : st) : (forall idx, in_grid (sizes gs) idx -> exists se, unused M V se /\ isAt V par gs idx (env s0) (env se)) ->
  forall pts, (forall i, In i pts -> i < prod (sizes gs)) -> forall ix s qs qs' ix' s', AllInv rs s ->
  (forall p, notTimed p -> unswept p -> env s p = env s0 p) ->
  fullLoop lim h m n rs (flatten gs) (rev (sizes gs)) pts ix s qs = Ok (qs', ix', s') ->
  AllInv rs s' /\ (forall p, notTimed p -> unswept p -> env s' p = env s0 p).
Proof.
  intros H. induction pts as [|i pts IH]; intros Hp ix s qs qs' ix' s' I B; cbn [SweepRunModel.fullLoop].
  { intros E. injection E as <- <- <-. auto. }
  destruct (indices_grid (sizes gs) i (Hp i (or_introl eq_refl))) as (idx & _ & G & <-).
  destruct (H idx G) as (se & U & E).
  destruct (point_ok n idx s0 s ix se (fun _ => 0%Z) G I B U E) as (ops & ix1 & s1 & ixe2 & se2 & P1 & _ & I' & B').
  rewrite P1. cbn [bind fst snd].
  destruct (runPointRes avg ops qs) as [q1|]; cbn [bind]; [|discriminate].
  destruct (organiseSingle q1) as [q2|]; cbn [bind]; [|discriminate].
  apply IH; auto. intros j Hj. apply Hp. now right.
Qed.
End P.
