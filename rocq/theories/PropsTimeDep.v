(** C86: explicit time dependence. *)
From Coq Require Import QArith Lia.
From Verif Require Import Py TimeModel ProtModel ProtSpec ProtProofs TimeDepModel TimeDepSpec TimeDepProofs.
#[local] Open Scope nat_scope.

(** The step size of a simulation was assigned to it. *)
Definition ownSize (h : heap) (m : nat) (d : Q) : Prop := t_par (h m) KSize = Par (Some d) BFalse.

(** The time of a simulation that follows m is the step size of m times the number of the current
    step of m, counted from 1; 0 before a run. *)
Theorem C86_time : forall lim h m l y d idx, follows h m l y -> l <= lim -> ownSize h m d ->
  currentTime lim h idx y = (d * inject_Z (idx m + 1))%Q.
Proof.
  intros lim h m l y d idx F. revert lim. induction F as [B|l y b B F IH]; intros [|lim] L O; try lia; cbn [currentTime]; rewrite B.
  - cbn [value]. unfold ownSize in O. now rewrite O.
  - apply IH; auto. lia.
Qed.
Theorem C86_timeBefore : forall lim h m l y d idx, follows h m l y -> l <= lim -> ownSize h m d -> idx m = (-1)%Z ->
  (currentTime lim h idx y == 0)%Q.
Proof. intros lim h m l y d idx F L O E. rewrite (C86_time lim h m l y d idx F L O), E. cbn. apply Qmult_0_r. Qed.
(** When m has no step size at all, it is 0. *)
Theorem C86_timeUnset : forall lim h m l y idx, follows h m l y -> l <= lim -> t_par (h m) KSize = Par None BNone ->
  currentTime lim h idx y = 0%Q.
Proof.
  intros lim h m l y idx F. revert lim. induction F as [B|l y b B F IH]; intros [|lim] L O; try lia; cbn [currentTime]; rewrite B.
  - cbn [value]. now rewrite O.
  - apply IH; auto. lia.
Qed.
(** A simulation whose chain of bounds ends elsewhere does not see the steps of m. *)
Theorem C86_timeElsewhere : forall lim h c l y m i idx, follows h c l y -> c <> m ->
  currentTime lim h (set idx m i) y = currentTime lim h idx y.
Proof.
  intros lim h c l y m i idx F N. revert lim. induction F as [B|l y b B F IH]; intros [|lim]; auto; cbn [currentTime]; rewrite B.
  - unfold set. destruct (Nat.eqb_spec c m); [contradiction|]. reflexivity.
  - apply IH.
Qed.

(** Adding a system, none of whose time parameters was assigned, to an unbound simulation m: it
    follows m.  Assigning any of them, or the number of samples, later: it follows m no more. *)
Lemma boundLoop_none lim y m : forall ks b h, (forall k, In k ks -> p_bound (t_par (h y) k) <> BFalse) ->
  boundLoop lim ks b y m h = (h, Ok tt).
Proof.
  induction ks as [|k ks IH]; intros b h H; [reflexivity|]. cbn [boundLoop].
  destruct (p_bound (t_par (h y) k)) eqn:E; try (apply IH; intros; apply H; now right).
  exfalso. apply (H k); auto. now left.
Qed.
Lemma bindKey_bound re y m k h o : t_bound (bindKey re y m h k o) = t_bound (h o).
Proof.
  unfold bindKey, set_par, hput. destruct (p_bound _), re; cbn; auto; destruct (Nat.eqb_spec o y); subst; auto.
Qed.
Theorem C86_add : forall lim h y m, 0 < lim -> (forall k, p_bound (t_par (h y) k) = BNone) -> t_bound (h m) = None -> y <> m ->
  follows (fst (bindTo lim false y m h)) m 2 y.
Proof.
  intros [|lim] h y m L U B N; [lia|]. unfold bindTo. cbn [boundTree]. rewrite B. cbn [existsb].
  unfold mbind, modify. rewrite boundLoop_none.
  2:{ intros k _. unfold hput. rewrite Nat.eqb_refl. cbn. destruct (Nat.eqb_spec y m); [contradiction|]. rewrite U. discriminate. }
  cbn [fst]. eapply follows_next; [|apply follows_end].
  - cbn [fold_left]. rewrite !bindKey_bound. unfold hput. now rewrite Nat.eqb_refl.
  - cbn [fold_left]. rewrite !bindKey_bound. unfold hput. rewrite Nat.eqb_refl.
    destruct (Nat.eqb_spec m y); [congruence|exact B].
Qed.
Lemma setAttr_breaks lim y k v h : snd (setAttrParam lim y k v h) = Ok tt -> t_bound (fst (setAttrParam lim y k v h) y) = None.
Proof.
  unfold setAttrParam, mbind, read, modify, ret. destruct (value lim h k y) as [old|]; [|discriminate]. intros _.
  assert (C : forall b g, t_bound (clear_bound y (drop_dep b y g) y) = None)
    by (intros; unfold clear_bound, hput; rewrite Nat.eqb_refl; reflexivity).
  assert (F : forall w g, t_bound (TimeModel.flag y (set_value y k w g) y) = t_bound (g y))
    by (intros; unfold TimeModel.flag, set_value, set_par, hput; rewrite !Nat.eqb_refl; reflexivity).
  destruct (t_bound (h y)) as [b|] eqn:B; destruct (opt_eqb old v); cbn [fst]; auto; rewrite F; auto.
Qed.
Lemma set_value_bound o k v h y : t_bound (set_value o k v h y) = t_bound (h y).
Proof. unfold set_value, set_par, hput. destruct (Nat.eqb_spec y o); subst; auto. Qed.
Theorem C86_break : forall lim h y k v, snd (set_prop lim y k v h) = Ok tt -> t_bound (fst (set_prop lim y k v h) y) = None.
Proof.
  intros lim h y k v.
  assert (G : forall (k1 k2 k3 : key) (c : Q -> result Q) h,
    snd ((setAttrParam lim y k1 v ;;; (T <- read lim k2 y ;; match T with None => ret tt | Some T => c' <- lift (c T) ;; modify (set_value y k3 (Some c')) end)) h) = Ok tt ->
    t_bound (fst ((setAttrParam lim y k1 v ;;; (T <- read lim k2 y ;; match T with None => ret tt | Some T => c' <- lift (c T) ;; modify (set_value y k3 (Some c')) end)) h) y) = None).
  { intros k1 k2 k3 c g. pose proof (setAttr_breaks lim y k1 v g) as S1. unfold mbind.
    destruct (setAttrParam lim y k1 v g) as [g1 [[]|e]]; cbn [fst snd] in *; [|discriminate]. specialize (S1 eq_refl).
    unfold read. destruct (value lim g1 k2 y) as [[T|]|e]; cbn; auto; try discriminate.
    unfold lift. destruct (c T); cbn; [|discriminate]. intros _. now rewrite set_value_bound. }
  destruct k; cbn [set_prop].
  - apply (G KSize KTotal KCount (fun T => countOf T v)).
  - apply (G KTotal KSize KCount (fun s => countOf v s)).
  - apply (G KCount KTotal KSize (fun T => truediv T v)).
  - apply setAttr_breaks.
Qed.

Section Run.
Variables M V State : Type.
Variable mul : M -> M -> M.
Variable one : M.
Variable adj : M -> M.
Variable shape : M -> nat * nat.
Variable veq : V -> V -> bool.
Variable leafU : (nat -> V) -> nat -> M.
Variable dep : nat -> list nat.
Variable updates : nat -> list nat.
Variable u_first : nat -> nat.
Variable u_rest : nat -> list nat.
Variable u_val : nat -> V.
Variable fixed : nat -> bool.
Variable act : M -> State -> State.
Variable tdf : nat -> option (Q -> list (nat * V)).
Variable superOf : nat -> option sysT.
Variable rs : list node.
Variable top : node -> sysT.
Notation st := (ProtModel.st M V).
Notation fresh := (fresh M V mul one adj leafU updates u_first u_rest u_val).
Notation evolve := (evolve M V State mul one adj shape veq leafU dep updates u_first u_rest u_val fixed act tdf superOf).
Notation evolveRun := (evolveRun M V State mul one adj shape veq leafU dep updates u_first u_rest u_val fixed act tdf superOf).
Notation gives := (gives V tdf).
Notation atTime := (atTime V tdf).

(** The protocols rs are used as in C22, every one of them belongs to a system (top), and its steps
    belong to that system or to sub-systems of it; no parameter is given two values, updates are
    of other parameters, and a protocol does not depend on a parameter that only the functions of
    another one's system change. *)
Definition usable : Prop :=
  (forall x y, veq x y = true <-> x = y) /\ (forall m, mul m one = m) /\ (forall o, fixed o = false) /\
  simple_updates updates u_first u_rest /\ complete_bounds M V leafU dep /\ separate rs /\
  (forall n, In n rs -> superOf (nid n) = Some (top n)) /\
  (forall n, In n rs -> oneValue V tdf (top n)) /\
  (forall n o y, In n rs -> In o (allids n) -> superOf o = Some y -> within y (top n)) /\
  (forall n o u t v, In n rs -> In o (allids n) -> In u (updates o) -> ~ gives (top n) t (u_first u) v) /\
  (forall n n' t p v o, In n rs -> In n' rs -> gives (top n') t p v -> In o (leaves n) -> In o (dep p) ->
     exists v', gives (top n) t p v').
(** The simulations of the systems of all protocols and steps follow c. *)
Definition allFollow (lim : nat) (h : heap) (c : nat) : Prop :=
  forall n o y, In n rs -> In o (allids n) -> superOf o = Some y -> exists l, l <= lim /\ follows h c l (simOf y).

Lemma inv_unused (s : st) : unused M V s -> AllInv M V mul one adj leafU updates u_first u_rest u_val rs s.
Proof. intros U r _ e1 m _ _. left. apply U. Qed.

(** In a run of m with new protocols, step number k (from 1) of every protocol applies its
    unitary at the parameters of time k times the step size. *)
Theorem C86_run : forall lim h m d n idx cur s, usable -> unused M V s -> allFollow lim h m -> ownSize h m d ->
  exists tr idx' s', evolveRun lim h m n rs idx cur s = Ok (tr, idx', s') /\ List.length tr = n /\
    forall k p, k < n -> In p rs -> exists e, atTime (top p) (d * inject_Z (Z.of_nat (S k)))%Q (env s) e /\
      nth (S k) (cur :: tr) cur (nid p) = act (fresh e p) (nth k (cur :: tr) cur (nid p)).
Proof.
  intros lim h m d n idx cur s (H1 & H2 & H3 & H4 & H5 & H6 & H7 & H8 & H9 & H10 & H11) U F O.
  destruct (evolve_ok M V State mul one adj shape veq leafU dep updates u_first u_rest u_val fixed act tdf superOf
      H1 H4 H5 H2 H3 rs H6 top H7 H8 H9 H10 H11 lim h idx m (fun i => (d * inject_Z (Z.of_nat (S i)))%Q) (seq 0 n))
    with (idx := idx) (s0 := s) (cur := cur) (s := s) as (tr & idx' & s' & E & L & _ & _ & _ & _ & C); auto.
  { intros i ix p o y _ Hp Ho Hy _. destruct (F p o y Hp Ho Hy) as (l & L & Fl).
    rewrite (C86_time lim h m l (simOf y) d _ Fl L O). unfold set. rewrite Nat.eqb_refl. now rewrite Nat2Z.inj_succ. }
  { now apply inv_unused. }
  { intros p _. reflexivity. }
  exists tr, idx', s'. rewrite seq_length in L, C. split; [exact E|split; [exact L|]]. intros k p Hk Hp.
  destruct (C k p Hk Hp) as (e & A & B). exists e. rewrite seq_nth in A by auto. auto.
Qed.
(** Running again, after whatever the first run left, gives the same states. *)
Theorem C86_again : forall lim h m d n idx cur s tr idx1 s1, usable -> unused M V s -> allFollow lim h m -> ownSize h m d ->
  evolveRun lim h m n rs idx cur s = Ok (tr, idx1, s1) ->
  exists tr2 idx2 s2, evolveRun lim h m n rs idx1 cur s1 = Ok (tr2, idx2, s2) /\
    forall k p, k <= n -> In p rs -> nth k (cur :: tr2) cur (nid p) = nth k (cur :: tr) cur (nid p).
Proof.
  intros lim h m d n idx cur s tr idx1 s1 (H1 & H2 & H3 & H4 & H5 & H6 & H7 & H8 & H9 & H10 & H11) U F O E.
  pose proof (evolve_ok M V State mul one adj shape veq leafU dep updates u_first u_rest u_val fixed act tdf superOf
      H1 H4 H5 H2 H3 rs H6 top H7 H8 H9 H10 H11 lim h) as G.
  assert (T : forall ix0 i ix p o y, In i (seq 0 n) -> In p rs -> In o (allids p) -> superOf o = Some y ->
     (forall j, j <> m -> ix j = ix0 j :> Z) ->
     currentTime lim h (set ix m (Z.of_nat i)) (simOf y) = (d * inject_Z (Z.of_nat (S i)))%Q).
  { intros ix0 i ix p o y _ Hp Ho Hy _. destruct (F p o y Hp Ho Hy) as (l & L & Fl).
    rewrite (C86_time lim h m l (simOf y) d _ Fl L O). unfold set. rewrite Nat.eqb_refl. now rewrite Nat2Z.inj_succ. }
  destruct (G idx m (fun i => (d * inject_Z (Z.of_nat (S i)))%Q) (seq 0 n) (T idx)) with (idx := idx) (s0 := s) (cur := cur) (s := s)
    as (tr' & idx' & s' & E' & L & _ & _ & I1 & K1 & C); auto; [now apply inv_unused|intros p _; reflexivity|].
  unfold TimeDepModel.evolveRun in E. rewrite E in E'. injection E' as <- <- <-.
  destruct (G idx1 m (fun i => (d * inject_Z (Z.of_nat (S i)))%Q) (seq 0 n) (T idx1)) with (idx := idx1) (s0 := s) (cur := cur) (s := s1)
    as (tr2 & idx2 & s2 & E2 & L2 & _ & _ & _ & _ & C2); auto.
  exists tr2, idx2, s2. split; [exact E2|]. rewrite seq_length in C, C2.
  induction k as [|k IH]; intros p Hk Hp; [reflexivity|].
  destruct (C k p Hk Hp) as (e & A & B). destruct (C2 k p Hk Hp) as (e2 & A2 & B2). rewrite B, B2, IH by (auto; lia).
  f_equal. apply (fresh_ext M V mul one adj leafU dep updates u_first u_rest u_val H5). intros q.
  destruct (gives_dec V tdf (top p) (d * inject_Z (Z.of_nat (S (nth k (seq 0 n) 0)))) q) as [(v & Gv)|N].
  - now rewrite (proj1 A q v Gv), (proj1 A2 q v Gv).
  - now rewrite (proj2 A q N), (proj2 A2 q N).
Qed.
(** When the systems follow another simulation c that was never run, for example the one of the
    system while the one of the protocol is run, every step is made at time 0. *)
Theorem C86_frozen : forall lim h c m d n idx cur s, usable -> unused M V s -> allFollow lim h c -> c <> m ->
  ownSize h c d /\ idx c = (-1)%Z \/ t_par (h c) KSize = Par None BNone ->
  exists t tr idx' s', (t == 0)%Q /\ evolveRun lim h m n rs idx cur s = Ok (tr, idx', s') /\ List.length tr = n /\
    forall k p, k < n -> In p rs -> exists e, atTime (top p) t (env s) e /\
      nth (S k) (cur :: tr) cur (nid p) = act (fresh e p) (nth k (cur :: tr) cur (nid p)).
Proof.
  intros lim h c m d n idx cur s (H1 & H2 & H3 & H4 & H5 & H6 & H7 & H8 & H9 & H10 & H11) U F N O.
  assert (T : exists t, (t == 0)%Q /\ forall ix y l, l <= lim -> follows h c l y -> ix c = idx c -> currentTime lim h ix y = t).
  { destruct O as [[O Z]|O].
    - exists (d * inject_Z (idx c + 1))%Q. split; [rewrite Z; cbn; apply Qmult_0_r|]. intros ix y l L Fl E. rewrite <- E.
      now apply (C86_time lim h c l).
    - exists 0%Q. split; [reflexivity|]. intros ix y l L Fl _. now apply (C86_timeUnset lim h c l). }
  destruct T as (t & T0 & T).
  destruct (evolve_ok M V State mul one adj shape veq leafU dep updates u_first u_rest u_val fixed act tdf superOf
      H1 H4 H5 H2 H3 rs H6 top H7 H8 H9 H10 H11 lim h idx m (fun i => t) (seq 0 n))
    with (idx := idx) (s0 := s) (cur := cur) (s := s) as (tr & idx' & s' & E & L & _ & _ & _ & _ & C); auto.
  { intros i ix p o y _ Hp Ho Hy Hix. destruct (F p o y Hp Ho Hy) as (l & L & Fl). apply (T _ _ l L Fl).
    unfold set. destruct (Nat.eqb_spec c m); [contradiction|]. now apply Hix. }
  { now apply inv_unused. }
  { intros p _. reflexivity. }
  exists t, tr, idx', s'. rewrite seq_length in L, C. repeat split; auto.
Qed.
End Run.

(** *** A concrete world: one parameter, which term 5 sets to the time; the unitary of a leaf is the
    value it was made with, and a state is the list of the values applied to it. *)
Definition tdfW (ter : nat) : option (Q -> list (nat * Z)) := if Nat.eqb ter 5 then Some (fun t => [(0, Qnum t)]) else None.
Definition sW : ProtModel.st (list Z) Z := St (fun _ => 7%Z) (fun _ => false) (fun _ => None) (fun _ => None) (fun _ => 0%Z).
Definition leafW (e : nat -> Z) (o : nat) : list Z := if Nat.eqb o 10 then [e 0] else [].
Definition depW (p : nat) : list nat := if Nat.eqb p 0 then [10] else [].
Definition runW (updates : nat -> list nat) (superOf : nat -> option sysT) (ops : list top) (m n : nat) (p : node) : option (list Z) :=
  match evolveRun (list Z) Z (list Z) (fun a b => a ++ b) [] (fun a => a) (fun _ => (1, 1)) Z.eqb leafW
          depW updates (fun _ => 0) (fun _ => []) (fun _ => 50%Z) (fun _ => false)
          (fun u s => u ++ s) tdfW superOf 100 (TimeModel.history 100 ops) m n [p] (fun _ => (-1)%Z) (fun _ => []) sW with
  | Ok (tr, _, _) => Some (last tr (fun _ => []) (nid p))
  | Err _ => None
  end.
Definition superW (o : nat) : option sysT := if Nat.eqb o 10 then Some (Sys 1 [] [5]) else None.

(** Simulation 0 with step size 1 and the system, whose simulation is 1: times 1, 2, 3. *)
Example C86_ex : runW (fun _ => []) superW [Set_ 0 KSize 1; Bind false 1 0] 0 3 (Leaf 10) = Some [3; 2; 1]%Z.
Proof. reflexivity. Qed.
Example C86_ex_steps : runW (fun _ => []) (fun o => if Nat.eqb o 10 || Nat.eqb o 11 then Some (Sys 1 [] [5]) else None)
    [Set_ 0 KSize 1; Bind false 1 0] 0 3 (Prot 11 [(None, Leaf 10); (Some false, Leaf 10)]) = Some [3; 3; 2; 2; 1; 1]%Z.
Proof. reflexivity. Qed.
Example C86_ex_usable : usable (list Z) Z (fun a b => a ++ b) [] Z.eqb leafW depW
    (fun _ => []) (fun _ => 0) (fun _ => []) (fun _ => false) tdfW superW [Leaf 10] (fun _ => Sys 1 [] [5]) /\
  unused (list Z) Z sW /\
  allFollow superW [Leaf 10] 100 (TimeModel.history 100 [Set_ 0 KSize 1; Bind false 1 0]) 0 /\
  ownSize (TimeModel.history 100 [Set_ 0 KSize 1; Bind false 1 0]) 0 1.
Proof.
  assert (G : forall t p v, gives Z tdfW (Sys 1 [] [5]) t p v <-> p = 0 /\ v = Qnum t).
  { intros t p v. split.
    - intros (ter & f & T & E & I). inversion T as [? ? ? H|? ? ? ? H]; subst; [|contradiction].
      destruct H as [<-|[]]. injection E as <-. destruct I as [I|[]]. injection I as <- <-. auto.
    - intros (-> & ->). exists 5, (fun t => [(0, Qnum t)]). split; [apply term_here; now left|]. split; [reflexivity|now left]. }
  split; [|split; [|split]].
  - unfold usable. split; [|split; [|split; [|split; [|split; [|split; [|split; [|split; [|split; [|split]]]]]]]]].
    + intros; apply Z.eqb_eq.
    + apply app_nil_r.
    + reflexivity.
    + split; [reflexivity|split; [constructor|]]. intros o o' u [].
    + intros e e' o H. unfold leafW. destruct (Nat.eqb_spec o 10); subst; auto. f_equal. apply H. now left.
    + split; [intros n [<-|[]]; constructor|]. constructor; [intros []|constructor].
    + intros n [<-|[]]. reflexivity.
    + intros n _. split.
      * intros t p v v' A B. apply G in A, B. destruct A, B. congruence.
      * intros t t' p v A. apply G in A. destruct A as [-> _]. exists (Qnum t'). now apply G.
    + intros n o y [<-|[]] [<-|[]] E. injection E as <-. constructor.
    + intros n o u t v _ _ [].
    + intros n n' t p v o _ _ A _ _. now exists v.
  - intros o. reflexivity.
  - intros n o y [<-|[]] [<-|[]] E. injection E as <-. exists 2. split; [lia|].
    eapply follows_next; [|apply follows_end]; reflexivity.
  - reflexivity.
Qed.

(** *** What does not hold *)

(** The simulation of the protocol is run, protocol.simulation.run(): it is bound to the simulation
    of the system (1), and not the other way round.  Every step is at time 0. *)
Theorem C86_protocolSimulation_refuted :
  runW (fun _ => []) superW [Bind false 2 1; Set_ 2 KSize 1; Set_ 2 KTotal 3] 2 3 (Leaf 10) = Some [0; 0; 0]%Z.
Proof. reflexivity. Qed.
(** The system got a step size of its own before it was added, or a number of samples after. *)
Theorem C86_ownSize_refuted :
  runW (fun _ => []) superW [Set_ 1 KSize 1; Set_ 0 KSize 1; Bind false 1 0] 0 3 (Leaf 10) = Some [0; 0; 0]%Z.
Proof. reflexivity. Qed.
Theorem C86_samples_refuted :
  runW (fun _ => []) superW [Set_ 0 KSize 1; Bind false 1 0; Set_ 1 KSamples 2] 0 3 (Leaf 10) = Some [0; 0; 0]%Z.
Proof. reflexivity. Qed.
(** The system was later added to another simulation (3) as well. *)
Theorem C86_twoSimulations_refuted :
  runW (fun _ => []) superW [Set_ 0 KSize 1; Set_ 3 KSize 1; Bind false 1 0; Bind false 1 3] 0 3 (Leaf 10) = Some [0; 0; 0]%Z.
Proof. reflexivity. Qed.
(** A step that is the free evolution of a sub-system, whose simulation (4) is bound to nothing: its
    request overwrites the values that the composite system was given for the step. *)
Definition superSub (o : nat) : option sysT :=
  if Nat.eqb o 11 then Some (Sys 1 [Sys 4 [] [5]] []) else if Nat.eqb o 10 then Some (Sys 4 [] [5]) else None.
Theorem C86_subSystemStep_refuted :
  runW (fun _ => []) superSub [Set_ 0 KSize 1; Bind false 1 0] 0 3 (Prot 11 [(None, Leaf 10)]) = Some [0; 0; 0]%Z.
Proof. reflexivity. Qed.
(** The same step, when the sub-system's time dependence is reached through the composite system. *)
Example C86_ex_subSystem :
  runW (fun _ => []) (fun o => if Nat.eqb o 10 then Some (Sys 1 [Sys 4 [] [5]] []) else None)
    [Set_ 0 KSize 1; Bind false 1 0] 0 3 (Leaf 10) = Some [3; 2; 1]%Z.
Proof. reflexivity. Qed.
(** A protocol without a system keeps what it computed in the first step. *)
Theorem C86_noSystem_refuted :
  runW (fun _ => []) superW [Set_ 0 KSize 1; Bind false 1 0] 0 3 (Prot 11 [(None, Leaf 10)]) = Some [1; 1; 1]%Z.
Proof. reflexivity. Qed.
(** An update of a parameter that the time dependence sets is lost: the step sets it again. *)
Definition superBoth (o : nat) : option sysT := if Nat.eqb o 10 || Nat.eqb o 11 then Some (Sys 1 [] [5]) else None.
Theorem C86_update_refuted :
  runW (fun o => if Nat.eqb o 11 then [0] else []) superBoth [Set_ 0 KSize 1; Bind false 1 0] 0 3 (Prot 11 [(None, Leaf 10)]) = Some [3; 2; 1]%Z.
Proof. reflexivity. Qed.

Print Assumptions C86_time.
Print Assumptions C86_timeElsewhere.
Print Assumptions C86_add.
Print Assumptions C86_break.
Print Assumptions C86_run.
Print Assumptions C86_again.
Print Assumptions C86_frozen.
