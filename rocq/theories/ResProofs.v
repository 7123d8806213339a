(** Proofs about result storage. *)
From Coq Require Import QArith Qfield Lqa Permutation.
From Verif Require Import Py ResModel ResSpec SweepModel SweepSpec SweepProofs.
#[local] Open Scope nat_scope.
#[local] Open Scope list_scope.

Section P.
Context {A : Type}.
Variable avg : nat -> A -> A -> A.
Notation pv := (pv A). Notation qres := (qres A). Notation rop := (rop A).

(** *** dictionaries *)
Lemma dget_dput_same {V} (d : list (string * V)) k v : dget (dput d k v) k = Some v.
Proof.
  induction d as [|[k' v'] r IH]; cbn; [now rewrite String.eqb_refl|].
  destruct (String.eqb k k') eqn:E; cbn; rewrite E; auto.
Qed.
Lemma dget_dput_other {V} (d : list (string * V)) k k' v : k' <> k -> dget (dput d k v) k' = dget d k'.
Proof.
  intros N. induction d as [|[k1 v1] r IH]; cbn.
  - destruct (String.eqb_spec k' k); congruence.
  - destruct (String.eqb_spec k k1); cbn.
    + subst. destruct (String.eqb_spec k' k1); congruence.
    + destruct (String.eqb k' k1); auto.
Qed.
Lemma dput_keys {V} (d : list (string * V)) k v x :
  In x (map fst (dput d k v)) <-> In x (map fst d) \/ x = k.
Proof.
  induction d as [|[k1 v1] r IH]; cbn.
  - intuition.
  - destruct (String.eqb_spec k k1); cbn; [subst; intuition|]. rewrite IH. intuition.
Qed.
Lemma dput_NoDup {V} (d : list (string * V)) k v : NoDup (map fst d) -> NoDup (map fst (dput d k v)).
Proof.
  induction d as [|[k1 v1] r IH]; cbn; intros H.
  - repeat constructor; auto.
  - inversion H as [|? ? Hn Hr]; subst. destruct (String.eqb_spec k k1); cbn; constructor; auto.
    rewrite dput_keys. intros [|]; congruence.
Qed.
Lemma dget_In {V} (d : list (string * V)) k : In k (map fst d) <-> exists v, dget d k = Some v.
Proof.
  induction d as [|[k1 v1] r IH]; cbn.
  - split; [tauto|intros [v H]; discriminate].
  - destruct (String.eqb_spec k k1).
    + subst. split; eauto.
    + rewrite <- IH. split; [intros [|]; congruence|auto].
Qed.
Lemma dget_None {V} (d : list (string * V)) k : ~ In k (map fst d) <-> dget d k = None.
Proof.
  rewrite dget_In. destruct (dget d k); split; intros H; try easy.
  - exfalso; apply H; eauto.
  - intros [v Hv]; discriminate.
Qed.

(** *** reshaping *)
Lemma repeatM_app n (step : nat -> result (pv * nat)) w :
  (forall c, step c = Err IndexError \/ exists v, step c = Ok (v, c + w)) ->
  forall c r c', repeatM n step c = Ok (r, c') ->
    c' = c + n * w /\ List.length r = n /\
    forall i, i < n -> exists v, step (c + i * w) = Ok (v, c + i * w + w) /\ nth_error r i = Some v.
Proof.
  intros Hs. induction n as [|n IH]; cbn [repeatM]; intros c r c' H.
  - inversion H; subst. repeat split; [lia|intros i Hi; lia].
  - destruct (Hs c) as [E|[v E]]; rewrite E in H; cbn in H; [discriminate|].
    destruct (repeatM n step (c + w)) as [[r1 c1]|] eqn:R; cbn in H; [|discriminate].
    inversion H; subst. destruct (IH _ _ _ R) as (-> & L & N). repeat split.
    + lia.
    + cbn; lia.
    + intros [|i] Hi.
      * exists v. rewrite Nat.mul_0_l, Nat.add_0_r. split; [exact E|reflexivity].
      * destruct (N i) as (v' & E' & N'); [lia|].
        exists v'. replace (c + S i * w) with (c + w + i * w) by lia. auto.
Qed.
Lemma repeatM_ok n (step : nat -> result (pv * nat)) w :
  forall c, (forall i, i < n -> exists v, step (c + i * w) = Ok (v, c + i * w + w)) ->
  exists r, repeatM n step c = Ok (r, c + n * w).
Proof.
  induction n as [|n IH]; cbn [repeatM]; intros c H.
  - exists []. f_equal. f_equal. lia.
  - destruct (H 0) as [v E]; [lia|]. rewrite Nat.mul_0_l, Nat.add_0_r in E.
    rewrite E; cbn [bind snd fst].
    destruct (IH (c + w)) as [r R].
    { intros i Hi. destruct (H (S i)) as [v' E']; [lia|]. exists v'.
      replace (c + w + i * w) with (c + S i * w) by lia. exact E'. }
    rewrite R. cbn. eexists. f_equal. f_equal. lia.
Qed.
Lemma repeatM_err n (step : nat -> result (pv * nat)) w :
  (forall c, step c = Err IndexError \/ exists v, step c = Ok (v, c + w)) ->
  forall c, repeatM n step c = Err IndexError \/ exists r, repeatM n step c = Ok (r, c + n * w).
Proof.
  intros Hs. induction n as [|n IH]; intros c; cbn [repeatM].
  - right. exists []. f_equal. f_equal. lia.
  - destruct (Hs c) as [E|[v E]]; rewrite E; cbn; auto.
    destruct (IH (c + w)) as [R|[r R]]; rewrite R; cbn; auto.
    right. eexists. f_equal. f_equal. lia.
Qed.

Lemma reShape_cons n m rest (lis : list pv) c :
  reShape lis (n :: m :: rest) c
  = repeatM n (fun c => bind (reShape lis (m :: rest) c) (fun r => Ok (PL (fst r), snd r))) c.
Proof. reflexivity. Qed.

Lemma leaf_step (lis : list pv) c :
  (match nth_error lis c with Some v => Ok (unwrap v, S c) | None => Err IndexError end) = Err IndexError
  \/ exists v, (match nth_error lis c with Some v => Ok (unwrap v, S c) | None => Err IndexError end) = Ok (v, c + 1).
Proof. destruct (nth_error lis c); auto. right. eexists. rewrite Nat.add_1_r. reflexivity. Qed.

Lemma reShape_dich lens (lis : list pv) : lens <> [] -> forall c,
  reShape lis lens c = Err IndexError \/ exists r, reShape lis lens c = Ok (r, c + prod lens).
Proof.
  induction lens as [|n [|m rest] IH]; intros N c; [congruence| |].
  - cbn [reShape prod]. rewrite Nat.mul_1_r.
    destruct (repeatM_err n _ 1 (leaf_step lis) c) as [E|[r E]]; auto.
    right. exists r. rewrite E. f_equal. f_equal. lia.
  - rewrite reShape_cons. cbn [prod]. change (m * prod rest) with (prod (m :: rest)).
    apply repeatM_err. intros c0. destruct (IH ltac:(easy) c0) as [E|[r E]]; rewrite E; cbn; eauto.
Qed.

(** Every index tuple finds the value stored at its rank. *)
Lemma reShape_get lens (lis : list pv) : lens <> [] -> forall c r c',
  reShape lis lens c = Ok (r, c') -> c' = c + prod lens /\ has_shape lens (PL r) /\
  forall idx, in_grid lens idx -> exists v,
    nth_error lis (c + rank lens idx) = Some v /\ pget (PL r) idx = Some (unwrap v).
Proof.
  induction lens as [|n [|m rest] IH]; intros N c r c' H; [congruence| |].
  - cbn [reShape] in H. destruct (repeatM_app n _ 1 (leaf_step lis) _ _ _ H) as (-> & L & G).
    repeat split.
    + cbn. exists r. repeat split; auto. apply Forall_forall; auto.
    + intros idx Hi. inversion Hi as [|? i ? idx' Hlt Hr]; subst. inversion Hr; subst.
      destruct (G i Hlt) as (v & E & Nv). cbn [rank prod]. rewrite !Nat.mul_1_r, Nat.add_0_r in *.
      destruct (nth_error lis (c + i)) eqn:F; [|discriminate]. inversion E; subst.
      eexists. split; [reflexivity|]. cbn. rewrite Nv. reflexivity.
  - rewrite reShape_cons in H.
    assert (Hs : forall c0, bind (reShape lis (m :: rest) c0) (fun r0 => Ok (PL (fst r0), snd r0)) = Err IndexError
      \/ exists v, bind (reShape lis (m :: rest) c0) (fun r0 => Ok (PL (fst r0), snd r0)) = Ok (v, c0 + prod (m :: rest))).
    { intros c0. destruct (reShape_dich (m :: rest) lis ltac:(easy) c0) as [E|[r0 E]]; rewrite E; cbn; eauto. }
    destruct (repeatM_app n _ _ Hs _ _ _ H) as (-> & L & G).
    repeat split.
    + cbn [has_shape]. exists r. repeat split; auto. apply Forall_forall. intros x Hx.
      apply In_nth_error in Hx. destruct Hx as [i Hi].
      assert (Hlt : i < n). { rewrite <- L. apply nth_error_Some. congruence. }
      destruct (G i Hlt) as (v & E & Nv). rewrite Hi in Nv. inversion Nv; subst v.
      destruct (reShape lis (m :: rest) (c + i * prod (m :: rest))) as [[r0 c0]|] eqn:R; [|discriminate].
      cbn in E. inversion E; subst. exact (proj1 (proj2 (IH ltac:(easy) _ _ _ R))).
    + intros idx Hi. inversion Hi as [|? i ? idx' Hlt Hr]; subst.
      destruct (G i Hlt) as (v & E & Nv).
      destruct (reShape lis (m :: rest) (c + i * prod (m :: rest))) as [[r0 c0]|] eqn:R; [|discriminate].
      cbn in E. inversion E; subst.
      destruct (proj2 (proj2 (IH ltac:(easy) _ _ _ R)) idx' Hr) as (w & Nw & Pw).
      exists w. split.
      * change (rank (_ :: m :: rest) (i :: idx')) with (i * prod (m :: rest) + rank (m :: rest) idx').
        rewrite <- Nw. f_equal. lia.
      * cbn [pget]. rewrite Nv. exact Pw.
Qed.

Lemma nth_error_ok {X} (l : list X) i : i < List.length l -> exists x, nth_error l i = Some x.
Proof. intros H. destruct (nth_error l i) eqn:E; eauto. apply nth_error_None in E. lia. Qed.

Lemma reShape_ok lens (lis : list pv) : lens <> [] -> forall c,
  c + prod lens <= List.length lis -> exists r, reShape lis lens c = Ok (r, c + prod lens).
Proof.
  induction lens as [|n [|m rest] IH]; intros N c H; [congruence| |].
  - cbn [reShape prod] in *. rewrite Nat.mul_1_r in *.
    destruct (repeatM_ok n (fun c => match nth_error lis c with Some v => Ok (unwrap v, S c) | None => Err IndexError end) 1 c) as [r R].
    { intros i Hi. destruct (nth_error_ok lis (c + i * 1)) as [x E]; [lia|]. rewrite E.
      eexists. rewrite (Nat.add_1_r (c + i * 1)). reflexivity. }
    exists r. rewrite R. f_equal. f_equal. lia.
  - rewrite reShape_cons. cbn [prod] in *. change (m * prod rest) with (prod (m :: rest)) in *.
    apply repeatM_ok. intros i Hi.
    destruct (IH ltac:(easy) (c + i * prod (m :: rest))) as [r R].
    { assert (c + i * prod (m :: rest) + prod (m :: rest) <= c + n * prod (m :: rest)) by nia. lia. }
    rewrite R. cbn. eauto.
Qed.

Lemma reShape_short lens (lis : list pv) c : lens <> [] -> List.length lis < c + prod lens -> 0 < prod lens ->
  reShape lis lens c = Err IndexError.
Proof.
  intros N H P. destruct (reShape_dich lens lis N c) as [E|[r E]]; auto.
  exfalso. destruct (reShape_get lens lis N _ _ _ E) as (_ & _ & G).
  assert (F : Forall (fun n => 0 < n) lens).
  { clear -P. induction lens as [|n r IH]; constructor; cbn in P; [nia|]. apply IH. nia. }
  destruct (rank_surj lens (prod lens - 1) F) as (idx & Hi & Hr); [lia|].
  destruct (G idx Hi) as (v & Nv & _). rewrite Hr in Nv.
  assert (c + (prod lens - 1) < List.length lis) by (apply nth_error_Some; congruence). lia.
Qed.

(** *** one point *)
Definition core (q : qres) := (q_results q, q_states q).
Definition lasts (q : qres) := (q_average q, q_resLast q, q_stLast q).

(** What a call does to the Last dictionaries depends on these only, except
    for [Calc], which does not read them at all. *)
Definition nocalc (o : rop) : bool := match o with Calc _ _ _ => false | _ => true end.

(** The Calc calls may fail on their own dictionary; from a state in which
    every calculated entry is a list they do not. *)
Definition all_lists (d : list (string * pv)) : Prop := forall k v, dget d k = Some v -> exists l, v = PL l.
Definition calc_ok (s : list qres) : Prop := Forall (fun q => all_lists (q_calc q)) s.

Lemma dappend_lists d k v : all_lists d -> exists d', dappend d k v = Ok d' /\ all_lists d'.
Proof.
  intros H. unfold dappend. destruct (dget d k) as [[a|l]|] eqn:E.
  - destruct (H _ _ E); discriminate.
  - eexists; split; [reflexivity|]. intros k' v' E'. destruct (string_dec k' k) as [->|N].
    + rewrite dget_dput_same in E'. inversion E'; eauto.
    + rewrite dget_dput_other in E'; eauto.
  - eexists; split; [reflexivity|]. intros k' v' E'. destruct (string_dec k' k) as [->|N].
    + rewrite dget_dput_same in E'. inversion E'; eauto.
    + rewrite dget_dput_other in E'; eauto.
Qed.

Inductive sim2 : qres -> qres -> Prop :=
| Sim2 q q' : lasts q = lasts q' -> all_lists (q_calc q) -> all_lists (q_calc q') -> sim2 q q'.

(** A function on one object that keeps the core and is determined on Last. *)
Definition good (f : qres -> result qres) : Prop :=
  (forall q r, f q = Ok r -> core r = core q) /\
  (forall q q', sim2 q q' ->
     match f q, f q' with
     | Ok r, Ok r' => sim2 r r'
     | Err e, Err e' => e = e'
     | _, _ => False
     end).

Lemma good_single k v : good (singleResult k v).
Proof.
  split.
  - intros q r. unfold singleResult. destruct (dappend _ _ _); intros H; inversion H; reflexivity.
  - intros q q' [? ? L C C']. unfold lasts in L. injection L as L1 L2 L3.
    unfold singleResult. rewrite L2. destruct (dappend _ _ _); auto.
    constructor; auto. unfold lasts; cbn. congruence.
Qed.
Lemma good_avg k x : good (resAverage avg k x).
Proof.
  split.
  - intros q r. unfold resAverage. destruct (match dget _ _ with Some _ => _ | None => _ end). intros H; inversion H; reflexivity.
  - intros q q' [? ? L C C']. unfold lasts in L. injection L as L1 L2 L3.
    unfold resAverage. rewrite L1, L2.
    destruct (match dget _ _ with Some _ => _ | None => _ end).
    constructor; auto. unfold lasts; cbn. congruence.
Qed.
Lemma good_state k v : good (storeState k v).
Proof.
  split.
  - intros q r. unfold storeState. destruct (dappend _ _ _); intros H; inversion H; reflexivity.
  - intros q q' [? ? L C C']. unfold lasts in L. injection L as L1 L2 L3.
    unfold storeState. rewrite L3. destruct (dappend _ _ _); auto.
    constructor; auto. unfold lasts; cbn. congruence.
Qed.
Lemma good_calc k v : good (calculated k v).
Proof.
  split.
  - intros q r. unfold calculated. destruct (dappend _ _ _); intros H; inversion H; reflexivity.
  - intros q q' [? ? L C C']. unfold calculated.
    destruct (dappend_lists _ k v C) as (d & -> & Hd). destruct (dappend_lists _ k v C') as (d' & -> & Hd').
    constructor; auto.
Qed.

Lemma upd_good f : good f -> forall i s s', Forall2 sim2 s s' ->
  match upd_at i f s, upd_at i f s' with
  | Ok r, Ok r' => Forall2 sim2 r r' /\ map core r = map core s /\ map core r' = map core s'
  | Err e, Err e' => e = e'
  | _, _ => False
  end.
Proof.
  intros [G1 G2] i s s' H. revert i. induction H as [|q q' s s' Hq Hs IH]; intros [|i]; cbn; auto.
  - specialize (G2 _ _ Hq). destruct (f q) eqn:E1, (f q') eqn:E2; auto; try tauto.
    cbn. rewrite (G1 _ _ E1), (G1 _ _ E2). auto.
  - specialize (IH i). destruct (upd_at i f s), (upd_at i f s'); auto; try tauto.
    destruct IH as (F & M1 & M2). cbn. rewrite M1, M2. auto.
Qed.
Lemma apply1_sim o s s' : Forall2 sim2 s s' ->
  match apply1 avg o s, apply1 avg o s' with
  | Ok r, Ok r' => Forall2 sim2 r r' /\ map core r = map core s /\ map core r' = map core s'
  | Err e, Err e' => e = e'
  | _, _ => False
  end.
Proof. destruct o; apply upd_good; [apply good_single|apply good_avg|apply good_state|apply good_calc]. Qed.
Lemma applyAll_sim ops : forall s s', Forall2 sim2 s s' ->
  match applyAll avg ops s, applyAll avg ops s' with
  | Ok r, Ok r' => Forall2 sim2 r r' /\ map core r = map core s /\ map core r' = map core s'
  | Err e, Err e' => e = e'
  | _, _ => False
  end.
Proof.
  induction ops as [|o ops IH]; intros s s' H; cbn.
  - auto.
  - pose proof (apply1_sim o s s' H) as E.
    destruct (apply1 avg o s) as [r|], (apply1 avg o s') as [r'|]; cbn; auto; try tauto.
    destruct E as (F & M1 & M2). specialize (IH r r' F).
    destruct (applyAll avg ops r), (applyAll avg ops r'); auto; try tauto.
    rewrite M1, M2 in IH. exact IH.
Qed.

(** Two states of the same objects. *)
Definition same_core (s s' : list qres) : Prop := map core s = map core s' /\ calc_ok s /\ calc_ok s'.
Lemma resetLast_sim s s' : same_core s s' -> Forall2 sim2 (resetLast s) (resetLast s').
Proof.
  intros (H & C & C'). revert s' H C'. induction s as [|q s IH]; intros [|q' s'] H C'; inversion H; cbn; constructor.
  - inversion C; inversion C'; subst. constructor; auto.
  - inversion C; inversion C'; subst. apply IH; auto.
Qed.
Lemma resetLast_core s : map core (resetLast s) = map core s.
Proof. unfold resetLast. rewrite map_map. apply map_ext. reflexivity. Qed.
Lemma sim2_calc_l s s' : Forall2 sim2 s s' -> calc_ok s.
Proof. induction 1 as [|? ? ? ? [? ? ?] ?]; constructor; auto. Qed.
Lemma sim2_calc_r s s' : Forall2 sim2 s s' -> calc_ok s'.
Proof. induction 1 as [|? ? ? ? [? ? ?] ?]; constructor; auto. Qed.
Lemma sim2_last s s' : Forall2 sim2 s s' -> map lastOf s = map lastOf s'.
Proof.
  induction 1 as [|q q' ? ? [? ? L] ? IH]; cbn; auto. unfold lasts in L.
  rewrite IH. f_equal. unfold lastOf. congruence.
Qed.

Lemma runPoint_sim ops s s' : same_core s s' ->
  match runPointRes avg ops s, runPointRes avg ops s' with
  | Ok r, Ok r' => map lastOf r = map lastOf r' /\ same_core r s' /\ map core r' = map core s' /\ calc_ok r'
  | Err e, Err e' => e = e'
  | _, _ => False
  end.
Proof.
  intros H. pose proof (applyAll_sim ops _ _ (resetLast_sim s s' H)) as E. unfold runPointRes.
  destruct (applyAll _ _ (resetLast s)), (applyAll _ _ (resetLast s')); auto.
  destruct E as (F & M1 & M2). rewrite resetLast_core in M1, M2.
  destruct H as (H & C & C').
  repeat split; auto.
  - now apply sim2_last.
  - congruence.
  - eapply sim2_calc_l; eauto.
  - eapply sim2_calc_r; eauto.
Qed.

(** *** organising *)
Lemma organise_core ls : forall s s', map core s = map core s' ->
  match organise ls s, organise ls s' with
  | Ok r, Ok r' => map core r = map core r' /\ map q_calc r = map q_calc s /\ map q_calc r' = map q_calc s'
      /\ map lastOf r = map lastOf s
  | Err e, Err e' => e = e'
  | _, _ => False
  end.
Proof.
  induction ls as [|l ls IH]; intros s s' H; cbn; [auto|].
  destruct s as [|q s], s' as [|q' s']; inversion H as [[H1 H2 H3]]; [auto|].
  unfold organise1. rewrite H1. destruct (appendAll (fst l) (q_results q')); cbn; [|reflexivity].
  rewrite H2. destruct (appendAll (snd l) (q_states q')); cbn; [|reflexivity].
  specialize (IH s s' H3). destruct (organise ls s), (organise ls s'); cbn; try tauto.
  destruct IH as (I1 & I2 & I3 & I4). cbn. rewrite I1, I2, I3, I4. auto.
Qed.

Lemma calc_ok_map s s' : map q_calc s = map q_calc s' -> calc_ok s -> calc_ok s'.
Proof.
  intros H C. unfold calc_ok in *. rewrite <- Forall_map in *. rewrite <- H. exact C.
Qed.

(** *** the pool *)
Lemma execute_table point (s : list qres) sched : forall table i,
  execute avg point s sched table i
  = if in_dec Nat.eq_dec i sched then Some (task avg point s i) else table i.
Proof.
  induction sched as [|j r IH]; intros table i; cbn [execute]; auto.
  rewrite IH. destruct (in_dec Nat.eq_dec i r), (in_dec Nat.eq_dec i (j :: r)) as [I|I]; auto.
  - exfalso. apply I. now right.
  - destruct I as [->|I]; [|tauto]. now rewrite Nat.eqb_refl.
  - destruct (Nat.eqb_spec i j); auto. exfalso; apply I. left; auto.
Qed.

Fixpoint tasks (point : nat -> list rop) (s : list qres) (pts : list nat) :=
  match pts with
  | [] => Ok []
  | i :: r => bind (task avg point s i) (fun x => bind (tasks point s r) (fun l => Ok (x :: l)))
  end.
Lemma collect_tasks point s sched pts : (forall i, In i pts -> In i sched) ->
  collect (execute avg point s sched (fun _ => None)) pts = tasks point s pts.
Proof.
  induction pts as [|i r IH]; intros H; cbn; auto.
  rewrite execute_table. destruct (in_dec Nat.eq_dec i sched) as [I|I].
  - destruct (task avg point s i); cbn; auto. rewrite IH; auto. intros; apply H; now right.
  - exfalso; apply I, H; now left.
Qed.

(** Both processes end in the same core state, or both fail. *)
Lemma loops_agree point s0 : calc_ok s0 -> forall pts s t, same_core s t -> map core t = map core t ->
  (forall i, match task avg point s0 i, runPointRes avg (point i) s with _, _ => True end) ->
  List.length s = List.length s0 ->
  match singleLoop avg point pts s, bind (tasks point s0 pts) (fun rs => organiseMulti rs t) with
  | Ok r, Ok r' => same_core r r'
  | Err _, Err _ => True
  | _, _ => False
  end.
Proof.
  intros C0. induction pts as [|i pts IH]; intros s t H _ _ L; cbn.
  - exact H.
  - (* the point from s and from s0 *)
    assert (E : match runPointRes avg (point i) s, runPointRes avg (point i) s0 with
      | Ok r, Ok r' => map lastOf r = map lastOf r' /\ same_core r s
      | Err e, Err e' => e = e'
      | _, _ => False end).
    { assert (F : Forall2 sim2 (resetLast s) (resetLast s0)).
      { destruct H as (_ & C & _). clear -L C C0. revert s0 L C0.
        induction s as [|q s IH]; intros [|q0 s0] L C0; cbn in *; try discriminate; constructor.
        - inversion C; inversion C0; subst. constructor; auto.
        - inversion C; inversion C0; subst. apply IH; auto. }
      pose proof (applyAll_sim (point i) _ _ F) as E. unfold runPointRes.
      destruct (applyAll avg (point i) (resetLast s)), (applyAll avg (point i) (resetLast s0)); auto.
      destruct E as (F' & M1 & M2). rewrite resetLast_core in M1. split; [now apply sim2_last|].
      repeat split; auto. eapply sim2_calc_l; eauto. exact (proj1 (proj2 H)). }
    unfold task. destruct (runPointRes avg (point i) s) as [r|e], (runPointRes avg (point i) s0) as [r0|e0]; cbn; try tauto.
    destruct E as (EL & ES). unfold organiseSingle. rewrite EL.
    destruct H as (HC & Cs & Ct).
    assert (Hrt : map core r = map core t) by (destruct ES; congruence).
    pose proof (organise_core (map lastOf r0) r t Hrt) as O.
    destruct (organise (map lastOf r0) r) as [r1|e1] eqn:O1, (organise (map lastOf r0) t) as [t1|e1'] eqn:O2; cbn; try tauto.
    + destruct O as (OC & O3 & O4 & _).
      assert (SC : same_core r1 t1).
      { split; [auto|]. split.
        - eapply calc_ok_map; [symmetry; exact O3|]. exact (proj1 (proj2 ES)).
        - eapply calc_ok_map; [symmetry; exact O4|]. exact Ct. }
      assert (L1 : List.length r1 = List.length s0).
      { rewrite <- L, <- (map_length core r1), <- (map_length core s), OC.
        rewrite HC, !map_length. rewrite <- (map_length q_calc t1), O4. apply map_length. }
      specialize (IH r1 t1 SC eq_refl (fun _ => I) L1).
      destruct (tasks point s0 pts) as [rs|]; cbn in *; [rewrite O2; cbn; exact IH|].
      exact IH.
    + destruct (tasks point s0 pts) as [rs|]; cbn; auto. now rewrite O2.
Qed.

Lemma finalise_core inds s s' : map core s = map core s' ->
  match finaliseAll inds s, finaliseAll inds s' with
  | Ok r, Ok r' => map observable r = map observable r'
  | Err e, Err e' => e = e'
  | _, _ => False
  end.
Proof.
  revert s'. induction s as [|q s IH]; intros [|q' s'] H; inversion H as [[H1 H2 H3]]; cbn; auto.
  unfold finalise1. rewrite H1, H2.
  destruct (finDict inds (q_results q')); cbn; auto. destruct (finDict inds (q_states q')); cbn; auto.
  specialize (IH _ H3). destruct (finaliseAll inds s), (finaliseAll inds s'); cbn; try tauto. now rewrite IH.
Qed.

Theorem single_multi point sched n inds s : calc_ok s -> (forall i, i < n -> In i sched) ->
  match nonParalEvol avg point n inds s, paralEvol avg point sched n inds s with
  | Ok r, Ok r' => map observable r = map observable r'
  | Err _, Err _ => True
  | _, _ => False
  end.
Proof.
  intros C S. unfold nonParalEvol, paralEvol.
  rewrite collect_tasks by (intros i Hi; apply S; apply in_seq in Hi; lia).
  pose proof (loops_agree point s C (seq 0 n) s s) as L.
  assert (SC : same_core s s) by (repeat split; auto).
  specialize (L SC eq_refl (fun _ => I) eq_refl).
  destruct (singleLoop avg point (seq 0 n) s) as [r|], (tasks point s (seq 0 n)) as [rs|]; cbn in *; try tauto.
  - destruct (organiseMulti rs s) as [r'|]; cbn; try tauto.
    pose proof (finalise_core inds r r' (proj1 L)).
    destruct (finaliseAll inds r), (finaliseAll inds r'); auto.
  - destruct (organiseMulti rs s) as [r'|]; cbn; tauto.
Qed.

(** *** what a point without averages records *)
Definition dget_at (f : qres -> list (string * pv)) (s : list qres) (i : nat) (k : string) : option pv :=
  match nth_error s i with Some q => dget (f q) k | None => None end.

Lemma upd_at_ok i f (s : list qres) q q' : nth_error s i = Some q -> f q = Ok q' ->
  exists s', upd_at i f s = Ok s' /\ nth_error s' i = Some q' /\
             (forall j, j <> i -> nth_error s' j = nth_error s j) /\ List.length s' = List.length s.
Proof.
  revert i. induction s as [|x s IH]; intros [|i] H E; cbn in H; try discriminate.
  - inversion H; subst. cbn. rewrite E. eexists; repeat split; auto.
    intros [|j] Hj; [congruence|reflexivity].
  - destruct (IH i H E) as (s' & U & N & O & L). cbn. rewrite U. eexists; repeat split; auto.
    + intros [|j] Hj; auto. cbn. apply O. congruence.
    + cbn. congruence.
Qed.

(** The dictionary [d] holds, for every key, the list [val k] (absent when
    empty). *)
Definition holds (d : list (string * pv)) (val : string -> list pv) : Prop :=
  NoDup (map fst d) /\ forall k, dget d k = match val k with [] => None | l => Some (PL l) end.

Lemma dappend_holds d val k v : holds d val ->
  exists d', dappend d k v = Ok d' /\ holds d' (fun k' => if String.eqb k' k then val k ++ [v] else val k').
Proof.
  intros [ND H]. unfold dappend. rewrite H.
  assert (R : holds (dput d k (PL (val k ++ [v]))) (fun k' => if String.eqb k' k then val k ++ [v] else val k')).
  { split; [now apply dput_NoDup|]. intros k'. destruct (String.eqb_spec k' k) as [->|N].
    - rewrite dget_dput_same. destruct (val k); reflexivity.
    - rewrite dget_dput_other by exact N. apply H. }
  destruct (val k) eqn:E; cbn in *; eauto.
Qed.

Lemma holds_ext d v1 v2 : (forall k, v1 k = v2 k) -> holds d v1 -> holds d v2.
Proof. intros E [N H]. split; auto. intros k. rewrite H, E. reflexivity. Qed.

Lemma upd_core i f (s s1 : list qres) : (forall q r, f q = Ok r -> core r = core q) ->
  upd_at i f s = Ok s1 -> map core s1 = map core s.
Proof.
  intros G. revert i s1. induction s as [|x s IH]; intros [|i] s1 U; cbn [upd_at] in U; try discriminate.
  - destruct (f x) eqn:E; inversion U; subst. cbn. now rewrite (G _ _ E).
  - destruct (upd_at i f s) eqn:E; inversion U; subst. cbn. now rewrite (IH _ _ E).
Qed.

Lemma run_from_app c a l x : run_from avg c a (l ++ [x]) = avg (c + List.length l) (run_from avg c a l) x.
Proof.
  revert c a. induction l as [|y l IH]; intros c a; cbn.
  - now rewrite Nat.add_0_r.
  - rewrite IH. f_equal. lia.
Qed.

Definition leftover (l : list pv) (a : list A) : option pv :=
  match l with [] => match run_avg avg a with Some x => Some (Scal x) | None => None end | _ => Some (PL l) end.
Record obj_ok (q : qres) (R S C : string -> list pv) (V : string -> list A) : Prop := {
  ok_last : forall k, dget (q_resLast q) k = leftover (R k) (V k);
  ok_avg : forall k, dget (q_average q) k
             = match run_avg avg (V k) with Some x => Some (x, List.length (V k)) | None => None end;
  ok_nd : NoDup (map fst (q_resLast q));
  ok_st : holds (q_stLast q) S;
  ok_calc : holds (q_calc q) C }.

Lemma obj_ext q R R' S S' C C' V V' : (forall k, R k = R' k) -> (forall k, S k = S' k) -> (forall k, C k = C' k) ->
  (forall k, V k = V' k) -> obj_ok q R S C V -> obj_ok q R' S' C' V'.
Proof.
  intros ER ES EC EV [H1 H2 H3 H4 H5]. constructor; auto; intros.
  - now rewrite <- ER, <- EV.
  - now rewrite <- EV.
  - eapply holds_ext; eauto.
  - eapply holds_ext; eauto.
Qed.

Definition ext {X} (f : nat -> string -> list X) (i : nat) (k : string) (v : X) : nat -> string -> list X :=
  fun j k' => if Nat.eqb i j && String.eqb k k' then f j k' ++ [v] else f j k'.

Lemma ext_here {X} (f : nat -> string -> list X) i k v k' :
  ext f i k v i k' = if String.eqb k k' then f i k' ++ [v] else f i k'.
Proof. unfold ext. now rewrite Nat.eqb_refl. Qed.
Lemma ext_there {X} (f : nat -> string -> list X) i k v j k' : j <> i -> ext f i k v j k' = f j k'.
Proof. intros N. unfold ext. destruct (Nat.eqb_spec i j); [congruence|reflexivity]. Qed.

Lemma holds_ext_here d f i k v : holds d (f i) ->
  exists d', dappend d k v = Ok d' /\ holds d' (ext f i k v i).
Proof.
  intros H. destruct (dappend_holds d (f i) k v H) as (d' & E & H'). exists d'; split; auto.
  eapply holds_ext; [|exact H']. intros k'. cbn. rewrite ext_here.
  rewrite (String.eqb_sym k k'). destruct (String.eqb_spec k' k); congruence.
Qed.

Lemma applyAll_holds ops : forall (s : list qres),
  Forall (fun o => op_index o < List.length s) ops ->
  forall (R S C : nat -> string -> list pv) (V : nat -> string -> list A),
  (forall i k, R i k ++ singles ops i k = [] \/ V i k ++ averaged ops i k = []) ->
  (forall i q, nth_error s i = Some q -> obj_ok q (R i) (S i) (C i) (V i)) ->
  exists s' C', applyAll avg ops s = Ok s' /\ List.length s' = List.length s /\ map core s' = map core s /\
    forall i q, nth_error s' i = Some q ->
      obj_ok q (fun k => R i k ++ singles ops i k) (fun k => S i k ++ storedStates ops i k) (C' i)
               (fun k => V i k ++ averaged ops i k).
Proof.
  induction ops as [|o ops IH]; intros s HI R S C V HS H.
  - exists s, C. split; [reflexivity|]. split; [reflexivity|]. split; [reflexivity|]. intros i q Hq.
    eapply obj_ext; [..|exact (H i q Hq)]; intros; cbn; now rewrite ?app_nil_r.
  - inversion HI as [|? ? HI1 HI2]; subst.
    (* one call, then the rest *)
    assert (K : forall s1 R1 S1 C1 V1, apply1 avg o s = Ok s1 -> List.length s1 = List.length s ->
       map core s1 = map core s ->
       (forall i q, nth_error s1 i = Some q -> obj_ok q (R1 i) (S1 i) (C1 i) (V1 i)) ->
       (forall i k, R1 i k ++ singles ops i k = R i k ++ singles (o :: ops) i k) ->
       (forall i k, S1 i k ++ storedStates ops i k = S i k ++ storedStates (o :: ops) i k) ->
       (forall i k, V1 i k ++ averaged ops i k = V i k ++ averaged (o :: ops) i k) ->
       exists s' C', applyAll avg (o :: ops) s = Ok s' /\ List.length s' = List.length s /\ map core s' = map core s /\
       forall i q, nth_error s' i = Some q ->
       obj_ok q (fun k => R i k ++ singles (o :: ops) i k) (fun k => S i k ++ storedStates (o :: ops) i k) (C' i)
               (fun k => V i k ++ averaged (o :: ops) i k)).
    { intros s1 R1 S1 C1 V1 E1 L1 M1 O1 ER ES EV.
      destruct (IH s1 ltac:(now rewrite L1) R1 S1 C1 V1) as (s' & C' & E & L & M & G).
      - intros i k. rewrite ER, EV. apply HS.
      - exact O1.
      - exists s', C'. cbn [applyAll]. rewrite E1. cbn [bind]. split; [exact E|].
        split; [congruence|]. split; [congruence|]. intros i q Hq.
        eapply obj_ext; [..|exact (G i q Hq)]; intros; cbn beta; auto. }
    destruct o as [i k v|i k x|i k v|i k v]; cbn [op_index] in HI1;
      destruct (nth_error_ok s i HI1) as [q Hq]; destruct (H i q Hq) as [H1 H2 H3 H4 H5].
    + (* Single *)
      assert (Vn : V i k = []).
      { destruct (HS i k) as [Z|Z]; apply app_eq_nil in Z; destruct Z as [Z1 Z2]; auto.
        cbn [singles] in Z2. rewrite Nat.eqb_refl, String.eqb_refl in Z2. discriminate. }
      assert (D : dappend (q_resLast q) k v = Ok (dput (q_resLast q) k (PL (R i k ++ [v])))).
      { unfold dappend. rewrite H1, Vn. unfold leftover; cbn. destruct (R i k); reflexivity. }
      destruct (upd_at_ok i (singleResult k v) s q
        (QRes (q_results q) (q_average q) (dput (q_resLast q) k (PL (R i k ++ [v]))) (q_states q) (q_stLast q) (q_calc q)) Hq)
        as (s1 & U & N1 & N2 & L).
      { unfold singleResult. rewrite D. reflexivity. }
      apply (K s1 (ext R i k v) S C V U L (upd_core _ _ _ _ (proj1 (good_single k v)) U)).
      * intros j q' Hj. destruct (Nat.eq_dec j i) as [->|Nj].
        -- rewrite N1 in Hj. inversion Hj; subst q'. constructor; cbn; auto.
           ++ intros k'. rewrite ext_here. destruct (String.eqb_spec k k') as [<-|Nk].
              ** rewrite dget_dput_same. unfold leftover. destruct (R i k); reflexivity.
              ** rewrite dget_dput_other by congruence. apply H1.
           ++ now apply dput_NoDup.
        -- rewrite N2 in Hj by exact Nj. eapply obj_ext; [..|exact (H j q' Hj)]; intros; auto.
           symmetry; now apply ext_there.
      * intros j k'. cbn [singles]. unfold ext. destruct (_ && _); [now rewrite <- app_assoc|reflexivity].
      * reflexivity.
      * reflexivity.
    + (* Avg *)
      assert (Rn : R i k = []).
      { destruct (HS i k) as [Z|Z]; apply app_eq_nil in Z; destruct Z as [Z1 Z2]; auto.
        cbn [averaged] in Z2. rewrite Nat.eqb_refl, String.eqb_refl in Z2. discriminate. }
      assert (D : exists a, run_avg avg (V i k ++ [x]) = Some a /\ resAverage avg k x q
        = Ok (QRes (q_results q) (dput (q_average q) k (a, List.length (V i k ++ [x]))) (dput (q_resLast q) k (Scal a))
                   (q_states q) (q_stLast q) (q_calc q))).
      { unfold resAverage. rewrite H2. destruct (V i k) as [|y r]; cbn [run_avg List.app List.length].
        - exists x. auto.
        - eexists. split; [reflexivity|]. rewrite run_from_app, app_length. cbn [List.length].
          rewrite Nat.add_1_r. reflexivity. }
      destruct D as (a & Da & D).
      destruct (upd_at_ok i (resAverage avg k x) s q _ Hq D) as (s1 & U & N1 & N2 & L).
      apply (K s1 R S C (ext V i k x) U L (upd_core _ _ _ _ (proj1 (good_avg k x)) U)).
      * intros j q' Hj. destruct (Nat.eq_dec j i) as [->|Nj].
        -- rewrite N1 in Hj. inversion Hj; subst q'. constructor; cbn; auto.
           ++ intros k'. rewrite ext_here. destruct (String.eqb_spec k k') as [<-|Nk].
              ** rewrite dget_dput_same. unfold leftover. rewrite Rn, Da. reflexivity.
              ** rewrite dget_dput_other by congruence. apply H1.
           ++ intros k'. rewrite ext_here. destruct (String.eqb_spec k k') as [<-|Nk].
              ** rewrite dget_dput_same, Da. reflexivity.
              ** rewrite dget_dput_other by congruence. apply H2.
           ++ now apply dput_NoDup.
        -- rewrite N2 in Hj by exact Nj. eapply obj_ext; [..|exact (H j q' Hj)]; intros; auto.
           symmetry; now apply ext_there.
      * reflexivity.
      * reflexivity.
      * intros j k'. cbn [averaged]. unfold ext. destruct (_ && _); [now rewrite <- app_assoc|reflexivity].
    + (* State *)
      destruct (holds_ext_here _ S i k v H4) as (d & Ed & Hd).
      destruct (upd_at_ok i (storeState k v) s q (QRes (q_results q) (q_average q) (q_resLast q) (q_states q) d (q_calc q)) Hq) as (s1 & U & N1 & N2 & L).
      { unfold storeState. rewrite Ed. reflexivity. }
      apply (K s1 R (ext S i k v) C V U L (upd_core _ _ _ _ (proj1 (good_state k v)) U)).
      * intros j q' Hj. destruct (Nat.eq_dec j i) as [->|Nj].
        -- rewrite N1 in Hj. inversion Hj; subst q'. constructor; cbn; auto.
        -- rewrite N2 in Hj by exact Nj. eapply obj_ext; [..|exact (H j q' Hj)]; intros; auto.
           symmetry; now apply ext_there.
      * reflexivity.
      * intros j k'. cbn [storedStates]. unfold ext. destruct (_ && _); [now rewrite <- app_assoc|reflexivity].
      * reflexivity.
    + (* Calc *)
      destruct (holds_ext_here _ C i k v H5) as (d & Ed & Hd).
      destruct (upd_at_ok i (calculated k v) s q (QRes (q_results q) (q_average q) (q_resLast q) (q_states q) (q_stLast q) d) Hq) as (s1 & U & N1 & N2 & L).
      { unfold calculated. rewrite Ed. reflexivity. }
      apply (K s1 R S (ext C i k v) V U L (upd_core _ _ _ _ (proj1 (good_calc k v)) U)); try reflexivity.
      intros j q' Hj. destruct (Nat.eq_dec j i) as [->|Nj].
      * rewrite N1 in Hj. inversion Hj; subst q'. constructor; cbn; auto.
      * rewrite N2 in Hj by exact Nj. eapply obj_ext; [..|exact (H j q' Hj)]; intros; auto.
        symmetry; now apply ext_there.
Qed.

(** One point, started from any state whose calculated entries are lists. *)
Definition calc_holds (s : list qres) : Prop :=
  exists C, forall i q, nth_error s i = Some q -> holds (q_calc q) (C i).

Lemma runPoint_records ops s : Forall (fun o => op_index o < List.length s) ops -> separate ops -> calc_holds s ->
  exists s', runPointRes avg ops s = Ok s' /\ List.length s' = List.length s /\ map core s' = map core s /\
    calc_holds s' /\
    forall i q, nth_error s' i = Some q ->
      NoDup (map fst (q_resLast q)) /\ NoDup (map fst (q_stLast q)) /\
      forall k, dget (q_resLast q) k = recorded avg ops i k /\ dget (q_stLast q) k = recordedState ops i k.
Proof.
  intros HI HS [C HC]. unfold runPointRes.
  destruct (applyAll_holds ops (resetLast s) ltac:(unfold resetLast; now rewrite map_length)
     (fun _ _ => []) (fun _ _ => []) C (fun _ _ => [])) as (s' & C' & E & L & M & G).
  - intros i k. exact (HS i k).
  - intros i q Hq. unfold resetLast in Hq. rewrite nth_error_map in Hq.
    destruct (nth_error s i) as [q0|] eqn:E; [|discriminate]. cbn in Hq. inversion Hq; subst. 
    constructor; cbn; [reflexivity|reflexivity|constructor|split; [constructor|reflexivity]|exact (HC i q0 E)].
  - exists s'. split; [exact E|]. split; [unfold resetLast in L; now rewrite map_length in L|].
    split; [rewrite M; apply resetLast_core|]. split.
    + exists C'. intros i q Hq. exact (ok_calc _ _ _ _ _ (G i q Hq)).
    + intros i q Hq. destruct (G i q Hq) as [G1 G2 G3 G4 G5]. split; auto. split; [apply G4|].
      intros k. split; [rewrite G1; cbn; unfold leftover, recorded; destruct (singles ops i k); reflexivity|].
      rewrite (proj2 G4 k). reflexivity.
Qed.

(** *** the loop *)
Definition olist (o : option pv) : list pv := match o with Some v => [v] | None => [] end.
Lemma appendAll_holds src : NoDup (map fst src) -> forall dst V, holds dst V ->
  exists d, appendAll src dst = Ok d /\ holds d (fun k => V k ++ olist (dget src k)).
Proof.
  induction src as [|[k v] r IH]; intros ND dst V H; cbn [appendAll].
  - exists dst. split; auto. eapply holds_ext; [|exact H]. intros; cbn; now rewrite app_nil_r.
  - inversion ND as [|? ? Hn Hr]; subst.
    destruct (dappend_holds dst V k v H) as (d1 & E1 & H1). rewrite E1. cbn [bind].
    destruct (IH Hr _ _ H1) as (d & E & Hd). exists d; split; auto.
    eapply holds_ext; [|exact Hd]. intros k'. cbn. destruct (String.eqb_spec k' k) as [->|N]; auto.
    apply dget_None in Hn. rewrite Hn. cbn. now rewrite app_nil_r.
Qed.

Definition core_holds (s : list qres) (R S : nat -> string -> list pv) : Prop :=
  forall i q, nth_error s i = Some q -> holds (q_results q) (R i) /\ holds (q_states q) (S i).

Lemma organise_holds ls : forall s R S, List.length ls = List.length s ->
  (forall i l, nth_error ls i = Some l -> NoDup (map fst (fst l)) /\ NoDup (map fst (snd l))) ->
  core_holds s R S ->
  exists s', organise ls s = Ok s' /\ List.length s' = List.length s /\ map q_calc s' = map q_calc s /\
    core_holds s' (fun i k => R i k ++ olist (match nth_error ls i with Some l => dget (fst l) k | None => None end))
                  (fun i k => S i k ++ olist (match nth_error ls i with Some l => dget (snd l) k | None => None end)).
Proof.
  induction ls as [|l ls IH]; intros [|q s] R S L ND H; cbn in L; try discriminate.
  - exists []. repeat split; auto; destruct i; discriminate.
  - destruct (H 0 q eq_refl) as [H1 H2]. destruct (ND 0 l eq_refl) as [N1 N2].
    destruct (appendAll_holds _ N1 _ _ H1) as (d1 & E1 & G1).
    destruct (appendAll_holds _ N2 _ _ H2) as (d2 & E2 & G2).
    destruct (IH s (fun i => R (Datatypes.S i)) (fun i => S (Datatypes.S i))) as (s' & E & L' & C & G).
    + congruence.
    + intros i x Hx. exact (ND (Datatypes.S i) x Hx).
    + intros i x Hx. exact (H (Datatypes.S i) x Hx).
    + cbn [organise]. unfold organise1. rewrite E1. cbn [bind]. rewrite E2. cbn [bind]. rewrite E. cbn [bind].
      eexists. split; [reflexivity|]. cbn [List.length map]. split; [congruence|]. split; [cbn; congruence|].
      intros [|i] x Hx.
      * cbn in Hx. inversion Hx; subst x. cbn. auto.
      * exact (G i x Hx).
Qed.

Lemma singleLoop_holds point pts : forall s R S,
  Forall (fun p => Forall (fun o => op_index o < List.length s) (point p) /\ separate (point p)) pts ->
  calc_holds s -> core_holds s R S ->
  exists s', singleLoop avg point pts s = Ok s' /\ List.length s' = List.length s /\ calc_holds s' /\
    core_holds s' (fun i k => R i k ++ flat_map (fun p => olist (recorded avg (point p) i k)) pts)
                  (fun i k => S i k ++ flat_map (fun p => olist (recordedState (point p) i k)) pts).
Proof.
  induction pts as [|p pts IH]; intros s R S HP HC H.
  - exists s. split; [reflexivity|]. split; [reflexivity|]. split; [exact HC|]. intros i q Hq. destruct (H i q Hq).
    split; (eapply holds_ext; [|eassumption]); intros; cbn; now rewrite app_nil_r.
  - inversion HP as [|? ? [P1 P2] HP']; subst.
    destruct (runPoint_records (point p) s P1 P2 HC) as (s1 & E1 & L1 & M1 & C1 & G1).
    assert (H1 : core_holds s1 R S).
    { intros i q Hq. assert (E : nth_error (map core s1) i = Some (core q)) by (rewrite nth_error_map, Hq; reflexivity).
      rewrite M1, nth_error_map in E. destruct (nth_error s i) as [q0|] eqn:E0; [|discriminate].
      cbn in E. inversion E as [[X Y]]. destruct (H i q0 E0). split; congruence || (rewrite <- ?X, <- ?Y; auto) || (rewrite ?X, ?Y in *; auto). }
    destruct (organise_holds (map lastOf s1) s1 R S) as (s2 & E2 & L2 & C2 & G2).
    + now rewrite map_length.
    + intros i l Hl. rewrite nth_error_map in Hl. destruct (nth_error s1 i) as [q|] eqn:E; [|discriminate].
      inversion Hl; subst. destruct (G1 i q E) as (? & ? & _). auto.
    + exact H1.
    + assert (C3 : calc_holds s2).
      { destruct C1 as [C C1]. exists C. intros i q Hq.
        assert (E : nth_error (map q_calc s2) i = Some (q_calc q)) by (rewrite nth_error_map, Hq; reflexivity).
        rewrite C2, nth_error_map in E. destruct (nth_error s1 i) as [q0|] eqn:E0; [|discriminate].
        cbn in E. inversion E. apply C1; auto. }
      destruct (IH s2 _ _ ltac:(rewrite L2, L1; exact HP') C3 G2) as (s3 & E3 & L3 & C4 & G3).
      exists s3. cbn [singleLoop]. rewrite E1. cbn [bind]. unfold organiseSingle. rewrite E2. cbn [bind].
      split; [exact E3|]. split; [congruence|]. split; [exact C4|]. intros i q Hq. destruct (G3 i q Hq) as [G31 G32].
      assert (X : exists q1, nth_error s1 i = Some q1).
      { apply nth_error_ok. rewrite <- L2, <- L3. apply nth_error_Some. congruence. }
      destruct X as [q1 Hq1]. destruct (G1 i q1 Hq1) as (_ & _ & G11).
      split; (eapply holds_ext; [|eassumption]); intros k; cbn beta; cbn [flat_map];
        rewrite nth_error_map, Hq1; cbn [option_map lastOf fst snd];
        [rewrite (proj1 (G11 k))|rewrite (proj2 (G11 k))]; now rewrite <- app_assoc.
Qed.

(** *** finalising *)
Lemma finDict_spec inds (d : list (string * pv)) : (forall k v, dget d k = Some v -> exists v', finVal inds v = Ok v') -> NoDup (map fst d) ->
  exists d', finDict inds d = Ok d' /\ map fst d' = map fst d /\
    forall k, match dget d k with
              | Some v => exists v', finVal inds v = Ok v' /\ dget d' k = Some v'
              | None => dget d' k = None
              end.
Proof.
  induction d as [|[k v] r IH]; intros H ND; cbn [finDict].
  - exists []. split; auto. split; auto. intros k; reflexivity.
  - inversion ND as [|? ? Hn Hr]; subst.
    destruct (H k v) as [v' E]; [cbn; now rewrite String.eqb_refl|]. rewrite E. cbn [bind].
    destruct IH as (d' & E' & M & G); auto.
    { intros k1 v1 H1. apply (H k1). cbn. destruct (String.eqb_spec k1 k) as [->|]; auto.
      exfalso. apply Hn. apply dget_In. eauto. }
    rewrite E'. cbn [bind]. eexists. split; [reflexivity|]. split; [cbn; congruence|]. intros k1. cbn [dget fst snd map].
    destruct (String.eqb k1 k) eqn:K; [exists v'; auto|apply G].
Qed.

Lemma finalise_spec inds (s : list qres) R S : core_holds s R S ->
  (forall i k, i < List.length s -> R i k <> [] -> exists v, finVal inds (PL (R i k)) = Ok v) ->
  (forall i k, i < List.length s -> S i k <> [] -> exists v, finVal inds (PL (S i k)) = Ok v) ->
  exists s', finaliseAll inds s = Ok s' /\ List.length s' = List.length s /\ map q_calc s' = map q_calc s /\
    forall i q, nth_error s' i = Some q -> NoDup (map fst (q_results q)) /\ NoDup (map fst (q_states q)) /\
      q_resLast q = q_results q /\ q_stLast q = q_states q /\
      forall k,
        match R i k with
        | [] => dget (q_results q) k = None
        | l => exists v, finVal inds (PL l) = Ok v /\ dget (q_results q) k = Some v
        end /\
        match S i k with
        | [] => dget (q_states q) k = None
        | l => exists v, finVal inds (PL l) = Ok v /\ dget (q_states q) k = Some v
        end.
Proof.
  revert R S. induction s as [|q s IH]; intros R S H HR HS.
  - exists []. repeat split; auto; destruct i; discriminate.
  - destruct (H 0 q eq_refl) as [[N1 H1] [N2 H2]].
    destruct (finDict_spec inds (q_results q)) as (d1 & E1 & M1 & G1); auto.
    { intros k v Hv. rewrite H1 in Hv. destruct (R 0 k) as [|x l] eqn:E; [discriminate|].
      inversion Hv; subst. rewrite <- E. apply HR; [cbn; lia|congruence]. }
    destruct (finDict_spec inds (q_states q)) as (d2 & E2 & M2 & G2); auto.
    { intros k v Hv. rewrite H2 in Hv. destruct (S 0 k) as [|x l] eqn:E; [discriminate|].
      inversion Hv; subst. rewrite <- E. apply HS; [cbn; lia|congruence]. }
    destruct (IH (fun i => R (Datatypes.S i)) (fun i => S (Datatypes.S i))) as (s' & E & L & Mc & G).
    + intros i x Hx. exact (H (Datatypes.S i) x Hx).
    + intros i k Hi. apply HR. cbn; lia.
    + intros i k Hi. apply HS. cbn; lia.
    + cbn [finaliseAll]. unfold finalise1. rewrite E1. cbn [bind]. rewrite E2. cbn [bind]. rewrite E. cbn [bind].
      eexists. split; [reflexivity|]. split; [cbn; congruence|]. split; [cbn; congruence|].
      intros [|i] x Hx.
      * cbn in Hx. inversion Hx; subst x. cbn. rewrite M1, M2. repeat split; auto.
        -- specialize (G1 k). rewrite H1 in G1. destruct (R 0 k); auto.
        -- specialize (G2 k). rewrite H2 in G2. destruct (S 0 k); auto.
      * exact (G i x Hx).
Qed.

Lemma flat_map_full (f : nat -> option pv) n : (forall p, p < n -> f p <> None) ->
  List.length (flat_map (fun p => olist (f p)) (seq 0 n)) = n /\
  forall p, p < n -> nth_error (flat_map (fun p => olist (f p)) (seq 0 n)) p = f p.
Proof.
  revert f. induction n as [|n IH]; intros f H; cbn [seq flat_map].
  - split; auto. intros p Hp; lia.
  - assert (E : flat_map (fun p => olist (f p)) (seq 1 n) = flat_map (fun p => olist (f (Datatypes.S p))) (seq 0 n)).
    { rewrite <- seq_shift. rewrite flat_map_concat_map, map_map, <- flat_map_concat_map. reflexivity. }
    rewrite E. destruct (IH (fun p => f (Datatypes.S p))) as [L G]; [intros; apply H; lia|].
    destruct (f 0) as [v|] eqn:F; [|destruct (H 0); [lia|auto]].
    cbn. split; [congruence|]. intros [|p] Hp; auto. cbn. apply G. lia.
Qed.

Lemma finVal_shape lens (l : list pv) : lens <> [] -> List.length l = prod lens ->
  exists v, finVal (rev lens) (PL l) = Ok v /\ has_shape lens v /\
    forall idx, in_grid lens idx -> exists x, nth_error l (rank lens idx) = Some x /\ pget v idx = Some (unwrap x).
Proof.
  intros N L. destruct (reShape_ok lens l N 0) as [r R]; [cbn; lia|].
  exists (PL r). unfold finVal. rewrite rev_involutive.
  assert (RN : rev lens <> []). { intros Z. apply N. rewrite <- (rev_involutive lens), Z. reflexivity. }
  destruct (rev lens) as [|x y]; [congruence|]. rewrite R. cbn [bind fst].
  destruct (reShape_get lens l N 0 r _ R) as (_ & H & G). repeat split; auto.
Qed.

Lemma calc_holds_reset s : calc_holds (resetAll s).
Proof.
  exists (fun _ _ => []). intros i q Hq. unfold resetAll in Hq. rewrite nth_error_map in Hq.
  destruct (nth_error s i); inversion Hq; subst. split; [constructor|reflexivity].
Qed.
Lemma core_holds_reset s : core_holds (resetAll s) (fun _ _ => []) (fun _ _ => []).
Proof.
  intros i q Hq. unfold resetAll in Hq. rewrite nth_error_map in Hq.
  destruct (nth_error s i); inversion Hq; subst. split; split; try constructor; reflexivity.
Qed.

Lemma flat_map_none (f : nat -> option pv) n : (forall p, p < n -> f p = None) ->
  flat_map (fun p => olist (f p)) (seq 0 n) = [].
Proof.
  intros H. assert (G : forall l, (forall p, In p l -> p < n) -> flat_map (fun p => olist (f p)) l = []).
  { induction l as [|p l IH]; intros Hl; cbn; auto. rewrite H by (apply Hl; now left). cbn. apply IH.
    intros; apply Hl; now right. }
  apply G. intros p Hp. apply in_seq in Hp. lia.
Qed.

Theorem run_shapes point n lens s : lens <> [] -> n = prod lens ->
  (forall p, p < n -> Forall (fun o => op_index o < List.length s) (point p) /\ separate (point p)) ->
  (forall i k, all_or_none (fun p => recorded avg (point p) i k) n) ->
  (forall i k, all_or_none (fun p => recordedState (point p) i k) n) ->
  exists s', runRes avg true point n (rev lens) s = Ok s' /\ List.length s' = List.length s /\
    forall i q, nth_error s' i = Some q -> q_resLast q = q_results q /\ q_stLast q = q_states q /\ forall k,
      ((exists v, dget (q_results q) k = Some v /\ has_shape lens v /\
         forall idx, in_grid lens idx -> exists x,
           recorded avg (point (rank lens idx)) i k = Some x /\ pget v idx = Some (alone x))
       \/ (dget (q_results q) k = None /\ forall p, p < n -> recorded avg (point p) i k = None)) /\
      ((exists v, dget (q_states q) k = Some v /\ has_shape lens v /\
         forall idx, in_grid lens idx -> exists x,
           recordedState (point (rank lens idx)) i k = Some x /\ pget v idx = Some (alone x))
       \/ (dget (q_states q) k = None /\ forall p, p < n -> recordedState (point p) i k = None)).
Proof.
  intros N En HP HA HB. unfold runRes, nonParalEvol.
  assert (HP' : Forall (fun p => Forall (fun o => op_index o < List.length (resetAll s)) (point p) /\ separate (point p)) (seq 0 n)).
  { apply Forall_forall. intros p Hp. apply in_seq in Hp. unfold resetAll. rewrite map_length. apply HP. lia. }
  destruct (singleLoop_holds point (seq 0 n) (resetAll s) _ _ HP' (calc_holds_reset s) (core_holds_reset s))
    as (s1 & E1 & L1 & _ & G1).
  rewrite E1. cbn [bind].
  destruct (finalise_spec (rev lens) s1 _ _ G1) as (s2 & E2 & L2 & _ & G2).
  - intros i k _ Hne. destruct (HA i k) as [Hall|Hnone].
    + destruct (flat_map_full _ n Hall) as [Lf _].
      destruct (finVal_shape lens (flat_map (fun p => olist (recorded avg (point p) i k)) (seq 0 n)) N) as (v & Hv & _); [congruence|].
      exists v. exact Hv.
    + exfalso. apply Hne. exact (flat_map_none _ n Hnone).
  - intros i k _ Hne. destruct (HB i k) as [Hall|Hnone].
    + destruct (flat_map_full _ n Hall) as [Lf _].
      destruct (finVal_shape lens (flat_map (fun p => olist (recordedState (point p) i k)) (seq 0 n)) N) as (v & Hv & _); [congruence|].
      exists v. exact Hv.
    + exfalso. apply Hne. exact (flat_map_none _ n Hnone).
  - exists s2. split; [exact E2|]. split; [unfold resetAll in L1; rewrite map_length in L1; congruence|].
    intros i q Hq. destruct (G2 i q Hq) as (_ & _ & Q1 & Q2 & Q3). split; [exact Q1|]. split; [exact Q2|].
    assert (K : forall (f : nat -> option pv) (d : option pv), all_or_none f n ->
       match [] ++ flat_map (fun p => olist (f p)) (seq 0 n) with
       | [] => d = None
       | l => exists v, finVal (rev lens) (PL l) = Ok v /\ d = Some v
       end ->
       (exists v, d = Some v /\ has_shape lens v /\
         forall idx, in_grid lens idx -> exists x, f (rank lens idx) = Some x /\ pget v idx = Some (alone x))
       \/ (d = None /\ forall p, p < n -> f p = None)).
    { intros f d AN Hd.
      assert (AN' : (0 < n /\ forall p, p < n -> f p <> None) \/ (forall p, p < n -> f p = None)).
      { destruct AN as [Hall|Hnone]; [|now right]. destruct n; [right; intros; lia|left; split; [lia|auto]]. }
      clear AN. destruct AN' as [[Pn Hall]|Hnone].
      - left. destruct (flat_map_full f n Hall) as [Lf Nf].
        destruct (finVal_shape lens _ N ltac:(rewrite Lf; exact En)) as (v & Hv & Sv & Gv).
        cbn [List.app] in Hd.
        destruct (flat_map (fun p => olist (f p)) (seq 0 n)) as [|y l] eqn:F.
        + exfalso. cbn in Lf. lia.
        + destruct Hd as (v' & Hv' & ->). rewrite Hv in Hv'. inversion Hv'; subst v'.
          exists v. repeat split; auto. intros idx Hi. destruct (Gv idx Hi) as (x & Nx & Px).
          exists x. split; auto. rewrite <- Nf; auto. rewrite En. now apply rank_bound.
      - right. cbn [List.app] in Hd. rewrite (flat_map_none f n Hnone) in Hd. auto. }
    intros k. destruct (Q3 k) as [K1 K2]. split; [apply (K _ _ (HA i k) K1)|apply (K _ _ (HB i k) K2)].
Qed.

(** *** a key that is recorded at some points only *)
Lemma finDict_err inds (d : list (string * pv)) k v : dget d k = Some v -> finVal inds v = Err IndexError ->
  (forall k v, dget d k = Some v -> exists l, v = PL l) -> NoDup (map fst d) -> inds <> [] ->
  finDict inds d = Err IndexError.
Proof.
  intros G F HL ND NI. revert G HL. induction d as [|[k1 v1] r IH]; intros G HL; cbn in G; [discriminate|].
  inversion ND as [|? ? Hn Hr]; subst. cbn [finDict].
  destruct (String.eqb_spec k k1) as [->|Nk].
  - inversion G; subst. now rewrite F.
  - destruct (HL k1 v1) as [l ->]; [cbn; now rewrite String.eqb_refl|].
    assert (X : finVal inds (PL l) = Err IndexError \/ exists v', finVal inds (PL l) = Ok v').
    { unfold finVal. destruct inds as [|a b]; [congruence|].
      assert (RN : rev (a :: b) <> []). { cbn. intros Z. apply app_eq_nil in Z. destruct Z; discriminate. }
      destruct (reShape_dich (rev (a :: b)) l RN 0) as [E|[r0 E]]; rewrite E; cbn; eauto. }
    destruct X as [X|[v' X]]; rewrite X; cbn [bind]; auto.
    rewrite IH; auto. intros k2 v2 H2. apply (HL k2). cbn. destruct (String.eqb_spec k2 k1) as [->|]; auto.
    exfalso. apply Hn. apply dget_In. eauto.
Qed.

Lemma finDict_dich inds (d : list (string * pv)) :
  (forall k v, In (k, v) d -> exists l, v = PL l) -> inds <> [] ->
  finDict inds d = Err IndexError \/ exists d', finDict inds d = Ok d'.
Proof.
  intros HL NI. induction d as [|[k1 v1] r IH]; cbn [finDict]; eauto.
  destruct (HL k1 v1) as [l ->]; [now left|].
  assert (X : finVal inds (PL l) = Err IndexError \/ exists v', finVal inds (PL l) = Ok v').
  { unfold finVal. destruct inds as [|a b]; [congruence|].
    assert (RN : rev (a :: b) <> []). { cbn. intros Z. apply app_eq_nil in Z. destruct Z; discriminate. }
    destruct (reShape_dich (rev (a :: b)) l RN 0) as [E|[r0 E]]; rewrite E; cbn; eauto. }
  destruct X as [X|[v' X]]; rewrite X; cbn [bind]; auto.
  destruct IH as [E|[d' E]]; [intros k v Hin; apply (HL k v); now right|..]; rewrite E; cbn; eauto.
Qed.

Lemma holds_lists d V : holds d V -> forall k v, In (k, v) d -> exists l, v = PL l.
Proof.
  intros [ND H] k v Hin. assert (G : dget d k = Some v).
  { clear H. induction d as [|[k1 v1] r IH]; [destruct Hin|]. inversion ND as [|? ? Hn Hr]; subst. cbn.
    destruct Hin as [E|Hin]; [inversion E; subst; now rewrite String.eqb_refl|].
    destruct (String.eqb_spec k k1) as [->|]; auto. exfalso. apply Hn. apply (in_map fst) in Hin. exact Hin. }
  rewrite H in G. destruct (V k); inversion G; eauto.
Qed.
Lemma holds_lists' d V : holds d V -> forall k v, dget d k = Some v -> exists l, v = PL l.
Proof. intros [ND H] k v G. rewrite H in G. destruct (V k); inversion G; eauto. Qed.

Lemma finaliseAll_err inds (s : list qres) R S i q k : inds <> [] -> core_holds s R S -> nth_error s i = Some q ->
  R i k <> [] -> finVal inds (PL (R i k)) = Err IndexError -> finaliseAll inds s = Err IndexError.
Proof.
  intros NI. revert R S i. induction s as [|q0 s IH]; intros R S i H Hq HR F; [destruct i; discriminate|].
  cbn [finaliseAll]. destruct (H 0 q0 eq_refl) as [H1 H2].
  destruct i as [|i].
  - cbn in Hq. inversion Hq; subst q0. unfold finalise1.
    rewrite (finDict_err inds (q_results q) k (PL (R 0 k))); auto.
    + rewrite (proj2 H1). destruct (R 0 k); congruence.
    + apply (holds_lists' _ _ H1).
    + apply H1.
  - assert (D : finalise1 inds q0 = Err IndexError \/ exists q', finalise1 inds q0 = Ok q').
    { unfold finalise1.
      destruct (finDict_dich inds (q_results q0) (holds_lists _ _ H1) NI) as [E|[d E]]; rewrite E; cbn [bind]; auto.
      destruct (finDict_dich inds (q_states q0) (holds_lists _ _ H2) NI) as [E2|[d2 E2]]; rewrite E2; cbn [bind]; eauto. }
    destruct D as [D|[q' D]]; rewrite D; cbn [bind]; auto.
    rewrite (IH (fun j => R (Datatypes.S j)) (fun j => S (Datatypes.S j)) i); auto.
    intros j x Hx. exact (H (Datatypes.S j) x Hx).
Qed.

Lemma flat_map_short (f : nat -> option pv) l p : In p l -> f p = None ->
  List.length (flat_map (fun p => olist (f p)) l) < List.length l.
Proof.
  assert (LE : forall l, List.length (flat_map (fun p => olist (f p)) l) <= List.length l).
  { clear. induction l as [|x l IH]; cbn; auto. rewrite app_length. destruct (f x); cbn; lia. }
  intros Hp Hf. induction l as [|x l IH]; [destruct Hp|]. cbn. rewrite app_length. destruct Hp as [->|Hp].
  - rewrite Hf. cbn. specialize (LE l). lia.
  - specialize (IH Hp). destruct (f x); cbn; lia.
Qed.
Lemma flat_map_some (f : nat -> option pv) l p : In p l -> f p <> None ->
  flat_map (fun p => olist (f p)) l <> [].
Proof.
  intros Hp Hf E. assert (X : In p l /\ exists v, f p = Some v) by (split; auto; destruct (f p); [eauto|congruence]).
  destruct X as [_ [v Hv]].
  assert (In v (flat_map (fun p => olist (f p)) l)) by (apply in_flat_map; exists p; rewrite Hv; split; cbn; auto).
  rewrite E in H. destruct H.
Qed.

Theorem partial_recording_fails point n lens s i k p p' : lens <> [] -> n = prod lens -> i < List.length s ->
  (forall p, p < n -> Forall (fun o => op_index o < List.length s) (point p) /\ separate (point p)) ->
  p < n -> recorded avg (point p) i k <> None -> p' < n -> recorded avg (point p') i k = None ->
  runRes avg true point n (rev lens) s = Err IndexError.
Proof.
  intros N En Hi HP Hp Rp Hp' Rp'. unfold runRes, nonParalEvol.
  assert (HP' : Forall (fun p => Forall (fun o => op_index o < List.length (resetAll s)) (point p) /\ separate (point p)) (seq 0 n)).
  { apply Forall_forall. intros x Hx. apply in_seq in Hx. unfold resetAll. rewrite map_length. apply HP. lia. }
  destruct (singleLoop_holds point (seq 0 n) (resetAll s) _ _ HP' (calc_holds_reset s) (core_holds_reset s))
    as (s1 & E1 & L1 & _ & G1).
  rewrite E1. cbn [bind].
  assert (X : exists q, nth_error s1 i = Some q).
  { apply nth_error_ok. rewrite L1. unfold resetAll. now rewrite map_length. }
  destruct X as [q Hq].
  eapply (finaliseAll_err _ _ _ _ i q k); [..|exact G1|exact Hq| |].
  - intros Z. apply N. rewrite <- (rev_involutive lens), Z. reflexivity.
  - cbn [List.app]. apply (flat_map_some (fun p => recorded avg (point p) i k) _ p); auto. apply in_seq. lia.
  - cbn [List.app]. unfold finVal. rewrite rev_involutive.
    pose proof (flat_map_short (fun p => recorded avg (point p) i k) (seq 0 n) p' ltac:(apply in_seq; lia) Rp') as Sh.
    rewrite seq_length in Sh.
    rewrite reShape_short; [destruct (rev lens) eqn:Z; [|reflexivity]|auto|cbn; lia|lia].
    exfalso. apply N. rewrite <- (rev_involutive lens), Z. reflexivity.
Qed.

(** *** no sweep *)
Theorem run_no_sweep point s :
  Forall (fun o => op_index o < List.length s) (point 0) -> separate (point 0) ->
  exists s', runRes avg true point 1 [] s = Ok s' /\ List.length s' = List.length s /\
    forall i q, nth_error s' i = Some q -> forall k,
      dget (q_results q) k = recorded avg (point 0) i k /\ dget (q_states q) k = recordedState (point 0) i k.
Proof.
  intros H1 H2. unfold runRes, nonParalEvol.
  assert (HP' : Forall (fun p => Forall (fun o => op_index o < List.length (resetAll s)) (point p) /\ separate (point p)) (seq 0 1)).
  { constructor; [|constructor]. unfold resetAll. rewrite map_length. auto. }
  destruct (singleLoop_holds point (seq 0 1) (resetAll s) _ _ HP' (calc_holds_reset s) (core_holds_reset s))
    as (s1 & E1 & L1 & _ & G1).
  rewrite E1. cbn [bind].
  destruct (finalise_spec [] s1 _ _ G1) as (s2 & E2 & L2 & _ & G2).
  - intros i k _ Hn. cbn in *. destruct (recorded avg (point 0) i k); cbn in *; [eauto|congruence].
  - intros i k _ Hn. cbn in *. destruct (recordedState (point 0) i k); cbn in *; [eauto|congruence].
  - exists s2. split; [exact E2|]. split; [unfold resetAll in L1; rewrite map_length in L1; congruence|].
    intros i q Hq k. destruct (G2 i q Hq) as (_ & _ & _ & _ & Q). specialize (Q k). cbn in Q.
    destruct Q as [Q1 Q2]. split.
    + destruct (recorded avg (point 0) i k); cbn in Q1; auto. destruct Q1 as (v & Ev & ->). congruence.
    + destruct (recordedState (point 0) i k); cbn in Q2; auto. destruct Q2 as (v & Ev & ->). congruence.
Qed.

(** *** running again without a reset, one sweep *)
Lemma has_shape1 m (v : pv) : has_shape [m] v -> exists l, v = PL l /\ List.length l = m.
Proof. cbn. intros (l & -> & L & _). eauto. Qed.

Lemma finVal1 m (l : list pv) : m <= List.length l -> exists r, finVal [m] (PL l) = Ok (PL r) /\ List.length r = m /\
  forall j, j < m -> exists x, nth_error l j = Some x /\ nth_error r j = Some (unwrap x).
Proof.
  intros L. destruct (reShape_ok [m] l ltac:(easy) 0) as [r R]; [cbn; lia|].
  destruct (reShape_get [m] l ltac:(easy) 0 r _ R) as (_ & H & G).
  exists r. unfold finVal. cbn [rev List.app]. rewrite R. cbn [bind fst]. split; auto.
  destruct H as (l' & E & L' & _). inversion E; subst l'. split; auto.
  intros j Hj. destruct (G [j]) as (x & Nx & Px); [repeat constructor; lia|].
  exists x. cbn [rank prod] in Nx. rewrite Nat.mul_1_r, Nat.add_0_r in Nx. cbn in Nx. split; auto.
  cbn in Px. destruct (nth_error r j); congruence.
Qed.

Theorem rerun_keeps_old point1 point2 m s : 0 < m ->
  (forall p, p < m -> Forall (fun o => op_index o < List.length s) (point1 p) /\ separate (point1 p)) ->
  (forall p, p < m -> Forall (fun o => op_index o < List.length s) (point2 p) /\ separate (point2 p)) ->
  (forall i k, all_or_none (fun p => recorded avg (point1 p) i k) m) ->
  (forall i k, all_or_none (fun p => recordedState (point1 p) i k) m) ->
  (forall i k, all_or_none (fun p => recorded avg (point2 p) i k) m) ->
  (forall i k, all_or_none (fun p => recordedState (point2 p) i k) m) ->
  exists s1 s2, runRes avg true point1 m [m] s = Ok s1 /\ runRes avg false point2 m [m] s1 = Ok s2 /\
    List.length s2 = List.length s /\
    forall i q k, nth_error s2 i = Some q -> (forall p, p < m -> recorded avg (point1 p) i k <> None) ->
      exists v, dget (q_results q) k = Some v /\
        forall j, j < m -> exists x, recorded avg (point1 j) i k = Some x /\ pget v [j] = Some (alone (alone x)).
Proof.
  intros Pm HP1 HP2 A1 B1 A2 B2. unfold runRes, nonParalEvol.
  assert (HP1' : Forall (fun p => Forall (fun o => op_index o < List.length (resetAll s)) (point1 p) /\ separate (point1 p)) (seq 0 m)).
  { apply Forall_forall. intros x Hx. apply in_seq in Hx. unfold resetAll. rewrite map_length. apply HP1. lia. }
  destruct (singleLoop_holds point1 (seq 0 m) (resetAll s) _ _ HP1' (calc_holds_reset s) (core_holds_reset s))
    as (t1 & E1 & L1 & C1 & G1).
  rewrite E1. cbn [bind].
  assert (FM : forall (f : nat -> option pv), all_or_none f m -> flat_map (fun p => olist (f p)) (seq 0 m) <> [] ->
     forall p, p < m -> f p <> None).
  { intros f [Ha|Hn] Hne; auto. exfalso. apply Hne. now apply flat_map_none. }
  destruct (finalise_spec [m] t1 _ _ G1) as (s1 & E2 & L2 & C2 & G2).
  { intros i k _ Hn. destruct (flat_map_full _ m (FM _ (A1 i k) Hn)) as [Lf _].
    destruct (finVal1 m (flat_map (fun p => olist (recorded avg (point1 p) i k)) (seq 0 m))) as (r & Er & _); [lia|]. eauto. }
  { intros i k _ Hn. destruct (flat_map_full _ m (FM _ (B1 i k) Hn)) as [Lf _].
    destruct (finVal1 m (flat_map (fun p => olist (recordedState (point1 p) i k)) (seq 0 m))) as (r & Er & _); [lia|]. eauto. }
  exists s1.
  assert (Ls : List.length s1 = List.length s). { unfold resetAll in L1. rewrite map_length in L1. congruence. }
  set (R1 := fun i k => match nth_error s1 i with
      | Some q => match dget (q_results q) k with Some (PL l) => l | _ => [] end | None => [] end).
  set (S1 := fun i k => match nth_error s1 i with
      | Some q => match dget (q_states q) k with Some (PL l) => l | _ => [] end | None => [] end).
  assert (HR1 : forall i q k, nth_error s1 i = Some q ->
     (forall p, p < m -> recorded avg (point1 p) i k <> None) ->
     List.length (R1 i k) = m /\ dget (q_results q) k = Some (PL (R1 i k)) /\
     forall j, j < m -> exists x, recorded avg (point1 j) i k = Some x /\ nth_error (R1 i k) j = Some (unwrap x)).
  { intros i q k Hq Ha. destruct (G2 i q Hq) as (_ & _ & _ & _ & Q). destruct (Q k) as [Q1 _]. cbn [List.app] in Q1.
    destruct (flat_map_full _ m Ha) as [Lf Nf].
    destruct (finVal1 m (flat_map (fun p => olist (recorded avg (point1 p) i k)) (seq 0 m))) as (r & Er & Lr & Nr); [lia|].
    destruct (flat_map (fun p => olist (recorded avg (point1 p) i k)) (seq 0 m)) as [|y l] eqn:F; [cbn in Lf; lia|].
    destruct Q1 as (v & Ev & Dv). rewrite Er in Ev. inversion Ev; subst v.
    unfold R1. rewrite Hq, Dv. repeat split; auto. intros j Hj. destruct (Nr j Hj) as (x & Nx & Px).
    exists x. split; auto. rewrite <- Nf; auto. }
  assert (CH : core_holds s1 R1 S1).
  { intros i q Hq. destruct (G2 i q Hq) as (N1 & N2 & _ & _ & Q). split; split; auto; intros k.
    - destruct (Q k) as [Q1 _]. cbn [List.app] in Q1. unfold R1. rewrite Hq.
      destruct (flat_map (fun p => olist (recorded avg (point1 p) i k)) (seq 0 m)) as [|y l] eqn:F.
      + rewrite Q1. reflexivity.
      + destruct Q1 as (v & Ev & Dv). rewrite Dv.
        assert (Ha := FM _ (A1 i k) ltac:(cbn beta; rewrite F; easy)).
        destruct (HR1 i q k Hq Ha) as (LR & DR & _). rewrite DR in Dv. inversion Dv; subst v.
        destruct (R1 i k); [cbn in LR; lia|reflexivity].
    - destruct (Q k) as [_ Q2]. cbn [List.app] in Q2. unfold S1. rewrite Hq.
      destruct (flat_map (fun p => olist (recordedState (point1 p) i k)) (seq 0 m)) as [|y l] eqn:F.
      + rewrite Q2. reflexivity.
      + destruct Q2 as (v & Ev & Dv). rewrite Dv.
        destruct (flat_map_full _ m (FM _ (B1 i k) ltac:(cbn beta; rewrite F; easy))) as [Lf _].
        destruct (finVal1 m (y :: l)) as (r & Er & Lr & _); [rewrite <- F; lia|].
        rewrite Er in Ev. inversion Ev; subst v. destruct r; [cbn in Lr; lia|reflexivity]. }
  assert (CC : calc_holds s1).
  { destruct C1 as [C C1]. exists C. intros i q Hq.
    assert (E : nth_error (map q_calc s1) i = Some (q_calc q)) by (rewrite nth_error_map, Hq; reflexivity).
    rewrite C2, nth_error_map in E. destruct (nth_error t1 i) as [q0|] eqn:E0; [|discriminate].
    cbn in E. inversion E. apply C1; auto. }
  assert (HP2' : Forall (fun p => Forall (fun o => op_index o < List.length s1) (point2 p) /\ separate (point2 p)) (seq 0 m)).
  { apply Forall_forall. intros x Hx. apply in_seq in Hx. rewrite Ls. apply HP2. lia. }
  destruct (singleLoop_holds point2 (seq 0 m) s1 _ _ HP2' CC CH) as (t2 & E3 & L3 & _ & G3).
  assert (LEN : forall (l : list pv) (f : nat -> option pv), (l = [] \/ List.length l = m) -> all_or_none f m ->
     l ++ flat_map (fun p => olist (f p)) (seq 0 m) <> [] -> m <= List.length (l ++ flat_map (fun p => olist (f p)) (seq 0 m))).
  { intros l f Hl Hf Hne. rewrite app_length. destruct Hl as [->|Hl]; [|lia]. cbn in *.
    destruct (flat_map_full _ m (FM _ Hf Hne)) as [Lf _]. lia. }
  assert (LR : forall i k, R1 i k = [] \/ List.length (R1 i k) = m).
  { intros i k. destruct (A1 i k) as [Ha|Hn].
    - destruct (nth_error s1 i) as [q|] eqn:Hq; [right; exact (proj1 (HR1 i q k Hq Ha))|left; unfold R1; now rewrite Hq].
    - left. unfold R1. destruct (nth_error s1 i) as [q|] eqn:Hq; auto.
      destruct (G2 i q Hq) as (_ & _ & _ & _ & Q). destruct (Q k) as [Q1 _]. cbn [List.app] in Q1.
      rewrite (flat_map_none _ m Hn) in Q1. now rewrite Q1. }
  assert (LS : forall i k, S1 i k = [] \/ List.length (S1 i k) = m).
  { intros i k. unfold S1. destruct (nth_error s1 i) as [q|] eqn:Hq; auto.
    destruct (G2 i q Hq) as (_ & _ & _ & _ & Q). destruct (Q k) as [_ Q2]. cbn [List.app] in Q2.
    destruct (flat_map (fun p => olist (recordedState (point1 p) i k)) (seq 0 m)) as [|y l] eqn:F; [rewrite Q2; auto|].
    destruct Q2 as (v & Ev & Dv). rewrite Dv.
    destruct (flat_map_full _ m (FM _ (B1 i k) ltac:(cbn beta; rewrite F; easy))) as [Lf _].
    destruct (finVal1 m (y :: l)) as (r & Er & Lr & _); [rewrite <- F; lia|].
    rewrite Er in Ev. inversion Ev; subst v. right. exact Lr. }
  destruct (finalise_spec [m] t2 _ _ G3) as (s2 & E4 & L4 & _ & G4).
  { intros i k _ Hn. destruct (finVal1 m (R1 i k ++ flat_map (fun p => olist (recorded avg (point2 p) i k)) (seq 0 m))) as (r & Er & _);
      [apply (LEN _ _ (LR i k) (A2 i k) Hn)|eauto]. }
  { intros i k _ Hn. destruct (finVal1 m (S1 i k ++ flat_map (fun p => olist (recordedState (point2 p) i k)) (seq 0 m))) as (r & Er & _);
      [apply (LEN _ _ (LS i k) (B2 i k) Hn)|eauto]. }
  exists s2. split; [exact E2|]. split; [rewrite E3; exact E4|]. split; [congruence|].
  intros i q k Hq Ha.
  assert (X : exists q1, nth_error s1 i = Some q1).
  { apply nth_error_ok. rewrite <- L3, <- L4. apply nth_error_Some. congruence. }
  destruct X as [q1 Hq1]. destruct (HR1 i q1 k Hq1 Ha) as (LR1 & _ & NR1).
  destruct (G4 i q Hq) as (_ & _ & _ & _ & Q). destruct (Q k) as [Q1 _].
  destruct (finVal1 m (R1 i k ++ flat_map (fun p => olist (recorded avg (point2 p) i k)) (seq 0 m))) as (r & Er & Lr & Nr);
    [rewrite app_length; lia|].
  destruct (R1 i k ++ flat_map (fun p => olist (recorded avg (point2 p) i k)) (seq 0 m)) as [|y l] eqn:F.
  { apply app_eq_nil in F. destruct F as [F _]. rewrite F in LR1. cbn in LR1. lia. }
  destruct Q1 as (v & Ev & Dv). rewrite Er in Ev. inversion Ev; subst v.
  exists (PL r). split; auto. intros j Hj. destruct (NR1 j Hj) as (x & Rx & Nx). exists x. split; auto.
  destruct (Nr j Hj) as (z & Nz & Pz). rewrite <- F in Nz. rewrite nth_error_app1 in Nz by lia.
  rewrite Nx in Nz. inversion Nz; subst z. cbn [pget]. rewrite Pz. reflexivity.
Qed.
End P.

(** *** averages over the rationals *)
Lemma run_from_mean l : forall c a, (0 < c)%nat ->
  (run_from qavg c a l * inject_Z (Z.of_nat (c + List.length l)) == inject_Z (Z.of_nat c) * a + qsum l)%Q.
Proof.
  induction l as [|x l IH]; intros c a Hc; cbn [run_from qsum fold_right List.length].
  - rewrite Nat.add_0_r. ring.
  - replace (c + S (List.length l)) with (S c + List.length l) by lia.
    rewrite IH by lia. unfold qavg.
    assert (NZ : ~ (inject_Z (Z.of_nat (S c)) == 0)%Q).
    { unfold inject_Z, Qeq; cbn. lia. }
    fold (qsum l). field. exact NZ.
Qed.
Lemma run_avg_mean x l : exists a, run_avg qavg (x :: l) = Some a /\ (a == qmean (x :: l))%Q.
Proof.
  exists (run_from qavg 1 x l). split; [reflexivity|].
  pose proof (run_from_mean l 1 x ltac:(lia)) as H. cbn [Nat.add] in H.
  unfold qmean. cbn [List.length qsum fold_right]. fold (qsum l).
  assert (NZ : ~ (inject_Z (Z.of_nat (S (List.length l))) == 0)%Q) by (unfold inject_Z, Qeq; cbn; lia).
  apply (Qmult_inj_r _ _ _ NZ). rewrite H.
  change (inject_Z (Z.of_nat 1)) with 1%Q. field. exact NZ.
Qed.
