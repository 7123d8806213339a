(** Proofs for C88. *)
From Coq Require Import Lia.
From Verif Require Import Py ResModel ResSpec ResProofs RunEndModel.
#[local] Open Scope nat_scope.

Section P.
Context {A : Type}.
Variable find : string -> option nat.
Implicit Type qs : list (qres A).

Definition stateAt qs i k := match nth_error qs i with Some q => dget (q_states q) k | None => None end.
Definition lastAt qs i k := match nth_error qs i with Some q => dget (q_stLast q) k | None => None end.
Definition rest (q : qres A) := (q_results q, q_average q, q_resLast q, q_calc q).

Lemma put_at i k v : forall qs, i < List.length qs -> exists qs', upd_at i (putState k v) qs = Ok qs' /\
  List.length qs' = List.length qs /\ map rest qs' = map rest qs /\
  (forall j x, stateAt qs' j x = if (Nat.eqb j i && String.eqb x k)%bool then Some v else stateAt qs j x) /\
  (forall j x, lastAt qs' j x = if (Nat.eqb j i && String.eqb x k)%bool then Some v else lastAt qs j x).
Proof.
  assert (D : forall (d : list (string * pv A)) x, dget (dput d k v) x = if String.eqb x k then Some v else dget d x).
  { intros d x. destruct (String.eqb_spec x k) as [->|N]; [apply dget_dput_same|now apply dget_dput_other]. }
  induction i as [|i IH]; intros [|q qs] L; cbn in L; try lia.
  - cbn. eexists. split; [reflexivity|]. repeat split; auto; intros [|j] x; unfold stateAt, lastAt; cbn; auto; apply D.
  - destruct (IH qs) as (qs' & E & L' & R & S1 & S2); [lia|]. exists (q :: qs'). cbn [upd_at]. rewrite E.
    split; [reflexivity|split; [cbn [List.length]; lia|split; [cbn [map]; now rewrite R|split]]].
    + intros [|j] x; [reflexivity|]. apply S1.
    + intros [|j] x; [reflexivity|]. apply S2.
Qed.

Lemma spread_ok items : forall qs, NoDup (map fst items) ->
  (forall k v, In (k, v) items -> exists i, find k = Some i /\ i < List.length qs) ->
  exists qs', spread find items qs = Ok qs' /\ List.length qs' = List.length qs /\ map rest qs' = map rest qs /\
    (forall j x, stateAt qs' j x = match dget items x with
       | Some v => if match find x with Some i => Nat.eqb j i | None => false end then Some v else stateAt qs j x
       | None => stateAt qs j x end) /\
    (forall j x, lastAt qs' j x = match dget items x with
       | Some v => if match find x with Some i => Nat.eqb j i | None => false end then Some v else lastAt qs j x
       | None => lastAt qs j x end).
Proof.
  induction items as [|[k v] items IH]; intros qs ND H; [exists qs; cbn; auto|]. inversion ND as [|? ? Nk ND' E]; subst.
  destruct (H k v (or_introl eq_refl)) as (i & Fk & Li). destruct (put_at i k v qs Li) as (q1 & E1 & L1 & R1 & A1 & B1).
  destruct (IH q1 ND') as (q2 & E2 & L2 & R2 & A2 & B2).
  { intros k' v' I. destruct (H k' v' (or_intror I)) as (j & F & L). exists j. split; auto. lia. }
  exists q2. cbn [spread]. rewrite Fk, E1. cbn [bind]. split; [exact E2|]. split; [lia|]. split; [congruence|].
  assert (Nk' : dget items k = None) by (now apply dget_None).
  split; intros j x; [rewrite A2|rewrite B2]; cbn [dget]; destruct (String.eqb_spec x k) as [->|N].
  - rewrite Nk', A1, Fk, String.eqb_refl, andb_true_r. reflexivity.
  - destruct (dget items x); rewrite ?A1; destruct (String.eqb_spec x k); try congruence; rewrite andb_false_r; reflexivity.
  - rewrite Nk', B1, Fk, String.eqb_refl, andb_true_r. reflexivity.
  - destruct (dget items x); rewrite ?B1; destruct (String.eqb_spec x k); try congruence; rewrite andb_false_r; reflexivity.
Qed.

(** Keys of dictionaries occur once, and after a run the last states are the states. *)
Definition nd (q : qres A) : Prop := NoDup (map fst (q_states q)) /\ NoDup (map fst (q_stLast q)).
Variable avg : nat -> A -> A -> A.
Lemma nd_append (d d' : list (string * pv A)) k v : NoDup (map fst d) -> dappend d k v = Ok d' -> NoDup (map fst d').
Proof.
  intros N. unfold dappend. destruct (dget d k) as [[a|l]|]; try discriminate; intros E; injection E as <-; now apply dput_NoDup.
Qed.
Lemma nd_appendAll (src : list (string * pv A)) : forall d d', NoDup (map fst d) -> appendAll src d = Ok d' -> NoDup (map fst d').
Proof.
  induction src as [|[k v] src IH]; intros d d' N; cbn; [intros E; now injection E as <-|].
  destruct (dappend d k v) as [d1|] eqn:E1; [|discriminate]. cbn. apply IH. now apply (nd_append d d1 k v).
Qed.
Lemma nd_upd i f : (forall q q', nd q -> f q = Ok q' -> nd q') -> forall qs qs', Forall nd qs -> upd_at i f qs = Ok qs' -> Forall nd qs'.
Proof.
  intros H. induction i as [|i IH]; intros [|q qs] qs' N; cbn; try discriminate; inversion N as [|? ? N1 N2]; subst.
  - destruct (f q) as [q'|] eqn:E; [|discriminate]. intros X. injection X as <-. constructor; auto. now apply (H q).
  - destruct (upd_at i f qs) as [r|] eqn:E; [|discriminate]. intros X. injection X as <-. constructor; auto. now apply (IH qs).
Qed.
Lemma nd_apply o qs qs' : Forall nd qs -> apply1 avg o qs = Ok qs' -> Forall nd qs'.
Proof.
  destruct o; cbn [apply1]; apply nd_upd; intros q q' (N1 & N2).
  - unfold singleResult. destruct (dappend _ _ _); [|discriminate]. intros E. injection E as <-. split; auto.
  - unfold resAverage. destruct (match dget (q_average q) k with Some (v, c) => _ | None => _ end). intros E. injection E as <-. split; auto.
  - unfold storeState. destruct (dappend _ _ _) as [d|] eqn:E; [|discriminate]. intros X. injection X as <-. split; auto. cbn.
    now apply (nd_append (q_stLast q) d k v).
  - unfold calculated. destruct (dappend _ _ _); [|discriminate]. intros E. injection E as <-. split; auto.
Qed.
Lemma nd_applyAll ops : forall qs qs', Forall nd qs -> applyAll avg ops qs = Ok qs' -> Forall nd qs'.
Proof.
  induction ops as [|o ops IH]; intros qs qs' N; cbn [applyAll]; [intros E; now injection E as <-|].
  destruct (apply1 avg o qs) as [q1|] eqn:E; [|discriminate]. cbn [bind]. apply IH. now apply (nd_apply o qs).
Qed.
Lemma nd_organise ls : forall qs qs', Forall nd qs -> organise ls qs = Ok qs' -> Forall nd qs'.
Proof.
  induction ls as [|l ls IH]; intros [|q qs] qs' N; cbn [organise]; try (intros E; now injection E as <-).
  inversion N as [|? ? (N1 & N2) N3]; subst. unfold organise1.
  destruct (appendAll (fst l) (q_results q)); [|discriminate]. cbn [bind].
  destruct (appendAll (snd l) (q_states q)) as [d|] eqn:E; [|discriminate]. cbn [bind].
  destruct (organise ls qs) as [r|] eqn:E2; [|discriminate]. cbn [bind]. intros X. injection X as <-.
  constructor; [|now apply (IH qs)]. split; auto. cbn. now apply (nd_appendAll (snd l) (q_states q)).
Qed.
Lemma finDict_keys inds : forall (d d' : list (string * pv A)), finDict inds d = Ok d' -> map fst d' = map fst d.
Proof.
  induction d as [|[k v] d IH]; intros d'; cbn [finDict]; [intros E; now injection E as <-|].
  destruct (finVal inds v); [|discriminate]. cbn [bind]. destruct (finDict inds d) as [r|]; [|discriminate]. cbn [bind].
  intros E. injection E as <-. cbn. now rewrite (IH r).
Qed.
Lemma finalise_nd inds : forall qs qs', Forall nd qs -> finaliseAll inds qs = Ok qs' ->
  Forall (fun q => NoDup (map fst (q_states q)) /\ q_stLast q = q_states q) qs'.
Proof.
  induction qs as [|q qs IH]; intros qs' N; cbn [finaliseAll]; [intros E; now injection E as <-|].
  inversion N as [|? ? (N1 & N2) N3]; subst. unfold finalise1.
  destruct (finDict inds (q_results q)); [|discriminate]. cbn [bind].
  destruct (finDict inds (q_states q)) as [d|] eqn:E; [|discriminate]. cbn [bind].
  destruct (finaliseAll inds qs) as [r|] eqn:E2; [|discriminate]. cbn [bind]. intros X. injection X as <-.
  constructor; [|now apply (IH r)]. cbn. split; auto. now rewrite (finDict_keys inds (q_states q) d E).
Qed.
Lemma loop_nd point pts : forall qs qs', Forall nd qs -> singleLoop avg point pts qs = Ok qs' -> Forall nd qs'.
Proof.
  induction pts as [|p pts IH]; intros qs qs' N; cbn [singleLoop]; [intros E; now injection E as <-|].
  destruct (runPointRes avg (point p) qs) as [q1|] eqn:E1; [|discriminate]. cbn [bind].
  destruct (organiseSingle q1) as [q2|] eqn:E2; [|discriminate]. cbn [bind]. apply IH.
  apply (nd_organise (map lastOf q1) q1); auto. apply (nd_applyAll (point p) (resetLast qs)); auto.
  apply Forall_forall. intros q Hq. unfold resetLast in Hq. apply in_map_iff in Hq. destruct Hq as (q0 & <- & H0).
  rewrite Forall_forall in N. destruct (N q0 H0). split; cbn; [auto|constructor].
Qed.
Lemma run_nd r point n inds qs qs' : Forall nd qs -> runRes avg r point n inds qs = Ok qs' ->
  Forall (fun q => NoDup (map fst (q_states q)) /\ q_stLast q = q_states q) qs'.
Proof.
  intros N. unfold runRes, nonParalEvol.
  assert (N' : Forall nd (if r then resetAll qs else qs)).
  { destruct r; auto. apply Forall_forall. intros q Hq. unfold resetAll in Hq. apply in_map_iff in Hq. destruct Hq as (? & <- & _).
    split; constructor. }
  destruct (singleLoop avg point (seq 0 n) _) as [q1|] eqn:E; [|discriminate]. cbn [bind].
  apply finalise_nd. now apply (loop_nd point (seq 0 n) (if r then resetAll qs else qs)).
Qed.

(** The end of a run. *)
Lemma end_ok me key qs : Forall (fun q => NoDup (map fst (q_states q)) /\ q_stLast q = q_states q) qs -> me < List.length qs ->
  (forall k v, stateAt qs me k = Some v -> exists i, find k = Some i /\ i < List.length qs) ->
  exists v qs', runEnd find me key qs = Ok (v, qs') /\ List.length qs' = List.length qs /\ map rest qs' = map rest qs /\
    v = match stateAt qs me key with Some v => v | None => PL [] end /\
    forall j x, stateAt qs' j x =
      match stateAt qs me x with
      | Some v => if match find x with Some i => Nat.eqb j i | None => false end then Some v else stateAt qs j x
      | None => if (Nat.eqb j me && String.eqb x key)%bool then Some (PL []) else stateAt qs j x
      end.
Proof.
  intros N L F. unfold runEnd. destruct (nth_error_ok qs me L) as (q & Eq). rewrite Eq.
  assert (Nq : NoDup (map fst (q_states q)) /\ q_stLast q = q_states q).
  { rewrite Forall_forall in N. apply N. now apply nth_error_In with me. }
  destruct Nq as (Nq & Sq). rewrite Sq.
  assert (Sm : forall x, stateAt qs me x = dget (q_states q) x) by (intros x; unfold stateAt; now rewrite Eq).
  assert (Lm : forall x, lastAt qs me x = dget (q_states q) x) by (intros x; unfold lastAt; now rewrite Eq, Sq).
  destruct (spread_ok (q_states q) qs Nq) as (q1 & E1 & L1 & R1 & A1 & B1).
  { intros k v I. destruct (proj1 (dget_In (q_states q) k)) as (w & W).
    { apply in_map_iff. exists (k, v). auto. }
    apply (F k w). now rewrite Sm. }
  rewrite E1. cbn [bind]. destruct (nth_error_ok q1 me ltac:(lia)) as (p & Ep). rewrite Ep.
  assert (Lp : dget (q_stLast p) key = dget (q_states q) key).
  { specialize (B1 me key). unfold lastAt at 1 in B1. rewrite Ep in B1. rewrite B1, Lm.
    destruct (dget (q_states q) key); auto. destruct (find key) as [i|]; auto. destruct (Nat.eqb me i); auto. }
  rewrite Lp, Sm. destruct (dget (q_states q) key) as [v|] eqn:Ek.
  - exists v, q1. repeat split; auto. intros j x. rewrite A1, Sm. destruct (dget (q_states q) x) eqn:Ex; auto.
    destruct (Nat.eqb_spec j me), (String.eqb_spec x key); subst; cbn; auto. congruence.
  - destruct (put_at me key (PL []) q1 ltac:(lia)) as (q2 & E2 & L2 & R2 & A2 & _). rewrite E2. cbn [bind].
    exists (PL []), q2. split; [reflexivity|split; [lia|split; [congruence|split; [reflexivity|]]]].
    intros j x. rewrite A2, A1, Sm. destruct (Nat.eqb_spec j me), (String.eqb_spec x key); subst; cbn; try rewrite Ek; auto;
      destruct (dget (q_states q) x); auto.
Qed.
(** A key that names no object. *)
Lemma spread_unknown items k0 v0 : forall qs, In (k0, v0) items -> find k0 = None ->
  (forall k i, find k = Some i -> i < List.length qs) -> spread find items qs = Err KeyError.
Proof.
  induction items as [|[k v] items IH]; intros qs I F0 H; [destruct I|]. cbn [spread].
  destruct (find k) as [i|] eqn:Fk; [|reflexivity].
  destruct I as [I|I]; [injection I as -> ->; congruence|].
  destruct (put_at i k v qs (H k i Fk)) as (q1 & E1 & L1 & _). rewrite E1. cbn [bind].
  apply IH; auto. intros k' j Fj. rewrite L1. now apply (H k').
Qed.
Lemma end_unknown me key qs k w : Forall (fun q => NoDup (map fst (q_states q)) /\ q_stLast q = q_states q) qs ->
  stateAt qs me k = Some w -> find k = None -> (forall x i, find x = Some i -> i < List.length qs) ->
  runEnd find me key qs = Err KeyError.
Proof.
  intros N S F H. unfold runEnd. unfold stateAt in S. destruct (nth_error qs me) as [q|] eqn:Eq; [|discriminate].
  assert (Sq : q_stLast q = q_states q).
  { rewrite Forall_forall in N. apply N. now apply nth_error_In with me. }
  assert (I : In k (map fst (q_stLast q))) by (rewrite Sq; apply dget_In; eauto).
  apply in_map_iff in I. destruct I as ([k' v] & E & I). cbn in E. subst k'.
  now rewrite (spread_unknown (q_stLast q) k v qs I F H).
Qed.


(** Objects for which nothing is recorded. *)
Lemma upd_other i j f : i <> j -> forall qs qs', upd_at i f qs = Ok qs' -> nth_error qs' j = nth_error qs j.
Proof.
  revert j. induction i as [|i IH]; intros [|j] N [|q qs] qs'; cbn; try discriminate; try congruence.
  - destruct (f q); [|discriminate]. intros X. now injection X as <-.
  - destruct (upd_at i f qs) as [r|]; [|discriminate]. intros X. now injection X as <-.
  - destruct (upd_at i f qs) as [r|] eqn:E; [|discriminate]. intros X. injection X as <-. cbn. apply (IH j); auto.
Qed.
Lemma applyAll_other j ops : Forall (fun o => op_index o <> j) ops -> forall qs qs', applyAll avg ops qs = Ok qs' ->
  nth_error qs' j = nth_error qs j.
Proof.
  induction ops as [|o ops IH]; intros F qs qs'; cbn [applyAll]; [intros E; now injection E as <-|].
  inversion F as [|? ? F1 F2]; subst. destruct (apply1 avg o qs) as [q1|] eqn:E; [|discriminate]. cbn [bind]. intros X.
  rewrite (IH F2 q1 qs' X). destruct o; cbn [apply1 op_index] in *; now apply (upd_other i j _ F1) in E.
Qed.
Lemma organise_at j : forall ls qs qs', organise ls qs = Ok qs' -> nth_error ls j = Some ([], []) ->
  forall q, nth_error qs j = Some q -> nth_error qs' j = Some q.
Proof.
  induction j as [|j IH]; intros [|l ls] [|q0 qs] qs'; cbn [organise nth_error]; try discriminate.
  - intros X E q Eq. injection E as ->. injection Eq as ->. unfold organise1 in X. cbn [fst snd appendAll bind] in X.
    destruct (organise ls qs); [|discriminate]. cbn [bind] in X. injection X as <-. cbn. now destruct q.
  - unfold organise1. destruct (appendAll (fst l) (q_results q0)); [|discriminate]. cbn [bind].
    destruct (appendAll (snd l) (q_states q0)); [|discriminate]. cbn [bind].
    destruct (organise ls qs) as [r|] eqn:E; [|discriminate]. cbn [bind]. intros X. injection X as <-. cbn [nth_error]. exact (IH ls qs r E).
Qed.
Definition sameStored (q q' : qres A) : Prop := q_results q = q_results q' /\ q_states q = q_states q'.
Lemma loop_other j point pts : (forall p, In p pts -> Forall (fun o => op_index o <> j) (point p)) ->
  forall qs qs', singleLoop avg point pts qs = Ok qs' -> forall q, nth_error qs j = Some q ->
  exists q', nth_error qs' j = Some q' /\ sameStored q q'.
Proof.
  induction pts as [|p pts IH]; intros F qs qs'; cbn [singleLoop]; [intros E q Q; injection E as <-; exists q; split; [auto|split; auto]|].
  destruct (runPointRes avg (point p) qs) as [q1|] eqn:E1; [|discriminate]. cbn [bind].
  destruct (organiseSingle q1) as [q2|] eqn:E2; [|discriminate]. cbn [bind]. intros X q Q.
  unfold runPointRes in E1. pose proof (applyAll_other j (point p) (F p (or_introl eq_refl)) _ _ E1) as Y.
  unfold resetLast in Y. rewrite nth_error_map, Q in Y. cbn [option_map] in Y.
  unfold organiseSingle in E2.
  assert (Z : nth_error (map lastOf q1) j = Some ([], [])) by (rewrite nth_error_map, Y; reflexivity).
  pose proof (organise_at j _ _ _ E2 Z _ Y) as W.
  destruct (IH (fun p Hp => F p (or_intror Hp)) q2 qs' X _ W) as (q' & Q' & S1 & S2). exists q'. split; auto. now split.
Qed.
Lemma finalise_at inds j : forall qs qs', finaliseAll inds qs = Ok qs' -> forall q, nth_error qs j = Some q ->
  exists q', nth_error qs' j = Some q' /\ finDict inds (q_results q) = Ok (q_results q') /\ finDict inds (q_states q) = Ok (q_states q').
Proof.
  induction j as [|j IH]; intros [|q0 qs] qs'; cbn [finaliseAll nth_error]; try discriminate; unfold finalise1.
  - destruct (finDict inds (q_results q0)) eqn:E1; [|discriminate]. cbn [bind].
    destruct (finDict inds (q_states q0)) as [d|] eqn:E; [|discriminate]. cbn [bind].
    destruct (finaliseAll inds qs) as [r|]; [|discriminate]. cbn [bind]. intros X q Q. injection X as <-. injection Q as <-.
    eexists. split; [reflexivity|]. split; auto.
  - destruct (finDict inds (q_results q0)) eqn:E1; [|discriminate]. cbn [bind].
    destruct (finDict inds (q_states q0)) as [d|] eqn:E; [|discriminate]. cbn [bind].
    destruct (finaliseAll inds qs) as [r|] eqn:E2; [|discriminate]. cbn [bind]. intros X. injection X as <-. cbn [nth_error]. now apply IH.
Qed.
Lemma run_other r point n inds qs qs' j q : (forall p, p < n -> Forall (fun o => op_index o <> j) (point p)) ->
  runRes avg r point n inds qs = Ok qs' -> nth_error qs j = Some q ->
  exists q', nth_error qs' j = Some q' /\
    finDict inds (if r then [] else q_results q) = Ok (q_results q') /\ finDict inds (if r then [] else q_states q) = Ok (q_states q').
Proof.
  intros F. unfold runRes, nonParalEvol. destruct (singleLoop _ _ _ _) as [q1|] eqn:E; [|discriminate]. cbn [bind]. intros X Q.
  assert (Q0 : nth_error (if r then resetAll qs else qs) j = Some (if r then qblank else q)).
  { destruct r; auto. unfold resetAll. now rewrite nth_error_map, Q. }
  assert (F' : forall p, In p (seq 0 n) -> Forall (fun o => op_index o <> j) (point p)) by (intros p Hp; apply in_seq in Hp; apply F; lia).
  destruct (loop_other j point (seq 0 n) F' _ _ E _ Q0) as (q2 & Q2 & S1 & S2).
  destruct (finalise_at inds j _ _ X _ Q2) as (q' & Q' & D1 & D2). exists q'. split; auto. rewrite <- S1 in D1. rewrite <- S2 in D2.
  destruct r; auto.
Qed.
Lemma finDict_get inds k : forall (d d' : list (string * pv A)), finDict inds d = Ok d' ->
  match dget d k with Some v => exists v', finVal inds v = Ok v' /\ dget d' k = Some v' | None => dget d' k = None end.
Proof.
  induction d as [|[x v] d IH]; intros d'; cbn [finDict]; [intros E; now injection E as <-|].
  destruct (finVal inds v) as [v'|] eqn:E1; [|discriminate]. cbn [bind]. destruct (finDict inds d) as [r|]; [|discriminate]. cbn [bind].
  intros E. injection E as <-. cbn [dget]. destruct (String.eqb k x); [eauto|]. now apply IH.
Qed.
(** Lengths. *)
Lemma upd_length i f : forall qs qs', upd_at i f qs = Ok qs' -> List.length qs' = List.length (A:=qres A) qs.
Proof.
  induction i as [|i IH]; intros [|q qs] qs'; cbn; try discriminate.
  - destruct (f q); [|discriminate]. intros X. now injection X as <-.
  - destruct (upd_at i f qs) as [r|] eqn:E; [|discriminate]. intros X. injection X as <-. cbn. now rewrite (IH qs r).
Qed.
Lemma applyAll_length ops : forall qs qs', applyAll avg ops qs = Ok qs' -> List.length qs' = List.length qs.
Proof.
  induction ops as [|o ops IH]; intros qs qs'; cbn [applyAll]; [intros E; now injection E as <-|].
  destruct (apply1 avg o qs) as [q1|] eqn:E; [|discriminate]. cbn [bind]. intros X. rewrite (IH q1 qs' X).
  destruct o; cbn [apply1] in E; now apply upd_length in E.
Qed.
Lemma organise_length : forall ls qs qs', organise ls qs = Ok qs' -> List.length qs' = List.length (A:=qres A) qs.
Proof.
  induction ls as [|l ls IH]; intros [|q qs] qs'; cbn [organise]; try (intros E; now injection E as <-).
  unfold organise1. destruct (appendAll (fst l) (q_results q)); [|discriminate]. cbn [bind].
  destruct (appendAll (snd l) (q_states q)); [|discriminate]. cbn [bind].
  destruct (organise ls qs) as [r|] eqn:E; [|discriminate]. cbn [bind]. intros X. injection X as <-. cbn. now rewrite (IH qs r).
Qed.
Lemma loop_length point pts : forall qs qs', singleLoop avg point pts qs = Ok qs' -> List.length qs' = List.length qs.
Proof.
  induction pts as [|p pts IH]; intros qs qs'; cbn [singleLoop]; [intros E; now injection E as <-|].
  destruct (runPointRes avg (point p) qs) as [q1|] eqn:E1; [|discriminate]. cbn [bind].
  destruct (organiseSingle q1) as [q2|] eqn:E2; [|discriminate]. cbn [bind]. intros X. rewrite (IH _ _ X).
  apply organise_length in E2. apply applyAll_length in E1. unfold resetLast in E1. rewrite map_length in E1. congruence.
Qed.
Lemma finalise_length inds : forall qs qs', finaliseAll inds qs = Ok qs' -> List.length qs' = List.length (A:=qres A) qs.
Proof.
  induction qs as [|q qs IH]; intros qs'; cbn [finaliseAll]; [intros E; now injection E as <-|]. destruct (finalise1 inds q); [|discriminate]. cbn [bind].
  destruct (finaliseAll inds qs) as [r|]; [|discriminate]. cbn [bind]. intros X. injection X as <-. cbn. now rewrite (IH r).
Qed.
Lemma run_length r point n inds qs qs' : runRes avg r point n inds qs = Ok qs' -> List.length qs' = List.length qs.
Proof.
  unfold runRes, nonParalEvol. destruct (singleLoop _ _ _ _) as [q1|] eqn:E; [|discriminate]. cbn [bind]. intros X.
  rewrite (finalise_length _ _ _ X), (loop_length _ _ _ _ E). destruct r; auto. unfold resetAll. now rewrite map_length.
Qed.

(** Keys under which no point stores a state. *)
Definition noKey (k : string) (q : qres A) : Prop := dget (q_stLast q) k = None /\ dget (q_states q) k = None.
Lemma upd_at_same i f : forall qs qs' q, upd_at i f qs = Ok qs' -> nth_error qs' i = Some q ->
  exists q0 : qres A, nth_error qs i = Some q0 /\ f q0 = Ok q.
Proof.
  induction i as [|i IH]; intros [|q0 qs] qs' q; cbn; try discriminate.
  - destruct (f q0) eqn:F; [|discriminate]. intros X. injection X as <-. cbn. intros Q. injection Q as <-. eauto.
  - destruct (upd_at i f qs) as [r|] eqn:E; [|discriminate]. intros X. injection X as <-. cbn. now apply IH.
Qed.
Lemma dappend_none (d d' : list (string * pv A)) x v k : dappend d x v = Ok d' -> x <> k -> dget d k = None -> dget d' k = None.
Proof.
  unfold dappend. intros E N D. destruct (dget d x) as [[a|l]|]; try discriminate; injection E as <-; rewrite dget_dput_other; auto.
Qed.
Lemma apply_nokey j k ops : storedStates ops j k = [] -> forall qs qs', applyAll avg ops qs = Ok qs' ->
  (forall q, nth_error qs j = Some q -> noKey k q) -> forall q, nth_error qs' j = Some q -> noKey k q.
Proof.
  induction ops as [|o ops IH]; intros S0 qs qs'; cbn [applyAll]; [intros E; now injection E as <-|].
  destruct (apply1 avg o qs) as [q1|] eqn:E; [|discriminate]. cbn [bind]. intros X H.
  assert (S1 : storedStates ops j k = []) by (destruct o; auto; cbn in S0; destruct (_ && _)%bool; [discriminate|auto]).
  apply (IH S1 q1 qs' X). intros q Q.
  assert (G : forall i f, upd_at i f qs = Ok q1 -> (i = j -> forall a b, noKey k a -> f a = Ok b -> noKey k b) -> noKey k q).
  { intros i f U Hf. destruct (Nat.eq_dec i j) as [->|N].
    - destruct (upd_at_same j f qs q1 q U Q) as (q0 & Q0 & F). apply (Hf eq_refl q0); auto.
    - rewrite (upd_other i j f N qs q1 U) in Q. auto. }
  destruct o; cbn [apply1] in E; refine (G _ _ E _); intros -> a b (N1 & N2).
  - unfold singleResult. destruct (dappend _ _ _); [|discriminate]. intros Z. injection Z as <-. split; auto.
  - unfold resAverage. destruct (match dget (q_average a) k0 with Some (v, c) => _ | None => _ end). intros Z. injection Z as <-. split; auto.
  - unfold storeState. destruct (dappend _ _ _) as [d|] eqn:D; [|discriminate]. intros Z. injection Z as <-. split; auto. cbn.
    apply (dappend_none (q_stLast a) d k0 v k D); auto. intros ->. cbn in S0. rewrite Nat.eqb_refl, String.eqb_refl in S0. discriminate.
  - unfold calculated. destruct (dappend _ _ _); [|discriminate]. intros Z. injection Z as <-. split; auto.
Qed.
Lemma appendAll_none k : forall (src d d' : list (string * pv A)), appendAll src d = Ok d' -> dget src k = None -> dget d k = None -> dget d' k = None.
Proof.
  induction src as [|[x v] src IH]; intros d d'; cbn [appendAll dget]; [intros E; now injection E as <-|].
  destruct (dappend d x v) as [d1|] eqn:E; [|discriminate]. cbn [bind]. intros X. destruct (String.eqb_spec k x); [discriminate|]. intros S0 D.
  apply (IH d1 d' X S0). apply (dappend_none d d1 x v k E); auto.
Qed.
Lemma organise_nokey j k : forall ls qs qs', organise ls qs = Ok qs' -> (forall l, nth_error ls j = Some l -> dget (snd l) k = None) ->
  (forall q, nth_error qs j = Some q -> dget (q_states q) k = None) -> forall q, nth_error qs' j = Some q -> dget (q_states q) k = None.
Proof.
  induction j as [|j IH]; intros [|l ls] [|q0 qs] qs'; cbn [organise]; try (intros E; injection E as <-; now auto);
    unfold organise1; destruct (appendAll (fst l) (q_results q0)); try discriminate; cbn [bind];
    destruct (appendAll (snd l) (q_states q0)) as [d|] eqn:Ed; try discriminate; cbn [bind];
    destruct (organise ls qs) as [r|] eqn:E; try discriminate; cbn [bind]; intros X; injection X as <-; cbn [nth_error].
  - intros H1 H2 q Q. injection Q as <-. cbn. apply (appendAll_none k _ _ _ Ed); auto.
  - exact (IH ls qs r E).
Qed.
Lemma loop_nokey j k point pts : (forall p, In p pts -> storedStates (point p) j k = []) ->
  forall qs qs', singleLoop avg point pts qs = Ok qs' -> (forall q, nth_error qs j = Some q -> dget (q_states q) k = None) ->
  forall q, nth_error qs' j = Some q -> dget (q_states q) k = None.
Proof.
  induction pts as [|p pts IH]; intros F qs qs'; cbn [singleLoop]; [intros E; injection E as <-; auto|].
  destruct (runPointRes avg (point p) qs) as [q1|] eqn:E1; [|discriminate]. cbn [bind].
  destruct (organiseSingle q1) as [q2|] eqn:E2; [|discriminate]. cbn [bind]. intros X H.
  assert (N1 : forall q, nth_error q1 j = Some q -> noKey k q).
  { apply (apply_nokey j k (point p) (F p (or_introl eq_refl)) (resetLast qs) q1 E1). intros q. unfold resetLast. rewrite nth_error_map.
    destruct (nth_error qs j) as [q0|] eqn:Q0; [|discriminate]. cbn. intros Z. injection Z as <-. split; cbn; auto. }
  apply (IH (fun p Hp => F p (or_intror Hp)) q2 qs' X). apply (organise_nokey j k _ _ _ E2).
  - intros l. rewrite nth_error_map. destruct (nth_error q1 j) as [q0|] eqn:Q0; [|discriminate]. cbn. intros Z. injection Z as <-. cbn. now apply N1.
  - intros q Q. now apply N1.
Qed.
Lemma run_nokey point n inds qs qs' j k : (forall p, p < n -> storedStates (point p) j k = []) ->
  runRes avg true point n inds qs = Ok qs' -> stateAt qs' j k = None.
Proof.
  intros F. unfold runRes, nonParalEvol. destruct (singleLoop _ _ _ _) as [q1|] eqn:E; [|discriminate]. cbn [bind]. intros X.
  assert (N : forall q, nth_error q1 j = Some q -> dget (q_states q) k = None).
  { apply (loop_nokey j k point (seq 0 n)) with (qs := resetAll qs); auto.
    - intros p Hp. apply in_seq in Hp. apply F. lia.
    - intros q. unfold resetAll. rewrite nth_error_map. destruct (nth_error qs j); [|discriminate]. cbn. intros Z. now injection Z as <-. }
  unfold stateAt. destruct (nth_error qs' j) as [q'|] eqn:Q'; auto.
  assert (Lq := finalise_length inds q1 qs' X).
  destruct (nth_error q1 j) as [q|] eqn:Q; [|apply nth_error_None in Q; assert (j < List.length qs') by (apply nth_error_Some; congruence); lia].
  destruct (finalise_at inds j q1 qs' X q Q) as (q2 & Q2 & _ & D). rewrite Q' in Q2. injection Q2 as <-.
  apply finDict_get with (k := k) in D. now rewrite (N q eq_refl) in D.
Qed.
End P.
