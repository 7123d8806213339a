From Verif Require Import Py AliasModel AliasSpec.

Lemma members_owns w o s : In s (members w o) <-> owns w o s.
Proof. unfold members, owns; simpl; split; intros [H|H]; auto. Qed.

Lemma existsb_members w o s :
  existsb (fun it => String.eqb it s) (members w o) = true <-> owns w o s.
Proof.
  rewrite existsb_exists, <- members_owns; split.
  - intros [x [Hin Hx]]; apply String.eqb_eq in Hx; subst; exact Hin.
  - intros H; exists s; split; [exact H|apply String.eqb_refl].
Qed.

(** ** C03: equality *)

Lemma keq_spec w a b : keq w a b = true <-> spec_equal w a b.
Proof.
  destruct a as [x|o], b as [y|p]; simpl.
  - apply String.eqb_eq.
  - apply existsb_members.
  - apply existsb_members.
  - change (existsb (fun it => existsb (fun it' => String.eqb it it') (members w o))
              (members w p) = true <-> (exists s, owns w o s /\ owns w p s)).
    rewrite existsb_exists; split.
    + intros [s [Hs Hx]]; apply existsb_exists in Hx; destruct Hx as [s' [Hs' E]].
      apply String.eqb_eq in E; subst s'. exists s; rewrite <- !members_owns; auto.
    + intros [s [H1 H2]]; exists s; rewrite members_owns; split; [exact H2|].
      apply existsb_exists; exists s; rewrite members_owns; split; [exact H1|apply String.eqb_refl].
Qed.

Lemma spec_equal_refl w a : spec_equal w a a.
Proof. destruct a as [x|o]; simpl; auto. exists (w_name w o); unfold owns; auto. Qed.

Lemma spec_equal_sym w a b : spec_equal w a b -> spec_equal w b a.
Proof. destruct a as [x|o], b as [y|p]; simpl; auto. intros [s [H1 H2]]; exists s; auto. Qed.

Lemma hkey_equal w a b : hkey w a = hkey w b -> spec_equal w a b.
Proof.
  destruct a as [x|o], b as [y|p]; simpl; intros H; unfold owns; auto.
  exists (w_name w o); split; [left; reflexivity|left; exact H].
Qed.

(** ** Raw dictionary facts *)
Section Raw.
Context {V : Type}.
Implicit Types (d : dict V) (w : world).

Definition hkeys w d := map (fun e => hkey w (fst e)) d.

Lemma raw_find_None w d k : raw_find w d k = None <-> ~ In (hkey w k) (hkeys w d).
Proof.
  induction d as [|[k' v] r IH]; simpl; [tauto|].
  destruct (String.eqb_spec (hkey w k') (hkey w k)) as [E|E].
  - split; [discriminate|intros H; exfalso; apply H; auto].
  - rewrite IH; tauto.
Qed.

Lemma raw_mem_true w d k : raw_mem w d k = true <-> In (hkey w k) (hkeys w d).
Proof.
  unfold raw_mem; destruct (raw_find w d k) eqn:E.
  - split; [intros _|reflexivity].
    destruct (in_dec string_dec (hkey w k) (hkeys w d)) as [H|H]; [exact H|].
    apply raw_find_None in H; congruence.
  - apply raw_find_None in E; split; [discriminate|tauto].
Qed.

Lemma raw_set_keys_in w d k v : In (hkey w k) (hkeys w d) ->
  map fst (raw_set w d k v) = map fst d.
Proof.
  induction d as [|[k' v'] r IH]; simpl; [tauto|].
  destruct (String.eqb_spec (hkey w k') (hkey w k)) as [E|E]; simpl; [reflexivity|].
  intros [H|H]; [congruence|rewrite IH; auto].
Qed.

Lemma raw_set_notin w d k v : ~ In (hkey w k) (hkeys w d) -> raw_set w d k v = d ++ [(k, v)].
Proof.
  induction d as [|[k' v'] r IH]; simpl; [reflexivity|].
  destruct (String.eqb_spec (hkey w k') (hkey w k)) as [E|E]; simpl; [tauto|].
  intros H; rewrite IH; tauto.
Qed.

Lemma first_equal_Some w d k k' : first_equal w d k = Some k' ->
  exists d1 v d2, d = d1 ++ (k', v) :: d2 /\ keq w k k' = true
    /\ Forall (fun e => keq w k (fst e) = false) d1.
Proof.
  induction d as [|[k0 v0] r IH]; simpl; [discriminate|].
  destruct (keq w k k0) eqn:E.
  - intros H; injection H as <-. exists [], v0, r; auto.
  - intros H; destruct (IH H) as [d1 [v [d2 [-> [H1 H2]]]]].
    exists ((k0, v0) :: d1), v, d2; split; [reflexivity|split; [exact H1|constructor; auto]].
Qed.

Lemma first_equal_None w d k : first_equal w d k = None <->
  Forall (fun e => keq w k (fst e) = false) d.
Proof.
  induction d as [|[k0 v0] r IH]; simpl; [split; auto|].
  destruct (keq w k k0) eqn:E.
  - split; [discriminate|intros H; inversion H; simpl in *; congruence].
  - rewrite IH; split; intros H; [constructor; auto|inversion H; auto].
Qed.

Lemma keySearch_stored w d k' v : NoDup (hkeys w d) -> In (k', v) d ->
  raw_find w d k' = Some v.
Proof.
  induction d as [|[k0 v0] r IH]; simpl; [tauto|].
  intros Hnd [H|H].
  - injection H as -> ->. rewrite String.eqb_refl; reflexivity.
  - inversion Hnd as [|a l Hn Hr]; subst.
    destruct (String.eqb_spec (hkey w k0) (hkey w k')) as [E|E]; [|auto].
    exfalso; apply Hn; rewrite E. unfold hkeys.
    change (hkey w k') with ((fun e : key * V => hkey w (fst e)) (k', v)).
    apply in_map; exact H.
Qed.

(** Contains holds iff some stored key is equal. *)
Lemma contains_spec w d k :
  contains w d k = true <-> exists k' v, In (k', v) d /\ spec_equal w k k'.
Proof.
  unfold contains, keySearch.
  destruct (raw_mem w d k) eqn:E.
  - rewrite E; split; [intros _|reflexivity].
    apply raw_mem_true in E. unfold hkeys in E; apply in_map_iff in E.
    destruct E as [[k' v] [H1 H2]]; exists k', v; split; [exact H2|].
    apply hkey_equal; symmetry; exact H1.
  - destruct (first_equal w d k) as [k'|] eqn:F.
    + destruct (first_equal_Some _ _ _ _ F) as [d1 [v [d2 [-> [H1 H2]]]]].
      split.
      * intros _; exists k', v; split; [apply in_elt|apply keq_spec; exact H1].
      * intros _; apply raw_mem_true; unfold hkeys; rewrite map_app; simpl; apply in_elt.
    + rewrite E; split; [discriminate|].
      apply first_equal_None in F; rewrite Forall_forall in F.
      intros [k' [v [H1 H2]]]; apply keq_spec in H2; apply F in H1; simpl in H1; congruence.
Qed.

Lemma keySearch_cases w d k :
  (contains w d k = true /\ In (hkey w (keySearch w d k)) (hkeys w d)
     /\ spec_equal w k (keySearch w d k))
  \/ (contains w d k = false /\ keySearch w d k = k /\ ~ In (hkey w k) (hkeys w d)
      /\ Forall (fun e => keq w k (fst e) = false) d).
Proof.
  destruct (contains w d k) eqn:E.
  - left; split; [reflexivity|]. split.
    + unfold contains in E; apply raw_mem_true; exact E.
    + unfold keySearch. destruct (raw_mem w d k); [apply spec_equal_refl|].
      destruct (first_equal w d k) eqn:F; [|apply spec_equal_refl].
      destruct (first_equal_Some _ _ _ _ F) as [d1 [v [d2 [-> [H1 H2]]]]].
      apply keq_spec; exact H1.
  - right; split; [reflexivity|]. unfold contains, keySearch in *.
    destruct (raw_mem w d k) eqn:M; [congruence|].
    destruct (first_equal w d k) eqn:F.
    + exfalso. destruct (first_equal_Some _ _ _ _ F) as [d1 [v [d2 [-> [H1 H2]]]]].
      assert (H: raw_mem w (d1 ++ (k0, v) :: d2) k0 = true); [|congruence].
      apply raw_mem_true; unfold hkeys; rewrite map_app; simpl; apply in_elt.
    + split; [reflexivity|]. split; [|apply first_equal_None; exact F].
      intros H; apply raw_mem_true in H; congruence.
Qed.

(** ** C02: overwriting through an equal key *)
Lemma raw_set_split w d k v : In (hkey w k) (hkeys w d) ->
  exists d1 k0 v0 d2, d = d1 ++ (k0, v0) :: d2 /\ hkey w k0 = hkey w k
    /\ raw_set w d k v = d1 ++ (k0, v) :: d2.
Proof.
  induction d as [|[k' v'] r IH]; simpl; [tauto|].
  destruct (String.eqb_spec (hkey w k') (hkey w k)) as [E|E].
  - intros _; exists [], k', v', r; auto.
  - intros [H|H]; [congruence|]. destruct (IH H) as [d1 [k0 [v0 [d2 [-> [H1 H2]]]]]].
    exists ((k', v') :: d1), k0, v0, d2; split; [reflexivity|split; [exact H1|]].
    rewrite H2; reflexivity.
Qed.

(** The entry hit by a key is equal to that key. *)
Lemma keySearch_split w d k : contains w d k = true ->
  exists d1 k0 v0 d2, d = d1 ++ (k0, v0) :: d2 /\ spec_equal w k k0
   /\ hkey w k0 = hkey w (keySearch w d k).
Proof.
  unfold contains, keySearch; destruct (raw_mem w d k) eqn:E.
  - intros _. apply raw_mem_true in E.
    apply in_map_iff in E; destruct E as [[k0 v0] [H1 H2]].
    apply in_split in H2; destruct H2 as [d1 [d2 ->]].
    exists d1, k0, v0, d2; split; [reflexivity|split; [apply hkey_equal; auto|exact H1]].
  - destruct (first_equal w d k) eqn:F.
    + intros _. destruct (first_equal_Some _ _ _ _ F) as [d1 [v [d2 [-> [H1 H2]]]]].
      exists d1, k0, v, d2; split; [reflexivity|split; [apply keq_spec; exact H1|reflexivity]].
    + congruence.
Qed.

Lemma hkeys_nodup_unique w d1 k0 v0 d2 e1 k1 v1 e2 :
  NoDup (hkeys w (d1 ++ (k0, v0) :: d2)) ->
  d1 ++ (k0, v0) :: d2 = e1 ++ (k1, v1) :: e2 -> hkey w k0 = hkey w k1 ->
  d1 = e1 /\ k0 = k1 /\ v0 = v1 /\ d2 = e2.
Proof.
  revert e1; induction d1 as [|[a x] d1 IH]; intros [|[b y] e1]; simpl; intros Hnd E H.
  - injection E as -> -> ->; auto.
  - injection E as -> -> ->. inversion Hnd as [|? ? Hn _]; subst.
    exfalso; apply Hn; rewrite H. unfold hkeys; rewrite map_app; simpl; apply in_elt.
  - injection E as -> -> <-. inversion Hnd as [|? ? Hn _]; subst.
    exfalso; apply Hn; rewrite <- H. unfold hkeys; rewrite map_app; simpl; apply in_elt.
  - injection E as -> -> E. inversion Hnd as [|? ? _ Hr]; subst.
    destruct (IH e1 Hr E H) as [-> [-> [-> ->]]]; auto.
Qed.

Lemma setitem_overwrite w d k v : NoDup (hkeys w d) -> contains w d k = true ->
  exists d1 k0 v0 d2, d = d1 ++ (k0, v0) :: d2 /\ spec_equal w k k0
    /\ setitem w d k v = d1 ++ (k0, v) :: d2.
Proof.
  intros Hnd H. destruct (keySearch_split _ _ _ H) as [d1 [k0 [v0 [d2 [E [H1 H2]]]]]].
  assert (Hin : In (hkey w (keySearch w d k)) (hkeys w d)).
  { rewrite <- H2, E. unfold hkeys; rewrite map_app; simpl; apply in_elt. }
  destruct (raw_set_split w d _ v Hin) as [e1 [k1 [v1 [e2 [E' [H3 H4]]]]]].
  exists d1, k0, v0, d2; split; [exact E|split; [exact H1|]].
  unfold setitem; rewrite H4.
  rewrite E in Hnd. rewrite E in E'.
  destruct (hkeys_nodup_unique _ _ _ _ _ _ _ _ _ Hnd E') as [-> [-> [-> ->]]]; [congruence|reflexivity].
Qed.

Lemma setitem_new w d k v : contains w d k = false -> setitem w d k v = d ++ [(k, v)].
Proof.
  intros H; unfold setitem. destruct (keySearch_cases w d k) as [[H1 _]|[_ [E [Hn _]]]]; [congruence|].
  rewrite E; apply raw_set_notin; exact Hn.
Qed.

Lemma setitem_nodup w d k v : NoDup (hkeys w d) -> NoDup (hkeys w (setitem w d k v)).
Proof.
  intros Hnd; destruct (contains w d k) eqn:E.
  - destruct (setitem_overwrite w d k v Hnd E) as [d1 [k0 [v0 [d2 [-> [_ ->]]]]]].
    unfold hkeys in *; rewrite map_app in *; exact Hnd.
  - rewrite (setitem_new _ _ _ _ E).
    destruct (keySearch_cases w d k) as [[H _]|[_ [_ [Hn _]]]]; [congruence|].
    unfold hkeys in *; rewrite map_app; simpl.
    apply (NoDup_Add (a := hkey w k) (l := map (fun e => hkey w (fst e)) d)); [|split; assumption].
    pose proof (Add_app (hkey w k) (map (fun e : key * V => hkey w (fst e)) d) []) as Ha.
    rewrite app_nil_r in Ha; exact Ha.
Qed.

Lemma raw_del_split w d k : In (hkey w k) (hkeys w d) ->
  exists d1 k0 v0 d2, d = d1 ++ (k0, v0) :: d2 /\ hkey w k0 = hkey w k
    /\ raw_del w d k = d1 ++ d2 /\ raw_find w d k = Some v0.
Proof.
  induction d as [|[k' v'] r IH]; simpl; [tauto|].
  destruct (String.eqb_spec (hkey w k') (hkey w k)) as [E|E].
  - intros _; exists [], k', v', r; auto.
  - intros [H|H]; [congruence|]. destruct (IH H) as [d1 [k0 [v0 [d2 [-> [H1 [H2 H3]]]]]]].
    exists ((k', v') :: d1), k0, v0, d2; split; [reflexivity|split; [exact H1|]].
    rewrite H2, H3; auto.
Qed.

Lemma raw_del_notin w d k : ~ In (hkey w k) (hkeys w d) -> raw_del w d k = d.
Proof.
  induction d as [|[k' v'] r IH]; simpl; [reflexivity|].
  destruct (String.eqb_spec (hkey w k') (hkey w k)) as [E|E]; [tauto|].
  intros H; rewrite IH; tauto.
Qed.

Lemma raw_del_nodup w d k : NoDup (hkeys w d) -> NoDup (hkeys w (raw_del w d k)).
Proof.
  intros Hnd. destruct (in_dec string_dec (hkey w k) (hkeys w d)) as [H|H].
  - destruct (raw_del_split _ _ _ H) as [d1 [k0 [v0 [d2 [-> [_ [-> _]]]]]]].
    unfold hkeys in *; rewrite map_app in *; simpl in Hnd; apply NoDup_remove_1 in Hnd; exact Hnd.
  - rewrite raw_del_notin; assumption.
Qed.

(** In every history the stored keys have pairwise different names. *)
Lemma hkeys_addAlias w d o s : hkeys (addAlias w o s) d = hkeys w d.
Proof. reflexivity. Qed.

Lemma update_nodup w m d : NoDup (hkeys w d) -> NoDup (hkeys w (update w d m)).
Proof.
  unfold update; revert d; induction m as [|[k v] m IH]; simpl; intros d H; [exact H|].
  apply IH, setitem_nodup, H.
Qed.

Lemma step_nodup w d o : NoDup (hkeys w d) ->
  NoDup (hkeys (fst (fst (step (w, d) o))) (snd (fst (step (w, d) o)))).
Proof.
  intros H; destruct o; simpl; try exact H.
  - apply setitem_nodup, H.
  - unfold delitem; destruct (raw_mem w d (keySearch w d k)); simpl; [apply raw_del_nodup, H|exact H].
  - apply update_nodup, H.
  - destruct (contains w d k); [exact H|apply setitem_nodup, H].
  - unfold pop; destruct (raw_find w d (keySearch w d k)); simpl; [apply raw_del_nodup, H|exact H].
  - constructor.
Qed.

Lemma run_nodup ops w d : NoDup (hkeys w d) ->
  NoDup (hkeys (fst (fst (run (w, d) ops))) (snd (fst (run (w, d) ops)))).
Proof.
  revert w d; induction ops as [|o ops IH]; intros w d H; cbn [run]; [exact H|].
  destruct (step (w, d) o) as [[w1 d1] x] eqn:E.
  pose proof (step_nodup w d o H) as H1; rewrite E in H1; simpl in H1.
  specialize (IH w1 d1 H1). destruct (run (w1, d1) ops) as [[w2 d2] xs]; exact IH.
Qed.
End Raw.

(** ** C01: refinement to the ordered map of identities *)

Lemma ident_eqb_spec a b : reflect (a = b) (ident_eqb a b).
Proof.
  destruct a as [x|x], b as [y|y]; simpl; try (constructor; congruence).
  - destruct (Nat.eqb_spec x y); constructor; congruence.
  - destruct (String.eqb_spec x y); constructor; congruence.
Qed.

Section Refine.
Context {V : Type}.
Variables (w : world) (objs : list nat).
Hypothesis Hex : exclusive w objs.

Lemma denotes_unique k i j : denotes w objs k i -> denotes w objs k j -> i = j.
Proof.
  destruct k as [s|o], i as [p|t], j as [q|u]; simpl; try tauto.
  - intros [H1 H2] [H3 H4]; f_equal; exact (Hex _ _ _ H1 H3 H2 H4).
  - intros [H1 H2] [_ H3]; exfalso; exact (H3 _ H1 H2).
  - intros [_ H3] [H1 H2]; exfalso; exact (H3 _ H1 H2).
  - intros [-> _] [-> _]; reflexivity.
  - intros [<- _] [<- _]; reflexivity.
Qed.

Lemma denotes_equal k i j : denotes w objs k i -> denotes w objs (key_of j) j ->
  (spec_equal w k (key_of j) <-> i = j).
Proof.
  destruct k as [s|o], i as [p|t], j as [q|u]; simpl; try tauto.
  - intros [H1 H2] [_ H3]; split.
    + intros H; f_equal; exact (Hex _ _ _ H1 H3 H2 H).
    + intros E; injection E as ->; exact H2.
  - intros [H1 H2] [_ H3]; split; [intros ->; exfalso; exact (H3 _ H1 H2)|discriminate].
  - intros [-> H1] [_ H3]; split; [intros H; exfalso; exact (H1 _ H3 H)|discriminate].
  - intros [-> H1] [_ H3]; split; [intros ->; reflexivity|intros E; injection E as ->; reflexivity].
  - intros [-> H1] [_ H3]; split.
    + intros [s [H4 H5]]; f_equal; exact (Hex _ _ _ H1 H3 H4 H5).
    + intros E; injection E as ->. exists (w_name w q); unfold owns; auto.
  - intros [-> H1] [_ H3]; split; [intros H; exfalso; exact (H3 _ H1 H)|discriminate].
Qed.

Implicit Types (m : smap V).

Lemma slookup_None m i : slookup m i = None <-> ~ In i (map fst m).
Proof.
  induction m as [|[j v] r IH]; simpl; [tauto|].
  destruct (ident_eqb_spec j i) as [->|E]; [split; [discriminate|intros H; exfalso; apply H; auto]|].
  rewrite IH; tauto.
Qed.

Lemma sset_split m i v v0 : slookup m i = Some v0 ->
  exists m1 m2, m = m1 ++ (i, v0) :: m2 /\ sset m i v = m1 ++ (i, v) :: m2 /\ ~ In i (map fst m1).
Proof.
  induction m as [|[j x] r IH]; simpl; [discriminate|].
  destruct (ident_eqb_spec j i) as [->|E].
  - intros H; injection H as ->; exists [], r; simpl; auto.
  - intros H; destruct (IH H) as [m1 [m2 [-> [H1 H2]]]]. exists ((j, x) :: m1), m2.
    rewrite H1; simpl; split; [reflexivity|split; [reflexivity|tauto]].
Qed.

Lemma sset_new m i v : slookup m i = None -> sset m i v = m ++ [(i, v)].
Proof.
  induction m as [|[j x] r IH]; simpl; [reflexivity|].
  destruct (ident_eqb_spec j i) as [->|E]; [discriminate|].
  intros H; rewrite (IH H); reflexivity.
Qed.

Lemma sdel_split m1 m2 i v : NoDup (map fst (m1 ++ (i, v) :: m2)) ->
  sdel (m1 ++ (i, v) :: m2) i = m1 ++ m2.
Proof.
  intros H. rewrite map_app in H; simpl in H.
  pose proof (NoDup_remove_2 _ _ _ H) as Hn; rewrite in_app_iff in Hn.
  assert (Hf : forall l : smap V, ~ In i (map fst l) -> sdel l i = l).
  { unfold sdel; induction l as [|[j x] l IH]; simpl; [reflexivity|].
    destruct (ident_eqb_spec j i) as [->|E]; simpl; [tauto|]. intros H1; rewrite IH; tauto. }
  unfold sdel; rewrite filter_app; simpl.
  destruct (ident_eqb_spec i i) as [_|E]; [simpl|congruence].
  change (sdel m1 i ++ sdel m2 i = m1 ++ m2); rewrite !Hf; tauto.
Qed.

Lemma sdel_notin m i : slookup m i = None -> sdel m i = m.
Proof.
  unfold sdel; induction m as [|[j x] l IH]; simpl; [reflexivity|].
  destruct (ident_eqb_spec j i) as [->|E]; simpl; [discriminate|]. intros H1; rewrite IH; tauto.
Qed.

Lemma slookup_split m i v : slookup m i = Some v -> exists m1 m2, m = m1 ++ (i, v) :: m2.
Proof.
  intros H; destruct (sset_split m i v v H) as [m1 [m2 [E _]]]; eauto.
Qed.

(** Stored keys of a represented map have different names. *)
Lemma represents_hkeys d m : represents w objs d m -> NoDup (hkeys w d).
Proof.
  intros [-> [Hnd Hv]]. unfold hkeys; rewrite map_map; simpl.
  induction m as [|[i v] r IH]; simpl; [constructor|].
  inversion Hnd as [|? ? Hn Hr]; inversion Hv as [|? ? Hi Hf]; subst; simpl in *.
  constructor; [|auto]. intros H; apply in_map_iff in H; destruct H as [[j x] [E Hj]]; simpl in E.
  rewrite Forall_forall in Hf; specialize (Hf _ Hj); simpl in Hf.
  apply Hn. assert (i = j) as ->; [|apply in_map with (f := fst) in Hj; exact Hj].
  apply (denotes_equal (key_of i) i j Hi Hf). apply hkey_equal; symmetry; exact E.
Qed.

Lemma represents_contains d m k i : represents w objs d m -> denotes w objs k i ->
  (contains w d k = true <-> slookup m i <> None).
Proof.
  intros [-> [Hnd Hv]] Hk. rewrite contains_spec. rewrite slookup_None.
  rewrite Forall_forall in Hv. split.
  - intros [k' [v [Hin He]]] Hn. apply in_map_iff in Hin. destruct Hin as [[j x] [E Hj]].
    simpl in E; injection E as <- <-. specialize (Hv _ Hj); simpl in Hv.
    apply (denotes_equal k i j Hk Hv) in He; subst j.
    apply Hn; apply in_map with (f := fst) in Hj; exact Hj.
  - intros Hn. destruct (in_dec (fun a b => match ident_eqb_spec a b with
        | ReflectT _ e => left e | ReflectF _ e => right e end) i (map fst m)) as [H|H]; [|tauto].
    apply in_map_iff in H; destruct H as [[j x] [E Hj]]; simpl in E; subst j.
    exists (key_of i), x; split.
    + apply in_map_iff; exists (i, x); auto.
    + apply (denotes_equal k i i Hk (Hv _ Hj)); reflexivity.
Qed.

Lemma represents_getitem d m k i : represents w objs d m -> denotes w objs k i ->
  getitem w d k = match slookup m i with Some v => Ok v | None => Err KeyError end.
Proof.
  intros HR Hk. pose proof (represents_contains d m k i HR Hk) as Hc.
  pose proof (represents_hkeys d m HR) as Hh.
  unfold getitem. destruct (slookup m i) as [v|] eqn:E.
  - assert (C : contains w d k = true) by (apply Hc; discriminate).
    destruct (keySearch_split _ _ _ C) as [d1 [k0 [v0 [d2 [E1 [He Hk0]]]]]].
    assert (Hin : In (k0, v0) d) by (rewrite E1; apply in_elt).
    pose proof (keySearch_stored w d k0 v0 Hh Hin) as Hf.
    assert (Hff : forall ka kb, hkey w ka = hkey w kb -> raw_find w d ka = raw_find w d kb).
    { intros ka kb H; clear - H; induction d as [|[a x] r IH]; simpl; [reflexivity|]. rewrite H, IH; reflexivity. }
    rewrite (Hff _ _ (eq_sym Hk0)), Hf.
    destruct HR as [-> [Hnd Hv]]. apply in_map_iff in Hin; destruct Hin as [[j x] [Ej Hj]].
    simpl in Ej; injection Ej as <- <-. rewrite Forall_forall in Hv.
    apply (denotes_equal k i j Hk (Hv _ Hj)) in He; subst j.
    destruct (slookup_split m i v E) as [m1 [m2 Em]]; subst m.
    f_equal. apply in_app_or in Hj; simpl in Hj. rewrite map_app in Hnd; simpl in Hnd.
    pose proof (NoDup_remove_2 _ _ _ Hnd) as Hn; rewrite in_app_iff in Hn.
    destruct Hj as [H|[H|H]].
    + exfalso; apply Hn; left; apply in_map with (f := fst) in H; exact H.
    + injection H as ->; reflexivity.
    + exfalso; apply Hn; right; apply in_map with (f := fst) in H; exact H.
  - assert (C : contains w d k = false).
    { destruct (contains w d k); [|reflexivity]. exfalso; apply Hc; reflexivity. }
    destruct (keySearch_cases w d k) as [[H _]|[_ [-> [Hn _]]]]; [congruence|].
    apply raw_find_None in Hn; rewrite Hn; reflexivity.
Qed.

Lemma represents_setitem d m k i v : represents w objs d m -> denotes w objs k i ->
  insertable m k i -> represents w objs (setitem w d k v) (sset m i v).
Proof.
  intros HR Hk Hins. pose proof (represents_contains d m k i HR Hk) as Hc.
  pose proof (represents_hkeys d m HR) as Hh.
  destruct (slookup m i) as [v1|] eqn:E.
  - assert (C : contains w d k = true) by (apply Hc; discriminate).
    destruct (setitem_overwrite w d k v Hh C) as [d1 [k0 [v0 [d2 [E1 [He ->]]]]]].
    destruct (sset_split m i v v1 E) as [m1 [m2 [Em [-> Hni]]]].
    destruct HR as [Ed [Hnd Hv]].
    assert (Hin : In (k0, v0) d) by (rewrite E1; apply in_elt).
    rewrite Ed in Hin. apply in_map_iff in Hin; destruct Hin as [[j x] [Ej Hj]].
    simpl in Ej; injection Ej as Ej1 Ej2.
    assert (Hj' := Hj). rewrite Forall_forall in Hv. apply Hv in Hj'; simpl in Hj'.
    rewrite <- Ej1 in He. apply (denotes_equal k i j Hk Hj') in He; subst j.
    assert (Hd : d1 ++ (k0, v0) :: d2 = map (fun e => (key_of (fst e), snd e)) m1
        ++ (key_of i, v1) :: map (fun e => (key_of (fst e), snd e)) m2).
    { rewrite <- E1, Ed, Em, map_app; reflexivity. }
    rewrite E1 in Hh.
    destruct (hkeys_nodup_unique _ _ _ _ _ _ _ _ _ Hh Hd) as [-> [-> [-> ->]]]; [congruence|].
    subst m. split; [rewrite map_app; reflexivity|split].
    + rewrite map_app in *; exact Hnd.
    + rewrite Forall_forall; intros e He'. apply in_app_or in He'. destruct He' as [H|[<-|H]].
      * apply Hv; apply in_or_app; auto.
      * simpl; exact Hj'.
      * apply Hv; apply in_or_app; right; right; exact H.
  - assert (C : contains w d k = false).
    { destruct (contains w d k); [|reflexivity]. exfalso; apply Hc; reflexivity. }
    rewrite (setitem_new _ _ _ _ C), (sset_new _ _ _ E).
    assert (Ek : k = key_of i).
    { destruct Hins as [H|H]; [congruence|].
      destruct k as [s|o], i as [p|t]; simpl in *; try tauto; destruct Hk as [-> _]; reflexivity. }
    destruct HR as [-> [Hnd Hv]]; subst k; split; [rewrite map_app; reflexivity|split].
    + rewrite map_app; simpl. apply slookup_None in E.
      apply (NoDup_Add (a := i) (l := map fst m)); [|split; assumption].
      pose proof (Add_app i (map fst m) []) as Ha; rewrite app_nil_r in Ha; exact Ha.
    + apply Forall_app; split; [exact Hv|constructor; [exact Hk|constructor]].
Qed.

Lemma represents_del d m k i : represents w objs d m -> denotes w objs k i ->
  represents w objs (raw_del w d (keySearch w d k)) (sdel m i)
  /\ raw_find w d (keySearch w d k) = slookup m i.
Proof.
  intros HR Hk. pose proof (represents_contains d m k i HR Hk) as Hc.
  pose proof (represents_hkeys d m HR) as Hh.
  pose proof (represents_getitem d m k i HR Hk) as Hg; unfold getitem in Hg.
  destruct (slookup m i) as [v|] eqn:E.
  - assert (C : contains w d k = true) by (apply Hc; discriminate).
    destruct (raw_find w d (keySearch w d k)) as [v'|] eqn:F; [injection Hg as ->|discriminate].
    split; [|reflexivity].
    destruct (keySearch_cases w d k) as [[_ [Hin He]]|[H _]]; [|congruence].
    destruct (raw_del_split w d _ Hin) as [d1 [k0 [v0 [d2 [E1 [H1 [-> H3]]]]]]].
    destruct (keySearch_split _ _ _ C) as [e1 [k1 [v1 [e2 [E2 [He1 H4]]]]]].
    destruct (slookup_split m i v E) as [m1 [m2 Em]].
    destruct HR as [Ed [Hnd Hv]].
    rewrite E1 in Hh. rewrite E1 in E2.
    destruct (hkeys_nodup_unique _ _ _ _ _ _ _ _ _ Hh E2) as [-> [-> [-> ->]]]; [congruence|].
    assert (Hd : e1 ++ (k1, v1) :: e2 = map (fun e => (key_of (fst e), snd e)) m1
        ++ (key_of i, v) :: map (fun e => (key_of (fst e), snd e)) m2).
    { rewrite <- E1, Ed, Em, map_app; reflexivity. }
    assert (Hin2 : In (k1, v1) d) by (rewrite E1; apply in_elt).
    rewrite Ed in Hin2. apply in_map_iff in Hin2; destruct Hin2 as [[j x] [Ej Hj]].
    simpl in Ej; injection Ej as Ej1 Ej2. rewrite Forall_forall in Hv.
    rewrite <- Ej1 in He1. apply (denotes_equal k i j Hk (Hv _ Hj)) in He1; subst j.
    destruct (hkeys_nodup_unique _ _ _ _ _ _ _ _ _ Hh Hd) as [-> [_ [_ ->]]]; [congruence|].
    subst m. rewrite (sdel_split _ _ _ _ Hnd). split; [rewrite map_app; reflexivity|split].
    + rewrite map_app in *; simpl in Hnd; apply NoDup_remove_1 in Hnd; exact Hnd.
    + rewrite Forall_forall; intros e He'; apply Hv; apply in_app_or in He'; apply in_or_app.
      destruct He'; [left|right; right]; assumption.
  - destruct (raw_find w d (keySearch w d k)) as [v'|] eqn:F; [discriminate|].
    split; [|reflexivity]. apply raw_find_None in F. rewrite (raw_del_notin _ _ _ F), (sdel_notin _ _ E).
    exact HR.
Qed.

Lemma step_refines d m o m' x : represents w objs d m -> sstep w objs m o m' x ->
  (forall a s, o <> OAddAlias a s) ->
  exists d', step (w, d) o = ((w, d'), x) /\ represents w objs d' m'.
Proof.
  intros HR Hs Ho. revert d HR Ho; induction Hs; intros d HR Ho; simpl.
  - exists d; rewrite (represents_getitem d m k i HR H); auto.
  - exists d; unfold get; rewrite (represents_getitem d m k i HR H).
    destruct (slookup m i); auto.
  - eexists; split; [reflexivity|]. apply represents_setitem; assumption.
  - destruct (represents_del d m k i HR H) as [H1 H2].
    unfold delitem, raw_mem; rewrite H2. destruct (slookup m i) eqn:E; eexists; split; try reflexivity; auto.
    rewrite (sdel_notin _ _ E); exact HR.
  - exists d; split; [|exact HR]. pose proof (represents_contains d m k i HR H) as Hc.
    do 2 f_equal. destruct (slookup m i).
    + apply Hc; discriminate.
    + destruct (contains w d k); [exfalso; apply Hc; reflexivity|reflexivity].
  - exists d; split; [reflexivity|exact HR].
  - destruct (IHHs (setitem w d k v)) as [d' [E1 E2]].
    + apply represents_setitem; assumption.
    + discriminate.
    + exists d'; split; [|exact E2]. simpl in E1. unfold update in *; simpl; exact E1.
  - pose proof (represents_contains d m k i HR H) as Hc. unfold setdefault.
    destruct (slookup m i) as [v1|] eqn:E.
    + assert (C : contains w d k = true) by (apply Hc; discriminate). rewrite C.
      exists d; rewrite (represents_getitem d m k i HR H), E; auto.
    + assert (C : contains w d k = false).
      { destruct (contains w d k); [|reflexivity]. exfalso; apply Hc; reflexivity. }
      rewrite C. exists (setitem w d k v).
      pose proof (represents_setitem d m k i v HR H H0) as HR'.
      split; [|exact HR']. rewrite (represents_getitem _ _ k i HR' H).
      rewrite (sset_new _ _ _ E).
      assert (L : forall l : smap V, slookup l i = None -> slookup (l ++ [(i, v)]) i = Some v).
      { induction l as [|[j y] l IH]; simpl.
        - destruct (ident_eqb_spec i i); congruence.
        - destruct (ident_eqb j i); [discriminate|exact IH]. }
      rewrite (L _ E); reflexivity.
  - destruct (represents_del d m k i HR H) as [H1 H2].
    unfold pop; rewrite H2. destruct (slookup m i) as [v1|] eqn:E.
    + eexists; split; [reflexivity|exact H1].
    + rewrite (sdel_notin _ _ E). exists d; destruct dflt; auto.
  - exists []; split; [reflexivity|]. split; [reflexivity|split; constructor].
  - exfalso; eapply Ho; reflexivity.
Qed.
End Refine.

Section Refine2.
Context {V : Type}.
Variable objs : list nat.

Lemma owns_addAlias w o s p t :
  owns (addAlias w o s) p t <-> owns w p t \/ (p = o /\ t = s).
Proof.
  unfold owns, addAlias; simpl. destruct (Nat.eqb_spec p o) as [->|E].
  - rewrite in_app_iff; simpl; split; [intros [H|[H|[H|[]]]]|intros [[H|H]|[_ H]]]; auto.
  - split; [auto|intros [H|[H _]]; [exact H|congruence]].
Qed.

Lemma step_alias w (d : dict V) m o s m' x : exclusive w objs -> represents w objs d m ->
  sstep w objs m (OAddAlias o s) m' x ->
  exists d', step (w, d) (OAddAlias o s) = ((addAlias w o s, d'), x)
    /\ represents (addAlias w o s) objs d' m' /\ exclusive (addAlias w o s) objs.
Proof.
  intros Hex HR Hs; inversion Hs as [| | | | | | | | | |? ? ? Ho Hu Hl]; subst; simpl.
  exists d; split; [reflexivity|]. split.
  - destruct HR as [Ed [Hnd Hv]]; split; [exact Ed|split; [exact Hnd|]].
    apply slookup_None in Hl.
    rewrite Forall_forall in *; intros [i v] Hi. pose proof (Hv _ Hi) as H; simpl in *.
    destruct i as [p|t]; simpl in *; [exact H|]. destruct H as [_ H]; split; [reflexivity|].
    intros p Hp. rewrite owns_addAlias; intros [H1|[-> ->]]; [exact (H p Hp H1)|].
    apply Hl; apply in_map with (f := fst) in Hi; exact Hi.
  - intros a b t Ha Hb. rewrite !owns_addAlias.
    intros [H1|[E1 E2]] [H2|[E3 E4]].
    + exact (Hex _ _ _ Ha Hb H1 H2).
    + subst b t; exact (Hu _ Ha H1).
    + subst a t; symmetry; exact (Hu _ Hb H2).
    + congruence.
Qed.

Lemma runs_refine ops : forall w (d : dict V) m m' xs,
  exclusive w objs -> represents w objs d m -> sruns objs w m ops m' xs ->
  exists w' d', run (w, d) ops = ((w', d'), xs) /\ represents w' objs d' m' /\ exclusive w' objs.
Proof.
  induction ops as [|o ops IH]; intros w d m m' xs Hex HR Hr; inversion Hr as [|? ? ? ? ? ? ? ? H2 H6]; subst.
  - exists w, d; auto.
  - cbn [run].
    assert (D : (exists a s, o = OAddAlias a s) \/ (forall a s, o <> OAddAlias a s)).
    { destruct o; try (right; intros; discriminate). left; eauto. }
    destruct D as [[a [s ->]]|Ho].
    + destruct (step_alias _ _ _ _ _ _ _ Hex HR H2) as [d1 [E1 [HR1 Hex1]]].
      rewrite E1. destruct (IH _ _ _ _ _ Hex1 HR1 H6) as [w2 [d2 [E2 H]]].
      rewrite E2; exists w2, d2; auto.
    + destruct (step_refines _ _ Hex _ _ _ _ _ HR H2 Ho) as [d1 [E1 HR1]].
      rewrite E1. replace (world_after w o) with w in H6 by (destruct o; try reflexivity; exfalso; eapply Ho; reflexivity).
      destruct (IH _ _ _ _ _ Hex HR1 H6) as [w2 [d2 [E2 H]]].
      rewrite E2; exists w2, d2; auto.
Qed.
End Refine2.

(** ** Statements used by PropsAlias.v *)
Lemma denotes_total w objs k : (forall o, k = KObj o -> In o objs) -> exists i, denotes w objs k i.
Proof.
  destruct k as [s|o]; intros H.
  - assert (D : (exists o, In o objs /\ owns w o s) \/ (forall o, In o objs -> ~ owns w o s)).
    { clear H; induction objs as [|o r IH]; [right; simpl; tauto|].
      destruct (existsb (fun it => String.eqb it s) (members w o)) eqn:E.
      - apply existsb_members in E; left; exists o; simpl; auto.
      - destruct IH as [[p [H1 H2]]|H]; [left; exists p; simpl; auto|].
        right; intros p [<-|Hp]; [|auto]. intros Hc; apply existsb_members in Hc; congruence. }
    destruct D as [[o [H1 H2]]|H1]; [exists (IdObj o); simpl; auto|exists (IdStr s); simpl; auto].
  - exists (IdObj o); simpl; auto.
Qed.

Lemma getitem_reachable {V} w (d : dict V) k : NoDup (hkeys w d) ->
  match getitem w d k with
  | Ok v => exists k', In (k', v) d /\ spec_equal w k k'
  | Err e => e = KeyError /\ forall k' v, In (k', v) d -> ~ spec_equal w k k'
  end.
Proof.
  intros Hnd; unfold getitem. destruct (contains w d k) eqn:C.
  - destruct (keySearch_split _ _ _ C) as [d1 [k0 [v0 [d2 [E [He Hk]]]]]].
    assert (Hin : In (k0, v0) d) by (rewrite E; apply in_elt).
    pose proof (keySearch_stored w d k0 v0 Hnd Hin) as Hf.
    assert (Hff : forall ka kb, hkey w ka = hkey w kb -> raw_find w d ka = raw_find w d kb).
    { intros ka kb H; clear - H; induction d as [|[a x] r IH]; simpl; [reflexivity|]. rewrite H, IH; reflexivity. }
    rewrite (Hff _ _ (eq_sym Hk)), Hf. exists k0; auto.
  - destruct (keySearch_cases w d k) as [[H _]|[_ [-> [Hn Hf]]]]; [congruence|].
    apply raw_find_None in Hn; rewrite Hn. split; [reflexivity|].
    intros k' v Hin He; rewrite Forall_forall in Hf; apply Hf in Hin; simpl in Hin.
    apply keq_spec in He; congruence.
Qed.

Lemma run_nodup_eq {V} w (ops : list (op V)) w' d' xs :
  run (w, []) ops = ((w', d'), xs) -> NoDup (hkeys w' d').
Proof.
  intros E. assert (N : NoDup (hkeys w ([] : dict V))) by constructor.
  pose proof (run_nodup ops w [] N) as H. rewrite E in H; exact H.
Qed.

Lemma getitem_after_run {V} w (ops : list (op V)) k :
  let '((w', d'), _) := run (w, []) ops in
  match getitem w' d' k with
  | Ok v => exists k', In (k', v) d' /\ spec_equal w' k k'
  | Err e => e = KeyError /\ forall k' v, In (k', v) d' -> ~ spec_equal w' k k'
  end.
Proof.
  destruct (run (w, []) ops) as [[w' d'] xs] eqn:E.
  apply getitem_reachable, (run_nodup_eq _ _ _ _ _ E).
Qed.

Lemma setitem_after_run {V} w (ops : list (op V)) k v :
  let '((w', d'), _) := run (w, []) ops in
  (exists d1 k0 v0 d2, d' = d1 ++ (k0, v0) :: d2 /\ spec_equal w' k k0
      /\ setitem w' d' k v = d1 ++ (k0, v) :: d2)
  \/ ((forall k' v', In (k', v') d' -> ~ spec_equal w' k k') /\ setitem w' d' k v = d' ++ [(k, v)]).
Proof.
  destruct (run (w, []) ops) as [[w' d'] xs] eqn:E.
  pose proof (run_nodup_eq _ _ _ _ _ E) as H.
  destruct (contains w' d' k) eqn:C.
  - left; apply setitem_overwrite; assumption.
  - right; split; [|apply setitem_new; exact C].
    destruct (keySearch_cases w' d' k) as [[H1 _]|[_ [_ [_ Hf]]]]; [congruence|].
    intros k' v' Hin He; rewrite Forall_forall in Hf; apply Hf in Hin; simpl in Hin.
    apply keq_spec in He; congruence.
Qed.

Lemma keySearch_keys {V} w k (d e : dict V) : map fst d = map fst e -> keySearch w d k = keySearch w e k.
Proof.
  intros H; unfold keySearch.
  assert (R : raw_mem w d k = raw_mem w e k).
  { revert e H; induction d as [|[a x] d IH]; intros e H; destruct e as [|[b y] e];
      simpl in H; try discriminate H; [reflexivity|].
    injection H as -> H; unfold raw_mem in *; simpl.
    destruct (String.eqb (hkey w b) (hkey w k)); [reflexivity|apply IH, H]. }
  assert (F : first_equal w d k = first_equal w e k).
  { clear R; revert e H; induction d as [|[a x] d IH]; intros e H; destruct e as [|[b y] e];
      simpl in H; try discriminate H; [reflexivity|].
    injection H as -> H; simpl. destruct (keq w k b); [reflexivity|apply IH, H]. }
  rewrite R, F; reflexivity.
Qed.

Lemma get_after_set_spec {V} w (d : dict V) k v : NoDup (hkeys w d) ->
  getitem w (setitem w d k v) k = Ok v.
Proof.
  intros Hnd. unfold setitem, getitem.
  destruct (keySearch_cases w d k) as [[C [Hin He]]|[C [E [Hn Hf]]]].
  - destruct (raw_set_split w d _ v Hin) as [d1 [k0 [v0 [d2 [E [H1 ->]]]]]].
    assert (Hks : forall dd : dict V, map fst dd = map fst d -> keySearch w dd k = keySearch w d k)
      by (intros dd Hdd; apply keySearch_keys, Hdd).
    rewrite Hks by (rewrite E, !map_app; reflexivity).
    assert (L : raw_find w (d1 ++ (k0, v) :: d2) (keySearch w d k) = Some v).
    { rewrite E in Hnd; clear - H1 Hnd. induction d1 as [|[a x] d1 IH]; simpl.
      - rewrite H1, String.eqb_refl; reflexivity.
      - inversion Hnd as [|? ? Hna Hr]; subst.
        destruct (String.eqb_spec (hkey w a) (hkey w (keySearch w d k))) as [Ea|Ea]; [|apply IH, Hr].
        exfalso; apply Hna; rewrite Ea, <- H1. unfold hkeys; rewrite map_app; simpl; apply in_elt. }
    rewrite L; reflexivity.
  - rewrite E, (raw_set_notin _ _ _ _ Hn). unfold keySearch.
    assert (M : raw_find w (d ++ [(k, v)]) k = Some v).
    { clear - Hn; induction d as [|[a x] d IH]; simpl in *; [rewrite String.eqb_refl; reflexivity|].
      destruct (String.eqb_spec (hkey w a) (hkey w k)) as [Ea|Ea]; [tauto|apply IH; tauto]. }
    unfold raw_mem; rewrite M, M; reflexivity.
Qed.
