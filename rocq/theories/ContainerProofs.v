From Verif Require Import Py AliasModel AliasSpec AliasProofs NamedModel NamedSpec NamedProofs
  RecurseModel RecurseSpec RecurseProofs ContainerModel ContainerSpec.

(** Invariant: the naming invariant, no reset and everything alive; each
    dictionary holds current objects under themselves, each once. *)
Definition dict_ok (n : nstate) (d : dict nat) : Prop :=
  d = map (fun o => (KObj o, o)) (map snd d) /\ NoDup (map snd d)
  /\ Forall (fun e => current n (snd e)) d.

Definition cinv label classes (s : cstate) : Prop :=
  full_inv label classes (c_named s)
  /\ (forall o, current (c_named s) o -> n_alive (c_named s) o = true)
  /\ (forall c, dict_ok (c_named s) (c_sub s c)).

Section Fix.
Variables (label : nat -> string) (classes : list nat).
Hypothesis Hl : labels_ok label classes.

Lemma current_equal n o p : full_inv label classes n -> current n o -> current n p ->
  spec_equal (n_world n) (KObj o) (KObj p) -> o = p.
Proof.
  intros Hi Ho Hp [t [H1 H2]]. exact (owners_unique label classes n o p t Hl Hi Ho Hp H1 H2).
Qed.

Lemma dict_ok_nodup n d : full_inv label classes n -> dict_ok n d -> NoDup (hkeys (n_world n) d).
Proof.
  intros Hi [E [Hn Hc]]. unfold hkeys. rewrite E, map_map; simpl.
  assert (Hc' : Forall (current n) (map snd d)).
  { rewrite Forall_map; exact Hc. }
  clear E Hc. induction (map snd d) as [|x l IH]; simpl; [constructor|].
  inversion Hn as [|? ? Hx Hn']; inversion Hc' as [|? ? Cx Cl]; subst.
  constructor; [|auto]. intros H; apply in_map_iff in H; destruct H as [y [Ey Hy]].
  apply Hx. rewrite Forall_forall in Cl. replace x with y; [exact Hy|].
  apply (current_equal n y x Hi (Cl _ Hy) Cx). apply hkey_equal; exact Ey.
Qed.

Lemma dict_ok_contains n d o : full_inv label classes n -> dict_ok n d -> current n o ->
  (contains (n_world n) d (KObj o) = true <-> In o (map snd d)).
Proof.
  intros Hi [E [Hn Hc]] Ho. rewrite contains_spec. split.
  - intros [k' [v [Hin He]]]. assert (Hin' := Hin). rewrite E in Hin'. apply in_map_iff in Hin'.
    destruct Hin' as [p [Ep Hp]]. injection Ep as <- <-.
    rewrite Forall_forall in Hc. specialize (Hc _ Hin); simpl in Hc.
    rewrite (current_equal n o p Hi Ho Hc He). exact Hp.
  - intros H. exists (KObj o), o; split; [|apply spec_equal_refl].
    rewrite E. apply in_map_iff; exists o; auto.
Qed.

Lemma in_existsb x l : existsb (Nat.eqb x) l = true <-> In x l.
Proof.
  rewrite existsb_exists; split.
  - intros [y [H1 H2]]; apply Nat.eqb_eq in H2; subst; exact H1.
  - intros H; exists x; split; [exact H|apply Nat.eqb_refl].
Qed.

(** Adding an object to a dictionary. *)
Lemma dict_add n d o : full_inv label classes n -> dict_ok n d -> current n o ->
  map snd (setitem (n_world n) d (KObj o) o) = oset_add (map snd d) o
  /\ dict_ok n (setitem (n_world n) d (KObj o) o).
Proof.
  intros Hi Hd Ho. pose proof (dict_ok_nodup n d Hi Hd) as Hh.
  pose proof (dict_ok_contains n d o Hi Hd Ho) as Hc. unfold oset_add.
  destruct (contains (n_world n) d (KObj o)) eqn:C.
  - assert (Hin : In o (map snd d)) by (apply Hc; reflexivity).
    assert (Ex : existsb (Nat.eqb o) (map snd d) = true) by (apply in_existsb, Hin). rewrite Ex.
    destruct (setitem_overwrite _ d (KObj o) o Hh C) as [d1 [k0 [v0 [d2 [E [He ->]]]]]].
    destruct Hd as [Ed [Hn Hcu]]. assert (Hk : In (k0, v0) d) by (rewrite E; apply in_elt).
    assert (Hk' := Hk). rewrite Ed in Hk'. apply in_map_iff in Hk'. destruct Hk' as [p [Ep Hp]].
    injection Ep as <- <-. rewrite Forall_forall in Hcu. pose proof (Hcu _ Hk) as Hcp; simpl in Hcp.
    assert (o = p) as <- by (apply (current_equal n o p Hi Ho Hcp He)).
    rewrite <- E. split; [reflexivity|split; [exact Ed|split; [exact Hn|rewrite Forall_forall; exact Hcu]]].
  - assert (Hnin : ~ In o (map snd d)) by (intros H; apply Hc in H; congruence).
    assert (Ex : existsb (Nat.eqb o) (map snd d) = false).
    { destruct (existsb (Nat.eqb o) (map snd d)) eqn:F; [|reflexivity]. apply in_existsb in F; tauto. }
    rewrite Ex, (setitem_new _ _ _ _ C), map_app; simpl. split; [reflexivity|].
    destruct Hd as [Ed [Hn Hcu]]. split; [|split].
    + rewrite !map_app; simpl. f_equal; exact Ed.
    + rewrite map_app; simpl. apply (NoDup_Add (a := o) (l := map snd d)); [|split; assumption].
      pose proof (Add_app o (map snd d) []) as Ha; rewrite app_nil_r in Ha; exact Ha.
    + apply Forall_app; split; [exact Hcu|constructor; [exact Ho|constructor]].
Qed.

Lemma filter_neq_notin x l : ~ In x l -> filter (fun y => negb (Nat.eqb y x)) l = l.
Proof.
  induction l as [|y l IH]; simpl; [reflexivity|]. intros H.
  destruct (Nat.eqb_spec y x) as [->|E]; [tauto|]. simpl; rewrite IH; tauto.
Qed.

Lemma filter_neq_split x l1 l2 : NoDup (l1 ++ x :: l2) ->
  filter (fun y => negb (Nat.eqb y x)) (l1 ++ x :: l2) = l1 ++ l2.
Proof.
  intros H. pose proof (NoDup_remove_2 _ _ _ H) as Hn; rewrite in_app_iff in Hn.
  rewrite filter_app; simpl. rewrite Nat.eqb_refl; simpl.
  rewrite !filter_neq_notin by tauto. reflexivity.
Qed.

Lemma self_keys (d : dict nat) : d = map (fun o => (KObj o, o)) (map snd d) <->
  Forall (fun e => fst e = KObj (snd e)) d.
Proof.
  induction d as [|[k v] d IH]; simpl; [split; auto|]. split.
  - intros E; injection E as E1 E2. constructor; [exact E1|apply IH, E2].
  - intros H; inversion H as [|? ? H1 H2]; subst; simpl in H1; subst. f_equal; apply IH, H2.
Qed.

(** Removing an object from a dictionary. *)
Lemma dict_remove n d o : full_inv label classes n -> dict_ok n d -> current n o ->
  match pop (n_world n) d (KObj o) None with
  | (d', Ok _) => In o (map snd d) /\ map snd d' = oset_remove (map snd d) o /\ dict_ok n d'
  | (d', Err e) => ~ In o (map snd d) /\ e = KeyError /\ d' = d
  end.
Proof.
  intros Hi Hd Ho. pose proof (dict_ok_nodup n d Hi Hd) as Hh.
  pose proof (dict_ok_contains n d o Hi Hd Ho) as Hc. unfold pop.
  destruct (keySearch_cases (n_world n) d (KObj o)) as [[C [Hin He]]|[C [E [Hnin _]]]].
  - destruct (raw_del_split _ d _ Hin) as [d1 [k0 [v0 [d2 [E [H1 [H2 H3]]]]]]].
    rewrite H3. assert (Ho' : In o (map snd d)) by (apply Hc; exact C).
    split; [exact Ho'|]. destruct Hd as [Ed [Hn Hcu]].
    assert (Hk : In (k0, v0) d) by (rewrite E; apply in_elt).
    assert (Hk' := Hk). rewrite Ed in Hk'. apply in_map_iff in Hk'. destruct Hk' as [p [Ep Hp]].
    injection Ep as <- <-. rewrite Forall_forall in Hcu. pose proof (Hcu _ Hk) as Hcp; simpl in Hcp.
    destruct (keySearch_split _ _ _ C) as [e1 [k1 [v1 [e2 [E' [He1 H4]]]]]].
    rewrite E in Hh. rewrite E in E'.
    destruct (hkeys_nodup_unique _ _ _ _ _ _ _ _ _ Hh E') as [<- [<- [<- <-]]]; [congruence|].
    assert (o = p) as <- by (apply (current_equal n o p Hi Ho Hcp He1)).
    rewrite H2. split.
    + unfold oset_remove. rewrite E, !map_app; simpl.
      symmetry; apply filter_neq_split. rewrite E, map_app in Hn; exact Hn.
    + split; [|split].
      * apply self_keys. apply self_keys in Ed. rewrite E in Ed.
        apply Forall_app in Ed; destruct Ed as [A B]. inversion B; subst. apply Forall_app; auto.
      * rewrite E, map_app in Hn; simpl in Hn. apply NoDup_remove_1 in Hn. rewrite map_app; exact Hn.
      * rewrite Forall_forall; intros x Hx; apply Hcu; rewrite E.
        apply in_app_or in Hx; apply in_or_app; destruct Hx; [left|right; right]; assumption.
  - rewrite E. apply raw_find_None in Hnin; rewrite Hnin.
    split; [|auto]. intros H; apply Hc in H; congruence.
Qed.

(** ** Single calls preserve the invariant *)
Lemma cinv_current_mono s s' : n_epoch (c_named s') = n_epoch (c_named s) ->
  n_next (c_named s) <= n_next (c_named s') -> forall o, current (c_named s) o -> current (c_named s') o.
Proof. unfold current; intros; lia. Qed.

Lemma addObj_inv s c o : cinv label classes s -> current (c_named s) o -> cinv label classes (addObj c o s).
Proof.
  intros [Hi [Ha Hd]] Ho. split; [exact Hi|split; [exact Ha|]]. intros c'; simpl.
  unfold upd; destruct (Nat.eqb c' c); [apply dict_add; auto|apply Hd].
Qed.

Lemma create_inv s k i : In k classes -> cinv label classes s ->
  cinv label classes (CState (create label (c_named s) k i) (upd (c_sub s) (n_next (c_named s)) [])).
Proof.
  intros Hk [Hi [Ha Hd]].
  assert (G : full_inv label classes (create label (c_named s) k i)).
  { apply (full_inv_step label classes (c_named s) (NCreate k i)); simpl; auto. }
  split; [exact G|split].
  - intros o Ho. simpl in *. unfold upd. destruct (Nat.eqb_spec o (n_next (c_named s))); [reflexivity|].
    apply Ha. unfold current in *; simpl in *; lia.
  - intros c; simpl. unfold upd; destruct (Nat.eqb c (n_next (c_named s))).
    + split; [reflexivity|split; constructor].
    + destruct (Hd c) as [E [N F]]; split; [exact E|split; [exact N|]].
      eapply Forall_impl; [|exact F]. intros e He; unfold current in *; simpl in *; lia.
Qed.

Lemma alias_inv_step s x a : current (c_named s) x -> ~ default_like label classes a ->
  cinv label classes s ->
  cinv label classes (fst (cstep label s (CAlias x a))).
Proof.
  intros Hx Hna [Hi [Ha Hd]]. cbn [cstep].
  pose proof (full_inv_step label classes (c_named s) (NAlias x a) Hl I Hna Hx Hi) as G.
  cbn [nstep] in G. unfold set_alias in *. destruct (alias_clash (c_named s) x a); cbn [fst].
  - split; [exact Hi|split; assumption].
  - split; [exact G|split]; assumption.
Qed.

Lemma resolve_ok s r o : cinv label classes s -> refers s r o -> resolve s r = Ok o.
Proof.
  intros [Hi [Ha Hd]] [Hc Hr]. destruct r as [o'|t|k|]; simpl in *; try tauto; [congruence|].
  rewrite (lookup_owner label classes _ o t Hl Hi Hc Hr), (Ha o Hc); reflexivity.
Qed.

Lemma resolve_current s r o : cinv label classes s -> ref_ok s classes r -> resolve s r = Ok o ->
  refers s r o.
Proof.
  intros [Hi [Ha Hd]] Hr E. destruct r as [o'|t|k|]; simpl in *; try discriminate.
  - injection E as ->; split; [exact Hr|reflexivity].
  - unfold getByNameOrAlias, get in E.
    pose proof (getitem_reachable (n_world (c_named s)) (n_reg (c_named s)) (KStr t)
                  (reg_nodup _ _ _ Hl Hi)) as Hg.
    destruct (getitem (n_world (c_named s)) (n_reg (c_named s)) (KStr t)) as [v|e]; [|discriminate].
    destruct Hg as [k' [Hin He]]. destruct Hi as [Hn [Hre Hab]].
    destruct (in_reg _ k' v Hre Hin) as [-> Hv]. rewrite (Ha v Hv) in E. injection E as ->.
    split; [exact Hv|exact He].
Qed.

Lemma resolve_none s t : cinv label classes s ->
  (forall o, current (c_named s) o -> ~ owns (n_world (c_named s)) o t) ->
  resolve s (RStr t) = Err ValueError.
Proof.
  intros [Hi _] H. simpl. rewrite (lookup_unknown label classes _ t Hl Hi H); reflexivity.
Qed.

Lemma add1_inv c r s : ref_ok s classes r -> cinv label classes s ->
  cinv label classes (fst (add1 label c r s))
  /\ (forall o, current (c_named s) o -> current (c_named (fst (add1 label c r s))) o).
Proof.
  intros Hr Hi. destruct r as [o|t|k|]; cbn [add1].
  - split; [apply addObj_inv; [exact Hi|exact Hr]|auto].
  - destruct (resolve s (RStr t)) as [o|e] eqn:E; cbn [fst]; [|auto].
    pose proof (resolve_current s (RStr t) o Hi Hr E) as [Hc _].
    split; [apply addObj_inv; assumption|auto].
  - cbn [fst]. split.
    + apply addObj_inv; [apply create_inv; assumption|].
      destruct Hi as [[[He _] _] _]. unfold current; simpl; lia.
    + intros o Ho; unfold current in *; simpl; lia.
  - auto.
Qed.

Lemma remove1_inv c r s : ref_ok s classes r -> cinv label classes s ->
  cinv label classes (fst (remove1 c r s)) /\ c_named (fst (remove1 c r s)) = c_named s.
Proof.
  intros Hr Hi. unfold remove1. destruct (resolve s r) as [o|e] eqn:E; cbn [fst]; [|auto].
  pose proof (resolve_current s r o Hi Hr E) as [Hc _].
  destruct Hi as [Hf [Ha Hd]]. pose proof (dict_remove _ _ o Hf (Hd c) Hc) as Hp.
  destruct (pop (n_world (c_named s)) (c_sub s c) (KObj o) None) as [d [v|e]]; cbn [fst].
  - split; [|reflexivity]. split; [exact Hf|split; [exact Ha|]]. intros c'; simpl.
    unfold upd; destruct (Nat.eqb c' c); [apply Hp|apply Hd].
  - split; [split; [exact Hf|split; assumption]|reflexivity].
Qed.

Lemma reset1_inv c s : cinv label classes s -> cinv label classes (reset1 c s).
Proof.
  intros [Hf [Ha Hd]]. split; [exact Hf|split; [exact Ha|]]. intros c'; simpl.
  unfold upd; destruct (Nat.eqb c' c); [split; [reflexivity|split; constructor]|apply Hd].
Qed.

Lemma calls_inv {R} (f : ref -> cstate -> cstate * result R) l :
  (forall r s, ref_ok s classes r -> cinv label classes s ->
     cinv label classes (fst (f r s)) /\
     (forall o, current (c_named s) o -> current (c_named (fst (f r s))) o)) ->
  forall s last, Forall (ref_ok s classes) l -> cinv label classes s ->
  cinv label classes (fst (calls f l s last)).
Proof.
  intros Hf. induction l as [|r l IH]; intros s last Hok Hi; cbn [calls]; [exact Hi|].
  inversion Hok as [|? ? Hr Hl']; subst. destruct (Hf r s Hr Hi) as [H1 H2].
  destruct (f r s) as [s' [v|e]]; cbn [fst] in *; [|exact H1].
  apply IH; [|exact H1]. eapply Forall_impl; [|exact Hl'].
  intros q Hq. destruct q; simpl in *; auto.
Qed.

Lemma fst_outcome {S R} (x y : S * result R) : outcome x = outcome y -> fst x = fst y.
Proof. intros H; apply (f_equal fst) in H; exact H. Qed.

Lemma cstep_inv s o : cop_ok label classes s o -> cinv label classes s ->
  cinv label classes (fst (cstep label s o)).
Proof.
  intros Hok Hi. destruct o as [k i|x a|c x|c x|c|c x].
  - cbn [cstep fst]. apply create_inv; assumption.
  - destruct Hok as [H1 H2]. apply alias_inv_step; assumption.
  - destruct Hok as [H1 H2]. cbn [cstep].
    replace (fst (let (s', r) := recurse (add1 label c) x s in (s', match r with Ok _ => Ok tt | Err e => Err e end)))
      with (fst (recurse (add1 label c) x s)) by (destruct (recurse (add1 label c) x s); reflexivity).
    rewrite (fst_outcome _ _ (recurse_outcome (add1 label c) x s)).
    apply calls_inv; auto. intros; apply add1_inv; assumption.
  - destruct Hok as [H1 H2]. cbn [cstep].
    replace (fst (let (s', r) := recurse (remove1 c) x s in (s', match r with Ok _ => Ok tt | Err e => Err e end)))
      with (fst (recurse (remove1 c) x s)) by (destruct (recurse (remove1 c) x s); reflexivity).
    rewrite (fst_outcome _ _ (recurse_outcome (remove1 c) x s)).
    apply calls_inv; auto. intros r s' Hr Hi'. destruct (remove1_inv c r s' Hr Hi') as [G1 G2].
    split; [exact G1|rewrite G2; auto].
  - apply reset1_inv, Hi.
  - destruct Hok as [H1 H2]. cbn [cstep].
    replace (fst (let (s', r) := recurse (add1 label c) x (reset1 c s) in (s', match r with Ok _ => Ok tt | Err e => Err e end)))
      with (fst (recurse (add1 label c) x (reset1 c s))) by (destruct (recurse (add1 label c) x (reset1 c s)); reflexivity).
    rewrite (fst_outcome _ _ (recurse_outcome (add1 label c) x (reset1 c s))).
    apply calls_inv; [intros; apply add1_inv; assumption| |apply reset1_inv, Hi].
    eapply Forall_impl; [|exact H2]. intros q Hq; destruct q; simpl in *; auto.
Qed.

Lemma crun_inv ops : chistory label classes ops -> cinv label classes (crun label ops).
Proof.
  induction 1 as [|ops o H IH Ho].
  - split; [|split].
    + apply (full_inv_run label classes [] Hl (H_nil _ _)).
    + unfold current; simpl; intros; lia.
    + intros c; split; [reflexivity|split; constructor].
  - unfold crun; rewrite fold_left_app; simpl. apply cstep_inv; assumption.
Qed.

(** ** The statements *)
Lemma add1_spec s c r o : cinv label classes s -> refers s r o ->
  add1 label c r s = (addObj c o s, Ok o)
  /\ subs (addObj c o s) c = oset_add (subs s c) o
  /\ (forall c', c' <> c -> subs (addObj c o s) c' = subs s c').
Proof.
  intros Hi Hr. pose proof (resolve_ok s r o Hi Hr) as E.
  destruct Hr as [Hc Hr]. split; [|split].
  - destruct r; cbn [add1] in *; try tauto; [subst; reflexivity|rewrite E; reflexivity].
  - unfold subs, addObj; simpl. rewrite upd_same. destruct Hi as [Hf [Ha Hd]].
    apply dict_add; auto.
  - intros c' Hne. unfold subs, addObj; simpl. rewrite upd_other by exact Hne. reflexivity.
Qed.

Lemma remove1_spec s c r o : cinv label classes s -> refers s r o ->
  match remove1 c r s with
  | (s', Ok _) => In o (subs s c) /\ subs s' c = oset_remove (subs s c) o
                  /\ (forall c', c' <> c -> subs s' c' = subs s c')
  | (s', Err e) => ~ In o (subs s c) /\ e = KeyError /\ s' = s
  end.
Proof.
  intros Hi Hr. pose proof (resolve_ok s r o Hi Hr) as E. destruct Hr as [Hc _].
  unfold remove1; rewrite E. destruct Hi as [Hf [Ha Hd]].
  pose proof (dict_remove _ _ o Hf (Hd c) Hc) as Hp.
  destruct (pop (n_world (c_named s)) (c_sub s c) (KObj o) None) as [d [v|e]].
  - destruct Hp as [H1 [H2 H3]]. unfold subs; simpl. rewrite upd_same.
    split; [exact H1|split; [exact H2|]]. intros c' Hne; rewrite upd_other by exact Hne; reflexivity.
  - destruct Hp as [H1 [H2 H3]]; auto.
Qed.

Lemma subs_nodup s c : cinv label classes s -> NoDup (subs s c).
Proof. intros [_ [_ Hd]]; apply Hd. Qed.

Lemma subs_keys s c : cinv label classes s -> map fst (c_sub s c) = map KObj (subs s c).
Proof.
  intros [_ [_ Hd]]. destruct (Hd c) as [E _]. unfold subs. rewrite E at 1. rewrite map_map; reflexivity.
Qed.

(** Retrieval by any name or alias. *)
Lemma subs_lookup s c o t : cinv label classes s -> current (c_named s) o ->
  owns (n_world (c_named s)) o t ->
  (In o (subs s c) <-> getitem (n_world (c_named s)) (c_sub s c) (KStr t) = Ok o)
  /\ (~ In o (subs s c) <-> getitem (n_world (c_named s)) (c_sub s c) (KStr t) = Err KeyError).
Proof.
  intros Hi Hc Ht. destruct Hi as [Hf [Ha Hd]].
  pose proof (getitem_reachable (n_world (c_named s)) (c_sub s c) (KStr t) (dict_ok_nodup _ _ Hf (Hd c))) as Hg.
  destruct (Hd c) as [E [N F]]. unfold subs. rewrite Forall_forall in F.
  destruct (getitem (n_world (c_named s)) (c_sub s c) (KStr t)) as [v|e].
  - destruct Hg as [k' [Hin He]]. assert (Hin' := Hin). rewrite E in Hin'. apply in_map_iff in Hin'.
    destruct Hin' as [p [Ep Hp]]. injection Ep as <- <-. pose proof (F _ Hin) as Hcp; simpl in Hcp.
    assert (p = o) as -> by exact (owners_unique label classes _ p o t Hl Hf Hcp Hc He Ht).
    split; split; auto; try discriminate. intros H; tauto.
  - destruct Hg as [-> Hg]. assert (Hn : ~ In o (map snd (c_sub s c))).
    { intros H. apply (Hg (KObj o) o); [|exact Ht]. rewrite E. apply in_map_iff; exists o; auto. }
    split; split; auto; try discriminate; try tauto.
Qed.

(** subSys = list of objects *)
Lemma add_list_spec c l : forall s last, cinv label classes s -> Forall (current (c_named s)) l ->
  exists s' r, calls (add1 label c) (map RObj l) s last = (s', Ok r)
    /\ subs s' c = fold_left oset_add l (subs s c)
    /\ (forall c', c' <> c -> subs s' c' = subs s c') /\ c_named s' = c_named s.
Proof.
  induction l as [|o l IH]; intros s last Hi Hc; cbn [map calls fold_left].
  - exists s, last; auto.
  - inversion Hc as [|? ? Ho Hl']; subst. cbn [add1].
    destruct (add1_spec s c (RObj o) o Hi (conj Ho eq_refl)) as [_ [E1 E2]].
    destruct (IH (addObj c o s) (Some o) (addObj_inv s c o Hi Ho) Hl') as [s' [r [E3 [E4 [E5 E6]]]]].
    exists s', r. rewrite E3, E4, E1. split; [reflexivity|split; [reflexivity|split; [|exact E6]]].
    intros c' Hne; rewrite E5, E2 by exact Hne; reflexivity.
Qed.

Lemma set_list_spec s c (l : list nat) : cinv label classes s -> Forall (current (c_named s)) l ->
  let s' := fst (cstep label s (CSet c (Lst (map (fun o => Leaf (RObj o)) l)))) in
  snd (cstep label s (CSet c (Lst (map (fun o => Leaf (RObj o)) l)))) = Ok tt
  /\ subs s' c = fold_left oset_add l []
  /\ (forall c', c' <> c -> subs s' c' = subs s c').
Proof.
  intros Hi Hc. cbn [cstep].
  pose proof (recurse_outcome (add1 label c) (Lst (map (fun o => Leaf (RObj o)) l)) (reset1 c s)) as Ho.
  rewrite leaves_lst in Ho.
  replace (flat_map leaves (map (fun o => Leaf (RObj o)) l)) with (map RObj l) in Ho
    by (clear; induction l; simpl; congruence).
  destruct (add_list_spec c l (reset1 c s) None (reset1_inv c s Hi) Hc) as [s1 [r [E1 [E2 [E3 _]]]]].
  rewrite E1 in Ho. apply outcome_eq in Ho.
  destruct (recurse (add1 label c) (Lst (map (fun o => Leaf (RObj o)) l)) (reset1 c s)) as [s2 [v|e]];
    cbn [fst snd] in Ho; destruct Ho as [-> Ho]; [|destruct Ho].
  cbn [fst snd]. split; [reflexivity|split].
  - rewrite E2. unfold subs, reset1; simpl; rewrite upd_same; reflexivity.
  - intros c' Hne; rewrite E3 by exact Hne. unfold subs, reset1; simpl; rewrite upd_other by exact Hne; reflexivity.
Qed.
End Fix.
