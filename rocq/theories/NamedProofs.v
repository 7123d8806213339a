From Coq Require Import Ascii DecimalString Decimal DecimalNat DecimalFacts.
From Verif Require Import Py AliasModel AliasSpec AliasProofs NamedModel NamedSpec.
Local Open Scope string_scope.

(** ** Decimal strings *)
Fixpoint all_digits (s : string) : bool :=
  match s with EmptyString => true | String c r => andb (is_digit c) (all_digits r) end.

Lemma all_digits_NilEmpty d : all_digits (NilEmpty.string_of_uint d) = true.
Proof. induction d; simpl; auto. Qed.

Lemma str_nat_digits n : all_digits (str_nat n) = true.
Proof.
  unfold str_nat, NilZero.string_of_uint.
  destruct (Nat.to_uint n); try apply all_digits_NilEmpty; reflexivity.
Qed.

Lemma to_uint_not_Nil n : Nat.to_uint n <> Nil.
Proof.
  rewrite <- (DecimalNat.Unsigned.of_to n), DecimalNat.Unsigned.to_of. apply unorm_nonnil.
Qed.

Lemma str_nat_inj n m : str_nat n = str_nat m -> n = m.
Proof.
  unfold str_nat; intros H.
  apply (f_equal NilZero.uint_of_string) in H.
  rewrite !NilZero.usu in H by apply to_uint_not_Nil.
  injection H as H. apply DecimalNat.Unsigned.to_uint_inj, H.
Qed.

Fixpoint strip (s : string) : string :=
  match s with
  | EmptyString => EmptyString
  | String c r => if all_digits s then EmptyString else String c (strip r)
  end.

Lemma strip_digits d : all_digits d = true -> strip d = "".
Proof. destruct d as [|c d]; [reflexivity|]. cbn [strip]. intros ->; reflexivity. Qed.

Lemma all_digits_app_nd l d : ends_nondigit l = true -> all_digits (l ++ d) = false.
Proof.
  induction l as [|c l IH]; [discriminate|].
  destruct l as [|c' l].
  - simpl. destruct (is_digit c); [discriminate|reflexivity].
  - intros H. change (andb (is_digit c) (all_digits (String c' l ++ d)) = false).
    rewrite IH; [apply andb_false_r|exact H].
Qed.

Lemma strip_app l d : ends_nondigit l = true -> all_digits d = true -> strip (l ++ d) = l.
Proof.
  induction l as [|c l IH]; [discriminate|].
  intros H Hd. change (String c l ++ d) with (String c (l ++ d)).
  cbn [strip]. change (String c (l ++ d)) with (String c l ++ d).
  rewrite (all_digits_app_nd _ _ H). f_equal.
  destruct l as [|c' l]; [simpl; apply strip_digits, Hd|apply IH; [exact H|exact Hd]].
Qed.

Lemma app_inj_l (l a b : string) : l ++ a = l ++ b -> a = b.
Proof. induction l as [|c l IH]; simpl; [auto|]. intros H; injection H as H; auto. Qed.

Lemma namer_inj_aux l1 l2 n1 n2 : ends_nondigit l1 = true -> ends_nondigit l2 = true ->
  l1 ++ str_nat n1 = l2 ++ str_nat n2 -> l1 = l2 /\ n1 = n2.
Proof.
  intros H1 H2 E.
  assert (E' := f_equal strip E).
  rewrite !strip_app in E' by (auto; apply str_nat_digits). subst l2.
  split; [reflexivity|]. apply app_inj_l in E; apply str_nat_inj, E.
Qed.

Lemma ends_nondigit_underscore l : ends_nondigit l = true -> ends_nondigit ("_" ++ l) = true.
Proof. destruct l; [discriminate|]; intros H; exact H. Qed.

Lemma namer_inj label classes c1 b1 n1 c2 b2 n2 : labels_ok label classes ->
  In c1 classes -> In c2 classes ->
  namer (label c1) b1 n1 = namer (label c2) b2 n2 -> c1 = c2 /\ b1 = b2 /\ n1 = n2.
Proof.
  intros [Hd [Hi Hu]] I1 I2 E.
  pose proof (Hd _ I1) as D1; pose proof (Hd _ I2) as D2.
  pose proof (ends_nondigit_underscore _ D1) as U1; pose proof (ends_nondigit_underscore _ D2) as U2.
  unfold namer in E; destruct b1, b2; apply namer_inj_aux in E; auto; destruct E as [El En].
  - apply app_inj_l in El; auto.
  - exfalso; exact (Hu _ _ I2 I1 (eq_sym El)).
  - exfalso; exact (Hu _ _ I1 I2 El).
  - auto.
Qed.

(** ** Invariant of the counters and names *)
Definition cnt (s : nstate) (c : nat) (b : bool) : nat := if b then n_int s c else n_ext s c.

Definition names_inv (label : nat -> string) (classes : list nat) (s : nstate) : Prop :=
  n_epoch s <= n_next s /\
  exists num : nat -> nat,
    (forall o, current s o ->
       In (n_cls s o) classes
       /\ w_name (n_world s) o = namer (label (n_cls s o)) (n_isint s o) (num o)
       /\ 1 <= num o <= cnt s (n_cls s o) (n_isint s o))
    /\ (forall o p, current s o -> current s p -> n_cls s o = n_cls s p ->
          n_isint s o = n_isint s p -> num o = num p -> o = p).

Lemma upd_same {A} (f : nat -> A) x v : upd f x v x = v.
Proof. unfold upd; rewrite Nat.eqb_refl; reflexivity. Qed.
Lemma upd_other {A} (f : nat -> A) x y v : y <> x -> upd f x v y = f y.
Proof. unfold upd; intros H; apply Nat.eqb_neq in H; rewrite H; reflexivity. Qed.

Lemma cnt_create label s c b c' b' :
  cnt (create label s c b) c' b' =
  if andb (Nat.eqb c' c) (Bool.eqb b' b) then S (cnt s c b) else cnt s c' b'.
Proof.
  unfold cnt, create; simpl. destruct b, b'; unfold upd; simpl;
    destruct (Nat.eqb_spec c' c) as [->|]; simpl; reflexivity.
Qed.

Lemma create_name label s c b :
  w_name (n_world (create label s c b)) (n_next s) = namer (label c) b (S (cnt s c b)).
Proof.
  unfold create; simpl. rewrite upd_same. unfold cnt; destruct b; rewrite upd_same; reflexivity.
Qed.

Lemma names_inv_step label classes s o : uses_classes classes o ->
  names_inv label classes s -> names_inv label classes (nstep label s o).
Proof.
  intros Hu [He [num [H1 H2]]]; destruct o as [c b|x a|x|]; simpl.
  - split; [unfold create; simpl; lia|].
    exists (upd num (n_next s) (S (cnt s c b))).
    assert (Cur : forall o, current (create label s c b) o -> o = n_next s \/ (current s o /\ o <> n_next s)).
    { unfold current, create; simpl; intros o Ho; lia. }
    assert (K : n_cls (create label s c b) = upd (n_cls s) (n_next s) c) by reflexivity.
    assert (KI : n_isint (create label s c b) = upd (n_isint s) (n_next s) b) by reflexivity.
    split.
    + intros o Ho. rewrite K, KI, cnt_create. destruct (Cur o Ho) as [->|[Hc Hne]].
      * rewrite !upd_same, Nat.eqb_refl, Bool.eqb_reflx; simpl.
        split; [exact Hu|split; [apply create_name|lia]].
      * rewrite !upd_other by assumption. destruct (H1 o Hc) as [Ha [Hb Hn]].
        split; [exact Ha|split].
        -- unfold create; simpl; rewrite upd_other by assumption; exact Hb.
        -- destruct (Nat.eqb_spec (n_cls s o) c) as [E|E]; simpl; [|exact Hn].
           destruct (Bool.eqb_spec (n_isint s o) b) as [E'|E']; [|exact Hn]. subst; lia.
    + intros o p Ho Hp. rewrite K, KI.
      destruct (Cur o Ho) as [->|[Hco Hno]], (Cur p Hp) as [->|[Hcp Hnp]]; auto.
      * rewrite !upd_same, !upd_other by assumption. intros E1 E2 E3.
        destruct (H1 p Hcp) as [_ [_ Hn]]. subst; lia.
      * rewrite !upd_same, !upd_other by assumption. intros E1 E2 E3.
        destruct (H1 o Hco) as [_ [_ Hn]]. subst; lia.
      * rewrite !upd_other by assumption. apply H2; assumption.
  - unfold set_alias. destruct (alias_clash s x a); [split; [exact He|exists num; auto]|].
    split; [exact He|]. exists num; split; [exact H1|exact H2].
  - split; [exact He|]. exists num; split; [exact H1|exact H2].
  - split; [simpl; lia|]. exists (fun _ => 0). unfold current; simpl. split; intros; lia.
Qed.

Lemma nrun_snoc label ops o : nrun label (ops ++ [o]) = nstep label (nrun label ops) o.
Proof. unfold nrun; rewrite fold_left_app; reflexivity. Qed.

Lemma names_inv_run label classes ops : Forall (uses_classes classes) ops ->
  names_inv label classes (nrun label ops).
Proof.
  induction ops as [|o ops IH] using rev_ind; intros H.
  - split; [simpl; lia|]. exists (fun _ => 0). unfold current; simpl; split; intros; lia.
  - apply Forall_app in H; destruct H as [H1 H2]. inversion H2; subst.
    rewrite nrun_snoc. apply names_inv_step; auto.
Qed.

Lemma names_unique label classes ops o p : labels_ok label classes ->
  Forall (uses_classes classes) ops ->
  current (nrun label ops) o -> current (nrun label ops) p ->
  w_name (n_world (nrun label ops)) o = w_name (n_world (nrun label ops)) p -> o = p.
Proof.
  intros Hl Hu Ho Hp E. destruct (names_inv_run label classes ops Hu) as [_ [num [H1 H2]]].
  destruct (H1 o Ho) as [Io [No _]], (H1 p Hp) as [Ip [Np _]].
  rewrite No, Np in E. apply (namer_inj _ _ _ _ _ _ _ _ Hl Io Ip) in E.
  destruct E as [E1 [E2 E3]]; auto.
Qed.

(** ** Registry invariant, when no alias looks like a default name *)
Definition reg_inv (s : nstate) : Prop :=
  n_reg s = map (fun o => (KObj o, o)) (seq (n_epoch s) (n_next s - n_epoch s)).

Definition alias_inv label classes (s : nstate) : Prop :=
  (forall o a, current s o -> In a (w_alias (n_world s) o) -> ~ default_like label classes a)
  /\ (forall o p a, current s o -> current s p -> In a (w_alias (n_world s) o) ->
        In a (w_alias (n_world s) p) -> o = p).

Lemma name_default_like label classes s o : names_inv label classes s -> current s o ->
  default_like label classes (w_name (n_world s) o).
Proof.
  intros [_ [num [H1 _]]] Ho. destruct (H1 o Ho) as [Hi [Hn _]].
  exists (n_cls s o), (n_isint s o), (num o); auto.
Qed.

Definition full_inv label classes s :=
  names_inv label classes s /\ reg_inv s /\ alias_inv label classes s.

Lemma in_reg s k v : reg_inv s -> In (k, v) (n_reg s) -> k = KObj v /\ current s v.
Proof.
  unfold reg_inv; intros -> H. apply in_map_iff in H. destruct H as [o [E Ho]].
  injection E as <- <-. apply in_seq in Ho. unfold current; split; [reflexivity|lia].
Qed.

Lemma reg_in s o : reg_inv s -> current s o -> In (KObj o, o) (n_reg s).
Proof.
  unfold reg_inv, current; intros -> H. apply in_map_iff. exists o; split; [reflexivity|].
  apply in_seq; lia.
Qed.

Lemma full_inv_step label classes s o : labels_ok label classes -> uses_classes classes o ->
  plain_alias label classes o -> on_current s o -> full_inv label classes s ->
  full_inv label classes (nstep label s o).
Proof.
  intros Hl Hu Hp Hc [Hn [Hr [Ha Hb]]].
  pose proof (names_inv_step label classes s o Hu Hn) as Hn'.
  split; [exact Hn'|]. destruct o as [c b|x a|x|].
  - assert (Cur : forall o, current (create label s c b) o -> o = n_next s \/ (current s o /\ o <> n_next s)).
    { unfold current, create; simpl; intros o Ho; lia. }
    assert (Hnx : current (create label s c b) (n_next s)).
    { destruct Hn as [He _]. unfold current, create; simpl; lia. }
    split.
    + unfold reg_inv. cbn [nstep].
      destruct Hn as [He _].
      change (n_epoch (create label s c b)) with (n_epoch s).
      change (n_next (create label s c b)) with (S (n_next s)).
      replace (S (n_next s) - n_epoch s) with (n_next s - n_epoch s + 1) by lia.
      rewrite seq_app, map_app. unfold reg_inv in Hr. rewrite <- Hr.
      simpl. replace (n_epoch s + (n_next s - n_epoch s)) with (n_next s) by lia.
      set (w := n_world (create label s c b)).
      change (setitem w (n_reg s) (KObj (n_next s)) (n_next s) = (n_reg s ++ [(KObj (n_next s), n_next s)])%list).
      apply setitem_new.
      destruct (contains w (n_reg s) (KObj (n_next s))) eqn:C; [|reflexivity].
      apply contains_spec in C. destruct C as [k' [v [Hin He']]].
      destruct (in_reg s k' v Hr Hin) as [-> Hv].
      exfalso. simpl in He'. destruct He' as [t [T1 T2]].
      assert (Hvn : v <> n_next s) by (unfold current in Hv; lia).
      assert (Tn : t = w_name w (n_next s)).
      { destruct T1 as [T1|T1]; [exact T1|]. unfold w, create in T1; simpl in T1.
        rewrite upd_same in T1; destruct T1. }
      assert (Hv' : current (create label s c b) v) by (unfold current, create in *; simpl; lia).
      destruct T2 as [T2|T2].
      * apply Hvn. symmetry.
        destruct Hn' as [_ [num [N1 N2]]]. cbn [nstep] in N1, N2.
        destruct (N1 _ Hnx) as [I1 [M1 _]], (N1 _ Hv') as [I2 [M2 _]].
        fold w in M1, M2. rewrite <- Tn in M1. rewrite <- T2 in M2. rewrite M1 in M2.
        apply (namer_inj _ _ _ _ _ _ _ _ Hl I1 I2) in M2. destruct M2 as [E1 [E2 E3]]. auto.
      * apply (Ha v t Hv).
        -- unfold w, create in T2; simpl in T2. rewrite upd_other in T2 by exact Hvn. exact T2.
        -- rewrite Tn. apply (name_default_like label classes (create label s c b)); [exact Hn'|exact Hnx].
    + cbn [nstep]. split.
      * intros o a Ho Hin. unfold create in Hin; simpl in Hin.
        destruct (Cur o Ho) as [->|[Hco Hne]]; [rewrite upd_same in Hin; destruct Hin|].
        rewrite upd_other in Hin by exact Hne. exact (Ha o a Hco Hin).
      * intros o p a Ho Hp' Hio Hip. unfold create in Hio, Hip; simpl in Hio, Hip.
        destruct (Cur o Ho) as [->|[Hco Hne]]; [rewrite upd_same in Hio; destruct Hio|].
        destruct (Cur p Hp') as [->|[Hcp Hnp]]; [rewrite upd_same in Hip; destruct Hip|].
        rewrite upd_other in Hio by exact Hne. rewrite upd_other in Hip by exact Hnp.
        exact (Hb o p a Hco Hcp Hio Hip).
  - cbn [nstep]. unfold set_alias. destruct (alias_clash s x a) eqn:C; [split; [exact Hr|split; assumption]|].
    assert (NC : forall p, current s p -> owns (n_world s) p a -> p = x).
    { intros p Hcp Ho. destruct (Nat.eq_dec p x) as [E|E]; [exact E|exfalso].
      unfold alias_clash in C. apply (reg_in s p Hr) in Hcp.
      assert (T : existsb (fun e => andb (keq (n_world s) (fst e) (KStr a))
                         (negb (andb (n_alive s (snd e)) (Nat.eqb (snd e) x)))) (n_reg s) = true).
      { apply existsb_exists; exists (KObj p, p); split; [exact Hcp|].
        cbn [fst snd]. apply andb_true_iff; split; [apply keq_spec; exact Ho|].
        apply Nat.eqb_neq in E; rewrite E, andb_false_r; reflexivity. }
      congruence. }
    simpl in Hp, Hc. split; [exact Hr|]. unfold alias_inv; simpl. split.
    + intros o t Ho. destruct (Nat.eqb_spec o x) as [->|E]; [|apply (Ha o t Ho)].
      intros Hin; apply in_app_or in Hin. destruct Hin as [Hin|[<-|[]]]; [exact (Ha x t Ho Hin)|exact Hp].
    + intros o p t Ho Hp'. change (current s o) in Ho. change (current s p) in Hp'.
      destruct (Nat.eqb_spec o x) as [->|E], (Nat.eqb_spec p x) as [->|E']; auto.
      * intros Hio Hip; apply in_app_or in Hio. destruct Hio as [Hio|[<-|[]]]; [exact (Hb x p t Ho Hp' Hio Hip)|].
        symmetry; apply NC; [exact Hp'|right; exact Hip].
      * intros Hio Hip; apply in_app_or in Hip. destruct Hip as [Hip|[<-|[]]]; [exact (Hb o x t Ho Hp' Hio Hip)|].
        apply NC; [exact Ho|right; exact Hio].
      * exact (Hb o p t Ho Hp').
  - split; [exact Hr|split; assumption].
  - split.
    + unfold reg_inv; simpl; rewrite Nat.sub_diag; reflexivity.
    + unfold alias_inv, current; simpl; split; intros; lia.
Qed.

Definition good_op label classes (s : nstate) (o : nop) : Prop :=
  uses_classes classes o /\ plain_alias label classes o /\ on_current s o.

Lemma full_inv_run label classes ops : labels_ok label classes ->
  history label (good_op label classes) ops -> full_inv label classes (nrun label ops).
Proof.
  intros Hl H; induction H as [|ops o H IH [G1 [G2 G3]]].
  - split; [|split].
    + split; [simpl; lia|]. exists (fun _ => 0). unfold current; simpl; split; intros; lia.
    + reflexivity.
    + unfold alias_inv, current; simpl; split; intros; lia.
  - rewrite nrun_snoc. apply full_inv_step; auto.
Qed.

(** Exclusivity of names and aliases. *)
Lemma owners_unique label classes s o p t : labels_ok label classes -> full_inv label classes s ->
  current s o -> current s p -> owns (n_world s) o t -> owns (n_world s) p t -> o = p.
Proof.
  intros Hl [Hn [Hr [Ha Hb]]] Ho Hp [E1|E1] [E2|E2].
  - destruct Hn as [_ [num [H1 H2]]].
    destruct (H1 o Ho) as [Io [No _]], (H1 p Hp) as [Ip [Np _]].
    rewrite E1, No, Np in E2. apply (namer_inj _ _ _ _ _ _ _ _ Hl Io Ip) in E2.
    destruct E2 as [E3 [E4 E5]]; auto.
  - exfalso; apply (Ha p t Hp E2). rewrite E1. apply name_default_like; assumption.
  - exfalso; apply (Ha o t Ho E1). rewrite E2. apply name_default_like; assumption.
  - exact (Hb o p t Ho Hp E1 E2).
Qed.

Lemma reg_nodup label classes s : labels_ok label classes -> full_inv label classes s ->
  NoDup (hkeys (n_world s) (n_reg s)).
Proof.
  intros Hl [Hn [Hr _]]. unfold hkeys. unfold reg_inv in Hr; rewrite Hr, map_map; simpl; clear Hr.
  assert (Hs : forall o, In o (seq (n_epoch s) (n_next s - n_epoch s)) -> current s o).
  { intros o Ho; apply in_seq in Ho; unfold current; lia. }
  pose proof (seq_NoDup (n_next s - n_epoch s) (n_epoch s)) as Hd.
  induction (seq (n_epoch s) (n_next s - n_epoch s)) as [|x l IH]; simpl; [constructor|].
  inversion Hd as [|? ? Hx Hd']; subst. constructor; [|apply IH; [intros; apply Hs; simpl; auto|exact Hd']].
  intros H; apply in_map_iff in H; destruct H as [y [E Hy]]. apply Hx.
  destruct Hn as [_ [num [H1 H2]]].
  assert (Cx : current s x) by (apply Hs; simpl; auto). assert (Cy : current s y) by (apply Hs; simpl; auto).
  destruct (H1 x Cx) as [Io [No _]], (H1 y Cy) as [Ip [Np _]].
  rewrite No, Np in E. apply (namer_inj _ _ _ _ _ _ _ _ Hl Ip Io) in E. destruct E as [E1 [E2 E3]].
  replace x with y; [exact Hy|]. auto.
Qed.

Lemma lookup_owner label classes s o t : labels_ok label classes -> full_inv label classes s ->
  current s o -> owns (n_world s) o t ->
  getByNameOrAlias s (KStr t) = Ok (if n_alive s o then Some o else None).
Proof.
  intros Hl Hi Ho Ht. pose proof (reg_nodup _ _ _ Hl Hi) as Hd.
  unfold getByNameOrAlias, get.
  pose proof (getitem_reachable (n_world s) (n_reg s) (KStr t) Hd) as Hg.
  destruct (getitem (n_world s) (n_reg s) (KStr t)) as [v|e].
  - destruct Hg as [k' [Hin He]]. destruct Hi as [Hn [Hr Hab]].
    destruct (in_reg s k' v Hr Hin) as [-> Hv]. simpl in He.
    assert (v = o) as ->; [|reflexivity].
    apply (owners_unique label classes s v o t Hl (conj Hn (conj Hr Hab)) Hv Ho He Ht).
  - destruct Hg as [_ Hg]. exfalso. destruct Hi as [Hn [Hr Hab]].
    apply (Hg _ _ (reg_in s o Hr Ho)). exact Ht.
Qed.

Lemma lookup_unknown label classes s t : labels_ok label classes -> full_inv label classes s ->
  (forall o, current s o -> ~ owns (n_world s) o t) ->
  getByNameOrAlias s (KStr t) = Err ValueError.
Proof.
  intros Hl Hi Hno. pose proof (reg_nodup _ _ _ Hl Hi) as Hd.
  unfold getByNameOrAlias, get.
  pose proof (getitem_reachable (n_world s) (n_reg s) (KStr t) Hd) as Hg.
  destruct (getitem (n_world s) (n_reg s) (KStr t)) as [v|e]; [|reflexivity].
  destruct Hg as [k' [Hin He]]. destruct Hi as [Hn [Hr Hab]].
  destruct (in_reg s k' v Hr Hin) as [-> Hv]. exfalso; exact (Hno v Hv He).
Qed.

Lemma alias_rejected label classes s o a : full_inv label classes s -> current s o ->
  n_alive s o = true ->
  (set_alias s o a = Err ValueError <-> exists p, current s p /\ p <> o /\ owns (n_world s) p a).
Proof.
  intros [Hn [Hr Hab]] Ho Hal. unfold set_alias.
  destruct (alias_clash s o a) eqn:C; split; intros H; try reflexivity; try discriminate.
  - unfold alias_clash in C; apply existsb_exists in C. destruct C as [[k v] [Hin Hc]].
    destruct (in_reg s k v Hr Hin) as [-> Hv]. apply andb_true_iff in Hc; destruct Hc as [Hk Hc].
    exists v; split; [exact Hv|split; [|apply keq_spec in Hk; exact Hk]].
    intros ->. cbn [snd] in Hc. rewrite Hal, Nat.eqb_refl in Hc; discriminate.
  - exfalso. destruct H as [p [Hp [Hne Hpo]]].
    assert (T : alias_clash s o a = true); [|congruence].
    apply existsb_exists; exists (KObj p, p); split; [apply reg_in; assumption|].
    cbn [fst snd]. apply andb_true_iff; split; [apply keq_spec; exact Hpo|].
    apply Nat.eqb_neq in Hne; rewrite Hne, andb_false_r; reflexivity.
Qed.

(** ** Counters count instances *)
Lemma count_created_spec label ops : forall s c b,
  cnt (fold_left (nstep label) ops s) c b = count_created ops c b (cnt s c b).
Proof.
  induction ops as [|o ops IH]; intros s c b; [reflexivity|].
  cbn [fold_left]. rewrite IH. destruct o as [c' b'|x a|x|]; cbn [nstep count_created].
  - rewrite cnt_create. destruct (Nat.eqb_spec c c') as [->|E]; simpl; [|reflexivity].
    destruct (Bool.eqb_spec b b') as [->|E']; reflexivity.
  - unfold set_alias; destruct (alias_clash s x a); reflexivity.
  - reflexivity.
  - f_equal. unfold cnt; destruct b; reflexivity.
Qed.

Lemma counters_count label ops c (b : bool) :
  (if b then n_int (nrun label ops) c else n_ext (nrun label ops) c) = count_created ops c b 0.
Proof.
  pose proof (count_created_spec label ops ninit c b) as H.
  unfold cnt in H; destruct b; exact H.
Qed.

Lemma not_default_like_nondigit s : ends_nondigit s = true -> ~ default_like lib_label lib_classes s.
Proof.
  intros Hs [c [b [n [Hc E]]]].
  assert (D : forall l m, ends_nondigit (l ++ str_nat m) = false).
  { intros l m. assert (A : str_nat m <> "").
    { unfold str_nat, DecimalString.NilZero.string_of_uint.
      destruct (Nat.to_uint m) eqn:E'; discriminate. }
    pose proof (str_nat_digits m) as B. revert A B. generalize (str_nat m); intros d A B.
    induction l as [|x l IH]; simpl.
    - destruct d as [|y d]; [congruence|]. clear A E. revert y B; induction d as [|z d IHd]; intros y B.
      + simpl in *. apply andb_true_iff in B; destruct B as [-> _]; reflexivity.
      + simpl in B. apply andb_true_iff in B; destruct B as [_ B]. apply IHd, B.
    - destruct (l ++ d) eqn:E'; [destruct l; [simpl in E'; congruence|discriminate]|exact IH]. }
  unfold namer in E; destruct b; rewrite E, D in Hs; discriminate.
Qed.

