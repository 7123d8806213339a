(** Proofs about bound parameters and time parameters. *)
From Coq Require Import QArith Qround Qfield Lqa.
From Verif Require Import Py TimeModel TimeSpec.
#[local] Open Scope nat_scope.

Lemma key_eqb_spec a b : reflect (a = b) (key_eqb a b).
Proof. destruct a, b; cbn; constructor; congruence. Qed.
Lemma hput_same h o x : hput h o x o = x.
Proof. unfold hput. now rewrite Nat.eqb_refl. Qed.
Lemma hput_other h o x i : i <> o -> hput h o x i = h i.
Proof. unfold hput. intros N. destruct (Nat.eqb_spec i o); congruence. Qed.
Lemma par_set_same h o k p : t_par (set_par h o k p o) k = p.
Proof. unfold set_par. rewrite hput_same. cbn. unfold kput. destruct (key_eqb_spec k k); congruence. Qed.
Lemma par_set_key h o k p i j : j <> k -> t_par (set_par h o k p i) j = t_par (h i) j.
Proof.
  intros N. unfold set_par, hput. destruct (Nat.eqb_spec i o); [subst|reflexivity].
  cbn. unfold kput. destruct (key_eqb_spec j k); congruence.
Qed.
Lemma par_set_obj h o k p i j : i <> o -> t_par (set_par h o k p i) j = t_par (h i) j.
Proof. intros N. unfold set_par. now rewrite hput_other. Qed.
Lemma bound_set h o k p i : t_bound (set_par h o k p i) = t_bound (h i).
Proof. unfold set_par, hput. destruct (Nat.eqb_spec i o); subst; reflexivity. Qed.

(** *** the getter *)
Lemma value_eq l h k o : value (S l) h k o =
  match p_bound (t_par (h o) k) with BObj b => value l h k b | _ => Ok (p_val (t_par (h o) k)) end.
Proof. cbn. destruct (p_bound _); auto. destruct (value l h k o0); reflexivity. Qed.

Lemma value_chain l h k o v : value l h k o = Ok v <->
  exists n e, n < l /\ chain h k o n e /\ p_val (t_par (h e) k) = v.
Proof.
  revert o. induction l as [|l IH]; intros o; [cbn; split; [discriminate|intros (? & ? & ? & _); lia]|].
  rewrite value_eq. destruct (p_bound (t_par (h o) k)) as [| |b] eqn:B.
  - split.
    + intros E; inversion E; subst. exists 0, o. split; [lia|]. split; [constructor; congruence|reflexivity].
    + intros (n & e & _ & C & E). inversion C; subst; congruence.
  - split.
    + intros E; inversion E; subst. exists 0, o. split; [lia|]. split; [constructor; congruence|reflexivity].
    + intros (n & e & _ & C & E). inversion C; subst; congruence.
  - rewrite IH. split.
    + intros (n & e & L & C & E). exists (S n), e. split; [lia|]. split; [econstructor; eauto|auto].
    + intros (n & e & L & C & E). inversion C as [? N|? b' n' ? B' C']; subst; [destruct (N b); auto|].
      rewrite B in B'. inversion B'; subst. exists n', e. repeat split; auto. lia.
Qed.

Lemma value_ext l h h' k o : (forall x, passes h k o x -> t_par (h' x) k = t_par (h x) k) ->
  value l h' k o = value l h k o.
Proof.
  revert o. induction l as [|l IH]; intros o H; [reflexivity|].
  rewrite !value_eq, (H o (pass_here h k o)).
  destruct (p_bound (t_par (h o) k)) eqn:B; auto. apply IH. intros x P. apply H. econstructor; eauto.
Qed.
Lemma value_ext_all l h h' k o : (forall x, t_par (h' x) k = t_par (h x) k) -> value l h' k o = value l h k o.
Proof. intros H. apply value_ext. auto. Qed.
(** Only the hidden own value of a bound parameter differs. *)
Lemma value_ext_bound l h h' k o :
  (forall x, p_bound (t_par (h' x) k) = p_bound (t_par (h x) k)) ->
  (forall x, (forall b, p_bound (t_par (h x) k) <> BObj b) -> p_val (t_par (h' x) k) = p_val (t_par (h x) k)) ->
  value l h' k o = value l h k o.
Proof.
  intros HB HV. revert o. induction l as [|l IH]; intros o; [reflexivity|].
  rewrite !value_eq, HB. destruct (p_bound (t_par (h o) k)) eqn:B; auto; rewrite HV; auto; congruence.
Qed.
Lemma value_mono l l' h k o v : l <= l' -> value l h k o = Ok v -> value l' h k o = Ok v.
Proof. rewrite !value_chain. intros L (n & e & Ln & C & E). exists n, e. repeat split; auto. lia. Qed.

Lemma cost_chain h k o n e : chain h k o n e -> forall l, n < l -> cost l h k o = 2 ^ (S n) - 1.
Proof.
  induction 1 as [o N|o b n e B C IH]; intros l L; destruct l as [|l]; try lia; cbn [cost].
  - destruct (p_bound (t_par (h o) k)) eqn:B; auto. destruct (N o0); auto.
  - rewrite B, (IH l) by lia.
    assert (V : value l h k b = Ok (p_val (t_par (h e) k))) by (apply value_chain; exists n, e; repeat split; auto; lia).
    rewrite V. cbn [is_ok]. pose proof (Nat.pow_nonzero 2 (S n)). cbn [Nat.pow] in *. lia.
Qed.

(** *** what the operations touch *)
Definition keeps {X} (P : heap -> Prop) (m : M X) : Prop := forall h, P h -> P (fst (m h)).
Lemma keeps_ret {X} P (x : X) : keeps P (ret x). Proof. intros h H; exact H. Qed.
Lemma keeps_raise {X} P e : keeps P (@raise X e). Proof. intros h H; exact H. Qed.
Lemma keeps_lift {X} P (r : result X) : keeps P (lift r). Proof. intros h H; exact H. Qed.
Lemma keeps_read P lim k o : keeps P (read lim k o). Proof. intros h H; exact H. Qed.
Lemma keeps_bind {X Y} P (m : M X) (f : X -> M Y) : keeps P m -> (forall x, keeps P (f x)) -> keeps P (mbind m f).
Proof.
  intros Hm Hf h H. unfold mbind. specialize (Hm h H). destruct (m h) as [h' [x|e]]; cbn in *; auto. now apply Hf.
Qed.
Lemma keeps_modify (P : heap -> Prop) f : (forall h, P h -> P (f h)) -> keeps P (modify f).
Proof. intros H h Hh. apply H, Hh. Qed.

(** Properties that survive the elementary writes to object o. *)
Record stable (P : heap -> Prop) (o : nat) : Prop := {
  st_value : forall h k v, P h -> P (set_value o k v h);
  st_pull : forall h k, P h -> P (pull o k h);
  st_clear : forall h, P h -> P (clear_bound o h);
  st_drop : forall h b, P h -> P (drop_dep b o h);
  st_flag : forall h, P h -> P (flag o h) }.

Lemma keeps_setAttrParam P o lim k v : stable P o -> keeps P (setAttrParam lim o k v).
Proof.
  intros [S1 S2 S3 S4 S5]. unfold setAttrParam. apply keeps_bind; [apply keeps_read|intros old].
  apply keeps_bind.
  - apply keeps_modify. intros h H. destruct (t_bound (h o)); auto.
  - intros _. destruct (opt_eqb old v); [apply keeps_ret|].
    apply keeps_bind; [apply keeps_modify; intros; auto|intros _; apply keeps_modify; auto].
Qed.
Lemma keeps_set_prop P o lim k v : stable P o -> keeps P (set_prop lim o k v).
Proof.
  intros S. pose proof S as [S1 S2 S3 S4 S5].
  destruct k; cbn [set_prop]; [unfold set_stepSize|unfold set_totalTime|unfold set_stepCount|unfold set_samples].
  1-3: apply keeps_bind; [apply keeps_modify; auto|intros _];
       apply keeps_bind; [now apply keeps_setAttrParam|intros _];
       apply keeps_bind; [apply keeps_read|intros [x|]]; [|apply keeps_ret];
       apply keeps_bind; [apply keeps_lift|intros c; apply keeps_modify; auto].
  now apply keeps_setAttrParam.
Qed.
Lemma keeps_get_stepCount P o lim : stable P o -> keeps P (get_stepCount lim o).
Proof.
  intros [S1 S2 S3 S4 S5]. unfold get_stepCount. apply keeps_bind; [apply keeps_read|intros T].
  apply keeps_bind.
  - destruct T; [apply keeps_ret|]. apply keeps_bind; [apply keeps_read|intros s].
    apply keeps_bind; [apply keeps_read|intros n]. destruct s, n; try apply keeps_raise; try apply keeps_ret.
    apply keeps_modify; auto.
  - intros _. apply keeps_bind; [apply keeps_read|intros T']. apply keeps_bind; [apply keeps_read|intros s].
    destruct T'; [|apply keeps_raise]. destruct s; [|apply keeps_raise].
    destruct (countOf q q0); [|apply keeps_raise].
    apply keeps_bind; [apply keeps_modify; auto|intros _; apply keeps_read].
Qed.
Lemma keeps_timeList P o lim : stable P o -> keeps P (timeList lim o).
Proof.
  intros S. unfold timeList. apply keeps_bind; [now apply keeps_get_stepCount|intros n].
  apply keeps_bind; [apply keeps_read|intros s]. destruct n, s; try apply keeps_raise. apply keeps_ret.
Qed.
Lemma keeps_copyFirst P self other lim ks : stable P self -> keeps P (copyFirst lim ks self other).
Proof.
  intros S. induction ks as [|k r IH]; cbn [copyFirst]; [apply keeps_ret|].
  intros h H. destruct (p_bound _); auto. destruct (p_val _); auto. now apply keeps_set_prop.
Qed.
Lemma keeps_boundLoop P self other lim ks b : stable P self -> keeps P (boundLoop lim ks b self other).
Proof.
  intros S. revert b. induction ks as [|k r IH]; intros b; cbn [boundLoop]; [apply keeps_ret|].
  intros h H. destruct (p_bound (t_par (h self) k)); try (apply IH; exact H).
  apply keeps_bind; [|intros _; apply keeps_bind; [|intros _; apply IH]|exact H].
  - destruct (p_val (t_par (h other) k)); [|apply keeps_ret].
    destruct (p_val (t_par (h self) k)); [|apply keeps_raise]. now apply keeps_set_prop.
  - destruct b; [now apply keeps_copyFirst|apply keeps_ret].
Qed.

(** Objects other than o keep all their parameters. *)
Lemma stable_other h0 o : stable (fun h => forall x k, x <> o -> t_par (h x) k = t_par (h0 x) k) o.
Proof.
  constructor.
  - intros h k v H x j N. unfold set_value. rewrite par_set_obj; auto.
  - intros h k H x j N. unfold pull. destruct (p_bound _); auto. rewrite par_set_obj; auto.
  - intros h H x j N. unfold clear_bound. rewrite hput_other; auto.
  - intros h b H x j N. unfold drop_dep, hput. destruct (Nat.eqb_spec x b); [subst; cbn|]; auto.
  - intros h H x j N. unfold flag. rewrite hput_other; auto.
Qed.

Theorem set_prop_local lim o k v h x j : x <> o -> t_par (fst (set_prop lim o k v h) x) j = t_par (h x) j.
Proof. intros N. exact (keeps_set_prop _ o lim k v (stable_other h o) h (fun _ _ _ => eq_refl) x j N). Qed.
Theorem get_stepCount_local lim o h x j : x <> o -> t_par (fst (get_stepCount lim o h) x) j = t_par (h x) j.
Proof. intros N. exact (keeps_get_stepCount _ o lim (stable_other h o) h (fun _ _ _ => eq_refl) x j N). Qed.

(** *** hierarchical histories *)
Definition inv (rank : nat -> nat) (h : heap) : Prop :=
  (forall o k b, p_bound (t_par (h o) k) = BObj b -> rank o < rank b) /\
  (forall o b, t_bound (h o) = Some b -> rank o < rank b).

Lemma inv_stable rank o : stable (inv rank) o.
Proof.
  constructor.
  - intros h k v [H1 H2]. split; [|intros x b; unfold set_value; rewrite bound_set; apply H2].
    intros x j b. unfold set_value. destruct (Nat.eq_dec x o) as [->|N].
    + destruct (key_eqb_spec j k) as [->|Nk]; [rewrite par_set_same; discriminate|rewrite par_set_key by auto; apply H1].
    + rewrite par_set_obj by auto. apply H1.
  - intros h k [H1 H2]. unfold pull. destruct (p_bound (t_par (h o) k)) as [| |c] eqn:B; [split; auto|split; auto|].
    split; [|intros x b; rewrite bound_set; apply H2].
    intros x j b. destruct (Nat.eq_dec x o) as [->|N].
    + destruct (key_eqb_spec j k) as [->|Nk].
      * rewrite par_set_same. cbn. intros E; inversion E; subst. eapply H1; eauto.
      * rewrite par_set_key by auto; apply H1.
    + rewrite par_set_obj by auto. apply H1.
  - intros h [H1 H2]. split; intros x; unfold clear_bound, hput; destruct (Nat.eqb_spec x o); subst; cbn; first [exact (H1 _)|exact (H2 _)|intros; discriminate].
  - intros h b [H1 H2]. split; intros x; unfold drop_dep, hput; destruct (Nat.eqb_spec x b); subst; cbn; first [exact (H1 _)|exact (H2 _)|intros; discriminate].
  - intros h [H1 H2]. split; intros x; unfold flag, hput; destruct (Nat.eqb_spec x o); subst; cbn; first [exact (H1 _)|exact (H2 _)|intros; discriminate].
Qed.

Lemma inv_bindKey rank re self other : rank self < rank other ->
  forall ks h, inv rank h -> inv rank (fold_left (bindKey re self other) ks h).
Proof.
  intros R. induction ks as [|k r IH]; intros h H; cbn; auto. apply IH.
  assert (G : inv rank (set_par h self k (Par (p_val (t_par (h self) k)) (BObj other)))).
  { destruct H as [H1 H2]. split; [|intros x b; rewrite bound_set; apply H2].
    intros x j b. destruct (Nat.eq_dec x self) as [->|N].
    - destruct (key_eqb_spec j k) as [->|Nk].
      + rewrite par_set_same. cbn. intros E; inversion E; subst; auto.
      + rewrite par_set_key by auto. apply H1.
    - rewrite par_set_obj by auto. apply H1. }
  unfold bindKey. destruct (p_bound (t_par (h self) k)), re; auto.
Qed.

Lemma inv_bindTo rank lim re self other : rank self < rank other -> keeps (inv rank) (bindTo lim re self other).
Proof.
  intros R h H. unfold bindTo. destruct (boundTree lim h other); [|exact H].
  destruct (existsb (Nat.eqb self) a); [exact H|].
  apply (keeps_bind (inv rank)); [|intros _; apply keeps_bind; [|intros _; apply keeps_bind; [|intros _]]|exact H].
  - apply keeps_modify. intros h1 [H1 H2]. split; intros x; unfold hput; destruct (Nat.eqb_spec x other); subst; cbn; first [exact (H1 _)|exact (H2 _)].
  - apply keeps_modify. intros h1 [H1 H2]. split; intros x; unfold hput; destruct (Nat.eqb_spec x self); subst; cbn; first [exact (H1 _)|exact (H2 _)|intros b E; inversion E; subst; auto].
  - apply keeps_boundLoop. apply inv_stable.
  - apply keeps_modify. intros h1. apply inv_bindKey; auto.
Qed.

Lemma inv_step rank lim op h : upward rank op -> inv rank h -> inv rank (step lim op h).
Proof.
  destruct op as [o k v|o|o|re a b]; cbn [step upward]; intros U H.
  - exact (keeps_set_prop _ o lim k v (inv_stable rank o) h H).
  - exact (keeps_get_stepCount _ o lim (inv_stable rank o) h H).
  - exact (keeps_timeList _ o lim (inv_stable rank o) h H).
  - exact (inv_bindTo rank lim re a b U h H).
Qed.
Lemma inv_history rank lim ops : Forall (upward rank) ops -> inv rank (history lim ops).
Proof.
  intros U. unfold history.
  assert (G : forall h, inv rank h -> inv rank (fold_left (fun h op => step lim op h) ops h)).
  { induction U as [|op ops Hop U IH]; intros h H; cbn; auto. apply IH, inv_step; auto. }
  apply G. split; intros o; [intros k b|intros b]; cbn; [destruct k; discriminate|discriminate].
Qed.

Lemma inv_value rank top h k : inv rank h -> (forall x, rank x < top) ->
  forall l o, top - rank o <= l -> exists v, value l h k o = Ok v.
Proof.
  intros [H1 H2] T. induction l as [|l IH]; intros o L.
  - specialize (T o). lia.
  - rewrite value_eq. destruct (p_bound (t_par (h o) k)) as [| |b] eqn:B; eauto.
    apply IH. specialize (H1 _ _ _ B). specialize (T b). lia.
Qed.
Theorem history_reads rank lim ops : (forall x, rank x < lim) -> Forall (upward rank) ops ->
  forall k o, exists v, value lim (history lim ops) k o = Ok v.
Proof. intros T U k o. apply (inv_value rank lim _ k (inv_history rank lim ops U) T). lia. Qed.

(** *** effects of setting *)
Lemma value_pull lim h o k j q : value lim (pull o k h) j q = value lim h j q.
Proof.
  unfold pull. destruct (p_bound (t_par (h o) k)) as [| |b] eqn:B; auto.
  apply value_ext_bound.
  - intros x. destruct (Nat.eq_dec x o) as [->|N]; [|rewrite par_set_obj; auto].
    destruct (key_eqb_spec j k) as [->|Nk]; [rewrite par_set_same; auto|rewrite par_set_key; auto].
  - intros x Hx. destruct (Nat.eq_dec x o) as [->|N]; [|rewrite par_set_obj; auto].
    destruct (key_eqb_spec j k) as [->|Nk]; [destruct (Hx b); auto|rewrite par_set_key; auto].
Qed.
Lemma pull_bound o k h x j : p_bound (t_par (pull o k h x) j) = p_bound (t_par (h x) j).
Proof.
  unfold pull. destruct (p_bound (t_par (h o) k)) as [| |b] eqn:B; auto.
  destruct (Nat.eq_dec x o) as [->|N]; [|rewrite par_set_obj; auto].
  destruct (key_eqb_spec j k) as [->|Nk]; [rewrite par_set_same; auto|rewrite par_set_key; auto].
Qed.
Lemma value_set_key lim h o k v j q : j <> k -> value lim (set_value o k v h) j q = value lim h j q.
Proof. intros N. apply value_ext_all. intros x. unfold set_value. now rewrite par_set_key. Qed.
Lemma value_set_same lim h o k v q w : passes h k q o -> value lim h k q = Ok w ->
  value lim (set_value o k (Some v) h) k q = Ok (Some v).
Proof.
  intros P. revert lim. induction P as [o|q b o B P IH]; intros lim V.
  - destruct lim; [discriminate|]. rewrite value_eq. unfold set_value. rewrite par_set_same. reflexivity.
  - destruct lim as [|l]; [discriminate|]. rewrite value_eq, B in V.
    rewrite value_eq. destruct (Nat.eq_dec q o) as [->|N].
    + unfold set_value. rewrite par_set_same. reflexivity.
    + unfold set_value at 1. rewrite par_set_obj, B by auto. now apply IH.
Qed.

Lemma par_unbind h o x j :
  t_par ((match t_bound (h o) with Some b => clear_bound o (drop_dep b o h) | None => h end) x) j = t_par (h x) j.
Proof.
  destruct (t_bound (h o)); auto. unfold clear_bound, drop_dep, hput.
  destruct (Nat.eqb_spec x o); subst; cbn.
  - destruct (Nat.eqb_spec o n); subst; reflexivity.
  - destruct (Nat.eqb_spec x n); subst; reflexivity.
Qed.

(** After setAttrParam the value read everywhere downstream is the new one; the
    other parameters are untouched. *)
Lemma setAttrParam_ok lim o k v h w : value lim h k o = Ok w ->
  exists h', setAttrParam lim o k v h = (h', Ok tt) /\
    (forall x j, j <> k -> t_par (h' x) j = t_par (h x) j) /\
    (forall q u, passes h k q o -> value lim h k q = Ok u -> exists v', value lim h' k q = Ok (Some v') /\ (v' == v)%Q) /\
    (forall q, ~ passes h k q o -> value lim h' k q = value lim h k q) /\
    ((exists x, w = Some x /\ (x == v)%Q) \/ t_par (h' o) k = Par (Some v) BFalse).
Proof.
  intros V. unfold setAttrParam, mbind, read, modify. rewrite V. cbn [fst snd].
  set (h1 := match t_bound (h o) with Some b => clear_bound o (drop_dep b o h) | None => h end).
  assert (P1 : forall x j, t_par (h1 x) j = t_par (h x) j) by (intros x j; apply par_unbind).
  destruct (opt_eqb w v) eqn:E.
  - unfold ret. exists h1. split; auto. split; [intros; apply P1|].
    assert (VE : forall q, value lim h1 k q = value lim h k q) by (intros q; apply value_ext_all; intros; apply P1).
    destruct w as [x|]; [|discriminate]. cbn in E. apply Qeq_bool_iff in E.
    split; [|split].
    + intros q u P Vq. rewrite VE.
      assert (X : value lim h k q = Ok (Some x)).
      { rewrite Vq. f_equal. apply value_chain in Vq. destruct Vq as (n & e & L & C & <-).
        apply value_chain in V. destruct V as (n' & e' & L' & C' & <-). f_equal.
        clear - P C C'. revert n C n' C'. induction P as [o|q b o B P IH]; intros n C n' C'.
        - f_equal. revert n' C'. induction C as [o N|o b n e B C IH]; intros n' C'.
          + inversion C'; subst; auto. destruct (N b); auto.
          + inversion C' as [? N|? b' ? ? B' C'']; subst; [destruct (N b); auto|].
            rewrite B in B'. inversion B'; subst. eapply IH; eauto.
        - inversion C as [? N|? b' ? ? B' C'']; subst; [destruct (N b); auto|].
          rewrite B in B'. inversion B'; subst. eapply IH; eauto. }
      rewrite X. exists x. split; auto. symmetry; exact E.
    + intros q _. apply VE.
    + left. exists x. split; auto. symmetry; exact E.
  - set (h2 := flag o (set_value o k (Some v) h1)).
    assert (P2 : forall x j, t_par (h2 x) j = t_par (set_value o k (Some v) h1 x) j).
    { intros x j. unfold h2, flag, hput. destruct (Nat.eqb_spec x o); subst; reflexivity. }
    exists h2. split; auto. split; [|split; [|split]].
    + intros x j N. rewrite P2. unfold set_value. rewrite par_set_key by auto. apply P1.
    + intros q u P Vq. exists v. split; [|reflexivity].
      rewrite (value_ext_all lim (set_value o k (Some v) h1) h2) by (intros; apply P2).
      apply value_set_same with (w := u).
      * clear - P P1. induction P as [o|q b o B P IH]; [constructor|]. econstructor; [rewrite P1; eauto|auto].
      * rewrite <- Vq. apply value_ext_all. intros; apply P1.
    + intros q NP. apply value_ext. intros x P.
      assert (x <> o) by (intros ->; contradiction).
      rewrite P2. unfold set_value. rewrite par_set_obj by auto. apply P1.
    + right. rewrite P2. unfold set_value. now rewrite par_set_same.
Qed.

Lemma countOf_ok T s : ~ (s == 0)%Q -> countOf T s = Ok (inject_Z (Qfloor (T / s)) + 1)%Q.
Proof.
  intros N. unfold countOf, floordiv. destruct (Qeq_bool s 0) eqn:E; [apply Qeq_bool_iff in E; contradiction|reflexivity].
Qed.

Lemma passes_ext h h' k q o : (forall x, p_bound (t_par (h' x) k) = p_bound (t_par (h x) k)) ->
  passes h k q o <-> passes h' k q o.
Proof.
  intros H. split; intros P.
  - induction P as [o|q b o B P IH]; [constructor|]. econstructor; [rewrite H; eauto|auto].
  - induction P as [o|q b o B P IH]; [constructor|]. econstructor; [rewrite <- H; eauto|auto].
Qed.

(** The value written by a property setter is read back wherever the chain of
    that parameter passes through the object, even if the setter raised
    afterwards. *)
Theorem set_prop_read lim o k v h w : value lim h k o = Ok w ->
  forall q u, passes h k q o -> value lim h k q = Ok u ->
  exists v', value lim (fst (set_prop lim o k v h)) k q = Ok (Some v') /\ (v' == v)%Q.
Proof.
  intros V q u P Vq.
  assert (G : forall j, j <> k -> forall (f : option Q -> M unit) c,
     (forall x h1, exists w1, fst (f x h1) = h1 \/ fst (f x h1) = set_value o c w1 h1) -> c <> k ->
     exists v', value lim (fst ((modify (pull o j) ;;; setAttrParam lim o k v ;;;
        mbind (read lim j o) f) h)) k q = Ok (Some v') /\ (v' == v)%Q).
  { intros j Nj f c Hf Nc.
    destruct (setAttrParam_ok lim o k v (pull o j h) w) as (h' & E & _ & R & _).
    { rewrite value_pull; auto. }
    destruct (R q u) as (v' & Rv & Ev).
    { apply (passes_ext h); auto. intros; apply pull_bound. }
    { rewrite value_pull; auto. }
    exists v'. split; auto. unfold mbind, modify, read. rewrite E.
    destruct (value lim h' j o) as [x|e]; [|exact Rv].
    destruct (Hf x h') as [w1 [F|F]]; rewrite F; auto. rewrite value_set_key; auto. }
  destruct k; cbn [set_prop]; [unfold set_stepSize|unfold set_totalTime|unfold set_stepCount|unfold set_samples].
  - apply (G KTotal) with (c := KCount); try discriminate. intros [T|] h1.
    + unfold mbind, lift, modify. destruct (countOf T v); cbn; [eexists; right; reflexivity|exists None; left; reflexivity].
    + exists None. left; reflexivity.
  - apply (G KSize) with (c := KCount); try discriminate. intros [T|] h1.
    + unfold mbind, lift, modify. destruct (countOf v T); cbn; [eexists; right; reflexivity|exists None; left; reflexivity].
    + exists None. left; reflexivity.
  - apply (G KTotal) with (c := KSize); try discriminate. intros [T|] h1.
    + unfold mbind, lift, modify. destruct (truediv T v); cbn; [eexists; right; reflexivity|exists None; left; reflexivity].
    + exists None. left; reflexivity.
  - destruct (setAttrParam_ok lim o KSamples v h w V) as (h' & E & _ & R & _). rewrite E. apply (R q u); auto.
Qed.

Theorem set_prop_unaffected lim o k v h j q : ~ passes h j q o ->
  value lim (fst (set_prop lim o k v h)) j q = value lim h j q.
Proof.
  intros NP. apply value_ext. intros x P. apply set_prop_local. intros ->. contradiction.
Qed.

(** *** the three time parameters *)
Theorem get_stepCount_floor lim o h h' r : get_stepCount lim o h = (h', Ok r) ->
  exists T s, value lim h' KTotal o = Ok (Some T) /\ value lim h' KSize o = Ok (Some s) /\ ~ (s == 0)%Q /\
    r = Some (inject_Z (Qfloor (T / s)) + 1)%Q /\
    (forall T', value lim h KTotal o = Ok (Some T') -> T = T') /\ value lim h KSize o = Ok (Some s).
Proof.
  unfold get_stepCount. unfold mbind at 1, read at 1. destruct (value lim h KTotal o) as [T0|e] eqn:VT; [|discriminate].
  unfold mbind at 1.
  assert (X : exists h1, (match T0 with
     | Some _ => ret tt
     | None => s <- read lim KSize o;; n <- read lim KCount o;;
               match s with
               | Some s => match n with
                           | Some n => modify (set_value o KTotal (Some (n * s)%Q))
                           | None => raise TypeError
                           end
               | None => match n with Some _ => raise TypeError | None => ret tt end
               end end) h = (h1, Ok tt) /\ value lim h1 KSize o = value lim h KSize o /\
               (forall T', T0 = Some T' -> value lim h1 KTotal o = value lim h KTotal o)
     \/ exists h1 e, (match T0 with
     | Some _ => ret tt
     | None => s <- read lim KSize o;; n <- read lim KCount o;;
               match s with
               | Some s => match n with
                           | Some n => modify (set_value o KTotal (Some (n * s)%Q))
                           | None => raise TypeError
                           end
               | None => match n with Some _ => raise TypeError | None => ret tt end
               end end) h = (h1, Err e)).
  { destruct T0 as [T0|].
    - exists h. left. unfold ret. auto.
    - unfold mbind, read. destruct (value lim h KSize o) as [[s|]|e] eqn:VS.
      + destruct (value lim h KCount o) as [[n|]|e] eqn:VC.
        * eexists. left. unfold modify. split; [reflexivity|]. split; [rewrite <- VS; apply value_set_key; discriminate|discriminate].
        * exists h. right. unfold raise. eauto.
        * exists h. right. eauto.
      + destruct (value lim h KCount o) as [[n|]|e] eqn:VC.
        * exists h. right. unfold raise. eauto.
        * exists h. left. unfold ret. auto.
        * exists h. right. eauto.
      + exists h. right. eauto. }
  destruct X as [h1 [(E & VS & VT1)|(h2 & e & E)]]; rewrite E; [|discriminate].
  unfold mbind at 1, read at 1. destruct (value lim h1 KTotal o) as [[T|]|e] eqn:V1; try discriminate.
  2:{ unfold mbind, read, raise. destruct (value lim h1 KSize o) as [[s|]|]; discriminate. }
  unfold mbind at 1, read at 1. destruct (value lim h1 KSize o) as [[s|]|e] eqn:V2; try discriminate.
  destruct (countOf T s) as [c|] eqn:C; [|discriminate].
  unfold mbind, modify, read. intros H. injection H as Hh Hr. subst h'.
  assert (Ns : ~ (s == 0)%Q).
  { intros Z. unfold countOf, floordiv in C. apply Qeq_bool_iff in Z. rewrite Z in C. discriminate. }
  rewrite countOf_ok in C by auto. inversion C; subst c.
  exists T, s. rewrite !value_set_key by discriminate. rewrite V1, V2. repeat split; auto.
  - destruct lim; [discriminate V1|]. unfold set_value in Hr. rewrite value_eq, par_set_same in Hr. cbn in Hr. congruence.
  - intros T' E'. inversion E'; subst T0. pose proof (VT1 T' eq_refl) as Y. rewrite VT in Y. congruence.
Qed.

Theorem get_stepCount_total lim o h T s : value lim h KTotal o = Ok (Some T) -> value lim h KSize o = Ok (Some s) ->
  ~ (s == 0)%Q -> exists h', get_stepCount lim o h = (h', Ok (Some (inject_Z (Qfloor (T / s)) + 1)%Q)) /\
    value lim h' KTotal o = Ok (Some T) /\ value lim h' KSize o = Ok (Some s).
Proof.
  intros VT VS N. unfold get_stepCount, mbind, read. rewrite VT. unfold ret. rewrite VT, VS, countOf_ok by auto.
  unfold modify. eexists. split.
  - destruct lim; [discriminate|]. f_equal. unfold set_value. rewrite value_eq, par_set_same. reflexivity.
  - rewrite !value_set_key by discriminate. auto.
Qed.

(** Setting totalTime keeps stepSize and the other way round. *)
Lemma set_total_size lim o v h w : value lim h KTotal o = Ok w ->
  value lim (fst (set_totalTime lim o v h)) KSize o = value lim h KSize o.
Proof.
  intros V. unfold set_totalTime.
  destruct (setAttrParam_ok lim o KTotal v (pull o KSize h) w) as (h' & E & O & _).
  { rewrite value_pull; auto. }
  assert (VS : value lim h' KSize o = value lim h KSize o).
  { rewrite <- (value_pull lim h o KSize KSize o). apply value_ext_all. intros x. apply O. discriminate. }
  unfold mbind, modify, read. rewrite E. destruct (value lim h' KSize o) as [[s|]|e] eqn:VS'; cbn; try congruence.
  unfold lift. destruct (countOf v s); cbn; [|congruence]. rewrite value_set_key by discriminate. congruence.
Qed.
Lemma set_size_total lim o v h w : value lim h KSize o = Ok w ->
  value lim (fst (set_stepSize lim o v h)) KTotal o = value lim h KTotal o.
Proof.
  intros V. unfold set_stepSize.
  destruct (setAttrParam_ok lim o KSize v (pull o KTotal h) w) as (h' & E & O & _).
  { rewrite value_pull; auto. }
  assert (VS : value lim h' KTotal o = value lim h KTotal o).
  { rewrite <- (value_pull lim h o KTotal KTotal o). apply value_ext_all. intros x. apply O. discriminate. }
  unfold mbind, modify, read. rewrite E. destruct (value lim h' KTotal o) as [[s|]|e] eqn:VS'; cbn; try congruence.
  unfold lift. destruct (countOf s v); cbn; [|congruence]. rewrite value_set_key by discriminate. congruence.
Qed.
Lemma set_count_total lim o n h w T : value lim h KCount o = Ok w -> value lim h KTotal o = Ok (Some T) -> ~ (n == 0)%Q ->
  let h' := fst (set_stepCount lim o n h) in
  value lim h' KTotal o = Ok (Some T) /\ value lim h' KSize o = Ok (Some (T / n)%Q).
Proof.
  intros V VT N. unfold set_stepCount. cbn zeta.
  destruct (setAttrParam_ok lim o KCount n (pull o KTotal h) w) as (h' & E & O & _).
  { rewrite value_pull; auto. }
  assert (VS : value lim h' KTotal o = Ok (Some T)).
  { rewrite <- VT, <- (value_pull lim h o KTotal KTotal o). apply value_ext_all. intros x. apply O. discriminate. }
  unfold mbind, modify, read. rewrite E, VS. unfold lift, truediv.
  destruct (Qeq_bool n 0) eqn:Z; [apply Qeq_bool_iff in Z; contradiction|]. cbn.
  split; [rewrite value_set_key by discriminate; exact VS|].
  destruct lim; [discriminate|]. unfold set_value. rewrite value_eq, par_set_same. reflexivity.
Qed.

Lemma Qfloor_div_comp T T' s s' : (T == T')%Q -> (s == s')%Q -> Qfloor (T / s) = Qfloor (T' / s').
Proof. intros H1 H2. apply Qfloor_comp. now rewrite H1, H2. Qed.

Definition reads_ok (lim : nat) (h : heap) (o : nat) : Prop := forall k, exists v, value lim h k o = Ok v.

Lemma reads_set lim o k v h : reads_ok lim h o -> reads_ok lim (fst (set_prop lim o k v h)) o.
Proof.
  (* everything that is read stays readable: only unbound parameters are written *)
  intros H j.
  assert (G : stable (fun h' => exists u, value lim h' j o = Ok u) o).
  { constructor.
    - intros h1 k1 v1 [u U]. destruct (key_eqb_spec j k1) as [->|N].
      + destruct lim; [discriminate|]. eexists. unfold set_value. rewrite value_eq, par_set_same. reflexivity.
      + exists u. rewrite value_set_key; auto.
    - intros h1 k1 [u U]. exists u. rewrite value_pull. exact U.
    - intros h1 [u U]. exists u. rewrite <- U. apply value_ext_all. intros x. unfold clear_bound, hput.
      destruct (Nat.eqb_spec x o); subst; reflexivity.
    - intros h1 b [u U]. exists u. rewrite <- U. apply value_ext_all. intros x. unfold drop_dep, hput.
      destruct (Nat.eqb_spec x b); subst; reflexivity.
    - intros h1 [u U]. exists u. rewrite <- U. apply value_ext_all. intros x. unfold flag, hput.
      destruct (Nat.eqb_spec x o); subst; reflexivity. }
  exact (keeps_set_prop _ o lim k v G h (H j)).
Qed.

Theorem total_then_size lim o T s h : reads_ok lim h o -> ~ (s == 0)%Q ->
  let h2 := fst (set_stepSize lim o s (fst (set_totalTime lim o T h))) in
  exists h3 n, get_stepCount lim o h2 = (h3, Ok (Some n)) /\ (n == inject_Z (Qfloor (T / s)) + 1)%Q.
Proof.
  intros R N h2. set (h1 := fst (set_totalTime lim o T h)) in *.
  destruct (R KTotal) as [w W].
  destruct (set_prop_read lim o KTotal T h w W o w (pass_here _ _ _) W) as (T' & VT & ET).
  cbn [set_prop] in VT. fold h1 in VT.
  destruct (reads_set lim o KTotal T h R KSize) as [u U]. cbn [set_prop] in U. fold h1 in U.
  destruct (set_prop_read lim o KSize s h1 u U o u (pass_here _ _ _) U) as (s' & VS & ES).
  cbn [set_prop] in VS. fold h2 in VS.
  assert (VT2 : value lim h2 KTotal o = Ok (Some T')) by (unfold h2; rewrite (set_size_total lim o s h1 u U); exact VT).
  destruct (get_stepCount_total lim o h2 T' s' VT2 VS) as (h3 & E & _ & _).
  { rewrite ES. exact N. }
  exists h3. eexists. split; [exact E|]. rewrite (Qfloor_div_comp T' T s' s ET ES). reflexivity.
Qed.
Theorem size_then_total lim o T s h : reads_ok lim h o -> ~ (s == 0)%Q ->
  let h2 := fst (set_totalTime lim o T (fst (set_stepSize lim o s h))) in
  exists h3 n, get_stepCount lim o h2 = (h3, Ok (Some n)) /\ (n == inject_Z (Qfloor (T / s)) + 1)%Q.
Proof.
  intros R N h2. set (h1 := fst (set_stepSize lim o s h)) in *.
  destruct (R KSize) as [w W].
  destruct (set_prop_read lim o KSize s h w W o w (pass_here _ _ _) W) as (s' & VS & ES).
  cbn [set_prop] in VS. fold h1 in VS.
  destruct (reads_set lim o KSize s h R KTotal) as [u U]. cbn [set_prop] in U. fold h1 in U.
  destruct (set_prop_read lim o KTotal T h1 u U o u (pass_here _ _ _) U) as (T' & VT & ET).
  cbn [set_prop] in VT. fold h2 in VT.
  assert (VS2 : value lim h2 KSize o = Ok (Some s')) by (unfold h2; rewrite (set_total_size lim o T h1 u U); exact VS).
  destruct (get_stepCount_total lim o h2 T' s' VT VS2) as (h3 & E & _ & _).
  { rewrite ES. exact N. }
  exists h3. eexists. split; [exact E|]. rewrite (Qfloor_div_comp T' T s' s ET ES). reflexivity.
Qed.

Theorem total_then_count lim o T (n : positive) h : reads_ok lim h o -> ~ (T == 0)%Q ->
  let h2 := fst (set_stepCount lim o (inject_Z (Zpos n)) (fst (set_totalTime lim o T h))) in
  exists h3 m, get_stepCount lim o h2 = (h3, Ok (Some m)) /\ (m == inject_Z (Zpos n) + 1)%Q.
Proof.
  intros R N h2. set (h1 := fst (set_totalTime lim o T h)) in *.
  destruct (R KTotal) as [w W].
  destruct (set_prop_read lim o KTotal T h w W o w (pass_here _ _ _) W) as (T' & VT & ET).
  cbn [set_prop] in VT. fold h1 in VT.
  destruct (reads_set lim o KTotal T h R KCount) as [u U]. cbn [set_prop] in U. fold h1 in U.
  assert (Nn : ~ (inject_Z (Zpos n) == 0)%Q) by (unfold inject_Z, Qeq; cbn; lia).
  destruct (set_count_total lim o (inject_Z (Zpos n)) h1 u T' U VT Nn) as [V1 V2]. fold h2 in V1, V2.
  assert (NT : ~ (T' == 0)%Q) by (rewrite ET; exact N).
  assert (NS : ~ (T' / inject_Z (Zpos n) == 0)%Q).
  { intros Z. apply NT. rewrite <- (Qmult_div_r T' _ Nn), Z. ring. }
  destruct (get_stepCount_total lim o h2 _ _ V1 V2 NS) as (h3 & E & _ & _).
  exists h3. eexists. split; [exact E|].
  assert (F : Qfloor (T' / (T' / inject_Z (Zpos n))) = Zpos n).
  { transitivity (Qfloor (inject_Z (Zpos n))); [|apply Qfloor_Z]. apply Qfloor_comp.
    clear - Nn NT. set (x := inject_Z (Zpos n)) in *. clearbody x. field. split; auto. }
  rewrite F. reflexivity.
Qed.

(** *** time list *)
Theorem timeList_spec lim o h T s : value lim h KTotal o = Ok (Some T) -> value lim h KSize o = Ok (Some s) ->
  (0 < s)%Q -> (0 <= T)%Q ->
  exists h' l, timeList lim o h = (h', Ok l) /\
    Z.of_nat (List.length l) = (Qfloor (T / s) + 2)%Z /\
    (forall i t, nth_error l i = Some t -> t = (inject_Z (Z.of_nat i) * s)%Q) /\
    (exists t, nth_error l (List.length l - 1) = Some t /\ (T < t)%Q /\ (t <= T + s)%Q).
Proof.
  intros VT VS Ps PT.
  assert (N : ~ (s == 0)%Q) by (intros Z; rewrite Z in Ps; discriminate Ps).
  destruct (get_stepCount_total lim o h T s VT VS N) as (h' & E & _ & VS').
  unfold timeList, mbind. rewrite E. unfold read. rewrite VS'. unfold ret.
  assert (F0 : (0 <= Qfloor (T / s))%Z).
  { change 0%Z with (Qfloor 0). apply Qfloor_resp_le. apply Qle_shift_div_l; auto. rewrite Qmult_0_l. exact PT. }
  assert (FF : Qfloor (inject_Z (Qfloor (T / s)) + 1) = (Qfloor (T / s) + 1)%Z).
  { rewrite <- (Qfloor_Z (Qfloor (T / s) + 1)). apply Qfloor_comp. rewrite inject_Z_plus. reflexivity. }
  rewrite FF.
  set (m := Z.to_nat (Qfloor (T / s) + 1 + 1)).
  assert (Em : Z.of_nat m = (Qfloor (T / s) + 2)%Z) by (unfold m; rewrite Z2Nat.id; lia).
  eexists h', _. split; [reflexivity|]. rewrite map_length, seq_length. split; [exact Em|].
  assert (NTH : forall i, i < m -> nth_error (map (fun x : nat => (inject_Z (Z.of_nat x) * s)%Q) (seq 0 m)) i
                = Some (inject_Z (Z.of_nat i) * s)%Q).
  { intros i Hi. rewrite nth_error_map. rewrite (nth_error_nth' (seq 0 m) 0) by (rewrite seq_length; auto).
    rewrite seq_nth by auto. reflexivity. }
  split.
  - intros i t Hi. assert (i < m).
    { assert (i < List.length (map (fun x : nat => (inject_Z (Z.of_nat x) * s)%Q) (seq 0 m)))
        by (apply nth_error_Some; congruence). rewrite map_length, seq_length in H. auto. }
    rewrite NTH in Hi by auto. congruence.
  - exists (inject_Z (Z.of_nat (m - 1)) * s)%Q. split; [apply NTH; lia|].
    assert (Em1 : Z.of_nat (m - 1) = (Qfloor (T / s) + 1)%Z) by lia. rewrite Em1.
    pose proof (Qlt_floor (T / s)) as LT. pose proof (Qfloor_le (T / s)) as LE.
    assert (TS : (T == T / s * s)%Q) by (field; auto).
    split.
    + rewrite TS at 1. apply Qmult_lt_compat_r; auto.
    + assert (X : (inject_Z (Qfloor (T / s)) * s <= T / s * s)%Q)
        by (apply Qmult_le_compat_r; auto; apply Qlt_le_weak; auto).
      rewrite inject_Z_plus. change (inject_Z 1) with 1%Q.
      set (f := inject_Z (Qfloor (T / s))) in *. clearbody f.
      set (ts := (T / s * s)%Q) in *. clearbody ts. nra.
Qed.

(** Assigning stepCount first and totalTime second to a fresh object. *)
Theorem count_then_total lim o (n T : Q) : 0 < lim ->
  snd (get_stepCount lim o (fst (set_totalTime lim o T (fst (set_stepCount lim o n (fun _ => fresh)))))) = Err ValueError.
Proof.
  intros L. destruct lim as [|l]; [lia|].
  set (h0 := fun _ : nat => fresh).
  destruct (setAttrParam_ok (S l) o KCount n (pull o KTotal h0) None) as (h1 & E1 & O1 & _).
  { rewrite value_pull. reflexivity. }
  assert (H1 : fst (set_stepCount (S l) o n h0) = h1).
  { unfold set_stepCount, mbind, modify, read. rewrite E1.
    rewrite (value_ext_all (S l) (pull o KTotal h0) h1 KTotal o) by (intros; apply O1; discriminate).
    rewrite value_pull. reflexivity. }
  rewrite H1.
  assert (A1 : forall j, j <> KCount -> t_par (h1 o) j = t_par (h0 o) j) by (intros j Nj; rewrite O1; auto).
  destruct (setAttrParam_ok (S l) o KTotal T (pull o KSize h1) None) as (h2 & E2 & O2 & _ & _ & W2).
  { rewrite value_pull, value_eq, A1 by discriminate. reflexivity. }
  assert (P1 : pull o KSize h1 = h1). { unfold pull. rewrite A1 by discriminate. reflexivity. }
  assert (V2 : value (S l) h2 KSize o = Ok None).
  { rewrite value_eq, O2, P1, A1 by discriminate. reflexivity. }
  assert (H2 : fst (set_totalTime (S l) o T h1) = h2).
  { unfold set_totalTime, mbind, modify, read. rewrite E2, V2. reflexivity. }
  rewrite H2. destruct W2 as [[x [X _]]|W2]; [discriminate|].
  unfold get_stepCount, mbind, read. rewrite value_eq, W2. cbn [p_bound p_val]. unfold ret.
  rewrite value_eq, W2. cbn [p_bound p_val]. rewrite V2. reflexivity.
Qed.
