(** Proofs about the dimension bookkeeping. *)
From Verif Require Import Py QDimModel QDimSpec.
#[local] Open Scope Z_scope.

(** ** Float division is exact on exact quotients below 2^53. *)
Lemma rne_exact : forall q d, 0 < d -> rne (q * d) d = q.
Proof.
  intros q d H. unfold rne. rewrite Z.div_mul by lia. rewrite Z.mod_mul by lia.
  change (2 * 0) with 0. destruct (Z.ltb_spec 0 d); [reflexivity|lia].
Qed.
Lemma intdiv_exact : forall q b, 0 < b -> 0 < q < 2 ^ 53 -> intdiv (q * b) b = Ok q.
Proof.
  intros q b Hb Hq. unfold intdiv.
  destruct (Z.eqb_spec b 0); [lia|].
  assert (0 < q * b) by nia. destruct (Z.leb_spec (q * b) 0); [lia|].
  set (e := Z.log2 (q * b) - Z.log2 b).
  assert (Hl : Z.log2 q <= 52) by (apply Z.lt_succ_r, Z.log2_lt_pow2; change (Z.succ 52) with 53; lia).
  assert (He : e <= Z.log2 q + 1).
  { unfold e. pose proof (Z.log2_mul_above q b ltac:(lia) ltac:(lia)). lia. }
  set (k := if (snd (scaled (q * b) b (52 - e)) * 2 ^ 52 <=? fst (scaled (q * b) b (52 - e))) then 52 - e else 52 - e + 1).
  assert (Hk : 0 <= k).
  { unfold k. destruct (Z.leb_spec 0 (52 - e)) as [Hk0|Hk0].
    - destruct (_ <=? _); lia.
    - assert (He53 : e = 53) by lia. rewrite He53. cbv [scaled]. change (0 <=? 52 - 53) with false. cbv beta iota. cbn [fst snd].
      change (2 ^ - (52 - 53)) with 2. destruct (Z.leb_spec (b * 2 * 2 ^ 52) (q * b)); [|lia].
      exfalso. change (2 ^ 53) with (2 * 2 ^ 52) in Hq. nia. }
  destruct (scaled (q * b) b (52 - e)) as [n0 d0] eqn:Es. cbn [fst snd] in k. fold k.
  unfold scaled. destruct (Z.leb_spec 0 k); [|lia].
  replace (q * b * 2 ^ k) with (q * 2 ^ k * b) by ring.
  rewrite rne_exact by lia. rewrite Z.div_mul; [reflexivity|]. pose proof (Z.pow_pos_nonneg 2 k ltac:(lia) Hk). lia.
Qed.

(** ** Trees of systems. *)
Inductive tree := L (i : oid) (d : Z) | N (i : oid) (ts : list tree).
Section TreeInd.
  Variable P : tree -> Prop.
  Hypothesis HL : forall i d, P (L i d).
  Hypothesis HN : forall i ts, Forall P ts -> P (N i ts).
  Fixpoint tree_ind' (t : tree) : P t :=
    match t with
    | L i d => HL i d
    | N i ts => HN i ts ((fix go l : Forall P l := match l with [] => Forall_nil _ | x :: l' => Forall_cons _ (tree_ind' x) (go l') end) ts)
    end.
End TreeInd.
Definition rt (t : tree) : oid := match t with L i _ => i | N i _ => i end.
Fixpoint tdim (t : tree) : Z :=
  match t with L _ d => d | N _ ts => fold_right (fun t r => tdim t * r) 1 ts end.
Definition tdims (ts : list tree) : Z := fold_right (fun t r => tdim t * r) 1 ts.
Fixpoint ids (t : tree) : list oid := match t with L i _ => [i] | N i ts => i :: flat_map ids ts end.
Fixpoint depth (t : tree) : nat := match t with L _ _ => 1%nat | N _ ts => S (fold_right (fun t r => Nat.max (depth t) r) O ts) end.
Definition depths (ts : list tree) : nat := fold_right (fun t r => Nat.max (depth t) r) O ts.

Definition core (x : qsys) := (isComp x, dim x, dB x, dA x, subs x, sup x).
Fixpoint rep (h : heap) (s : option oid) (b a : Z) (t : tree) {struct t} : Prop :=
  match t with
  | L i d => isComp (h i) = false /\ subs (h i) = [] /\ dim (h i) = d /\ 0 < d /\
             dB (h i) = b /\ dA (h i) = a /\ sup (h i) = s
  | N i ts => isComp (h i) = true /\ subs (h i) = map rt ts /\ dB (h i) = b /\ dA (h i) = a /\ sup (h i) = s /\
      (fix reps b ts := match ts with
       | [] => True
       | t :: ts' => rep h (Some i) b (a * tdims ts') t /\ reps (b * tdim t) ts'
       end) b ts
  end.
Definition reps (h : heap) (i : oid) (a : Z) :=
  fix reps b ts := match ts with
       | [] => True
       | t :: ts' => rep h (Some i) b (a * tdims ts') t /\ reps (b * tdim t) ts'
       end.
Lemma rep_N : forall h s b a i ts, rep h s b a (N i ts) =
  (isComp (h i) = true /\ subs (h i) = map rt ts /\ dB (h i) = b /\ dA (h i) = a /\ sup (h i) = s /\ reps h i a b ts).
Proof. reflexivity. Qed.
Lemma tdim_N : forall i ts, tdim (N i ts) = tdims ts. Proof. reflexivity. Qed.
Lemma depth_N : forall i ts, depth (N i ts) = S (depths ts). Proof. reflexivity. Qed.
Lemma ids_N : forall i ts, ids (N i ts) = i :: flat_map ids ts. Proof. reflexivity. Qed.
Lemma rt_in : forall t, In (rt t) (ids t). Proof. intros []; cbn; auto. Qed.

Lemma rep_root : forall h s b a t, rep h s b a t -> dB (h (rt t)) = b /\ dA (h (rt t)) = a /\ sup (h (rt t)) = s /\ subs (h (rt t)) = match t with L _ _ => [] | N _ ts => map rt ts end.
Proof. intros h s b a [] H; [cbn in H|rewrite rep_N in H]; cbn [rt]; intuition. Qed.

Lemma tdims_cons : forall t l, tdims (t :: l) = tdim t * tdims l. Proof. reflexivity. Qed.
Lemma tdims_nil : tdims [] = 1. Proof. reflexivity. Qed.
Lemma tdims_app : forall l l', tdims (l ++ l') = tdims l * tdims l'.
Proof. induction l; intros; cbn [app]; [rewrite tdims_nil; ring|]. rewrite !tdims_cons, IHl. ring. Qed.

Lemma reps_app : forall h i a l l' b, reps h i a b (l ++ l') <->
  reps h i (a * tdims l') b l /\ reps h i a (b * tdims l) l'.
Proof.
  induction l as [|t l IH]; intros l' b; cbn [app].
  - cbn [reps tdims fold_right]. rewrite Z.mul_1_r. tauto.
  - cbn [reps]. rewrite IH. rewrite tdims_app, tdims_cons.
    replace (a * (tdims l * tdims l')) with (a * tdims l' * tdims l) by ring.
    replace (b * (tdim t * tdims l)) with (b * tdim t * tdims l) by ring. tauto.
Qed.

(** Only the core of the objects of the tree matters. *)
Lemma rep_ext : forall h h' t s b a, (forall i, In i (ids t) -> core (h' i) = core (h i)) -> rep h s b a t -> rep h' s b a t.
Proof.
  intros h h'. induction t as [i d|i ts IH] using tree_ind'; intros s b a E R.
  - specialize (E i ltac:(cbn; auto)). unfold core in E. injection E as E1 E2 E3 E4 E5 E6.
    cbn in *. rewrite E1, E2, E3, E4, E5, E6. exact R.
  - rewrite rep_N in *. rewrite ids_N in E. pose proof (E i ltac:(cbn; auto)) as Ei. unfold core in Ei.
    injection Ei as E1 E2 E3 E4 E5 E6. rewrite E1, E3, E4, E5, E6.
    destruct R as (R1 & R2 & R3 & R4 & R5 & R6). repeat split; auto.
    assert (E' : forall j, In j (flat_map ids ts) -> core (h' j) = core (h j)) by (intros; apply E; cbn; auto).
    clear - IH E' R6. revert b R6. induction ts as [|t ts IHt]; intros b R; [exact I|].
    cbn [reps] in *. destruct R as [Ra Rb]. inversion IH; subst. split.
    + apply H1; [|assumption]. intros j Hj. apply E'. cbn. apply in_or_app; auto.
    + apply IHt; auto. intros j Hj. apply E'. cbn. apply in_or_app; auto.
Qed.
Lemma reps_ext : forall h h' i a ts b, (forall j, In j (flat_map ids ts) -> core (h' j) = core (h j)) -> reps h i a b ts -> reps h' i a b ts.
Proof.
  induction ts as [|t ts IH]; intros b E R; [exact I|]. cbn [reps] in *. destruct R. split.
  - eapply rep_ext; [|eassumption]. intros. apply E. cbn. apply in_or_app; auto.
  - apply IH; [|assumption]. intros. apply E. cbn. apply in_or_app; auto.
Qed.

Lemma tdim_pos : forall h t s b a, rep h s b a t -> 0 < tdim t.
Proof.
  intros h. induction t as [i d|i ts IH] using tree_ind'; intros s b a R.
  - cbn in *. tauto.
  - rewrite rep_N in R. rewrite tdim_N. destruct R as (_ & _ & _ & _ & _ & R). revert b R.
    induction ts as [|t ts IHt]; intros b R; [cbn; lia|]. inversion IH; subst. cbn [reps] in R. destruct R as [Ra Rb].
    rewrite tdims_cons. specialize (H1 _ _ _ Ra). specialize (IHt H2 _ Rb). nia.
Qed.
Lemma tdims_pos : forall h i a ts b, reps h i a b ts -> 0 < tdims ts.
Proof.
  induction ts as [|t ts IH]; intros b R; [cbn; lia|]. cbn [reps] in R. destruct R as [Ra Rb].
  rewrite tdims_cons. apply tdim_pos in Ra. apply IH in Rb. nia.
Qed.

(** The dimension getter. *)
Lemma dimension_rep : forall h t s b a lim, rep h s b a t -> (depth t <= lim)%nat -> dimension lim h (rt t) = Ok (tdim t).
Proof.
  intros h. induction t as [i d|i ts IH] using tree_ind'; intros s b a lim R Hl.
  - destruct lim; [cbn in Hl; lia|]. cbn in *. destruct R as (R1 & _ & R3 & _). now rewrite R1, R3.
  - rewrite depth_N in Hl. destruct lim as [|l]; [lia|]. rewrite rep_N in R. destruct R as (R1 & R2 & _ & _ & _ & R).
    cbn [rt dimension]. rewrite R1, R2, tdim_N. apply le_S_n in Hl. clear R1 R2. revert b R Hl.
    induction ts as [|t ts IHt]; intros b R Hl; [reflexivity|]. inversion IH; subst. cbn [reps] in R. destruct R as [Ra Rb].
    cbn [depths fold_right] in Hl. cbn [map prodR]. rewrite (H1 _ _ _ l Ra) by lia. cbn [bind].
    fold (prodR (dimension l h)). rewrite (IHt H2 _ Rb) by (unfold depths; lia). reflexivity.
Qed.

(** ** Monad steps. *)
Lemma mbind_ok : forall X Y (m : M X) (f : X -> M Y) h h' x, m h = (h', Ok x) -> mbind m f h = f x h'.
Proof. intros. unfold mbind. now rewrite H. Qed.
Lemma mbind_err : forall X Y (m : M X) (f : X -> M Y) h h' e, m h = (h', Err e) -> mbind m f h = (h', Err e).
Proof. intros. unfold mbind. now rewrite H. Qed.
Lemma get_step : forall Y i (f : qsys -> M Y) h, mbind (get i) f h = f (h i) h. Proof. reflexivity. Qed.
Lemma modify_step : forall Y i g (f : unit -> M Y) h, mbind (modify i g) f h = f tt (upf i g h). Proof. reflexivity. Qed.
Lemma ret_step : forall X Y (x : X) (f : X -> M Y) h, mbind (ret x) f h = f x h. Proof. reflexivity. Qed.
Lemma upf_same : forall i f h, upf i f h i = f (h i). Proof. intros. unfold upf, put. now rewrite Nat.eqb_refl. Qed.
Lemma upf_other : forall i f h j, j <> i -> upf i f h j = h j.
Proof. intros. unfold upf, put. destruct (Nat.eqb_spec j i); [contradiction|reflexivity]. Qed.

(** What an update of the bookkeeping leaves alone. *)
Definition shape (h h' : heap) : Prop := forall j, comp (h' j) = comp (h j) /\ subs (h' j) = subs (h j) /\
  sup (h' j) = sup (h j) /\ terms (h' j) = terms (h j) /\ dim (h' j) = dim (h j).
Lemma shape_refl : forall h, shape h h. Proof. intros h j. tauto. Qed.
Lemma shape_trans : forall h1 h2 h3, shape h1 h2 -> shape h2 h3 -> shape h1 h3.
Proof. intros h1 h2 h3 A B j. specialize (A j). specialize (B j). intuition congruence. Qed.
Lemma shape_isComp : forall h h' j, shape h h' -> isComp (h' j) = isComp (h j).
Proof. intros h h' j A. specialize (A j). unfold isComp. destruct A as [A _]. now rewrite A. Qed.

Lemma setAttr_AB : forall i before v h, exists h', setAttrZ i (fldAB before) (wrAB before) v h = (h', Ok tt) /\
  fldAB before (h' i) = v /\ fldAB (negb before) (h' i) = fldAB (negb before) (h i) /\
  (forall j, j <> i -> h' j = h j) /\ shape h h'.
Proof.
  intros. unfold setAttrZ. rewrite get_step. destruct (Z.eqb_spec (fldAB before (h i)) v) as [E|E].
  - exists h. split; [reflexivity|]. repeat split; auto.
  - rewrite modify_step. unfold flag, modify. eexists. split; [reflexivity|].
    rewrite !upf_same. repeat split; try (destruct before; reflexivity).
    + intros. now rewrite !upf_other.
    + destruct (Nat.eq_dec j i) as [->|]; [rewrite !upf_same; destruct before; reflexivity|now rewrite !upf_other].
    + destruct (Nat.eq_dec j i) as [->|]; [rewrite !upf_same; destruct before; reflexivity|now rewrite !upf_other].
    + destruct (Nat.eq_dec j i) as [->|]; [rewrite !upf_same; destruct before; reflexivity|now rewrite !upf_other].
    + destruct (Nat.eq_dec j i) as [->|]; [rewrite !upf_same; destruct before; reflexivity|now rewrite !upf_other].
    + destruct (Nat.eq_dec j i) as [->|]; [rewrite !upf_same; destruct before; reflexivity|now rewrite !upf_other].
Qed.

Definition pick {X} (c : bool) (x y : X) := if c then x else y.
Lemma NoDup_app_disj : forall (l l' : list oid), NoDup (l ++ l') -> NoDup l /\ NoDup l' /\ forall j, In j l -> In j l' -> False.
Proof.
  induction l; intros l' H; [cbn in H; repeat split; auto; constructor|].
  cbn in H. inversion H; subst. apply IHl in H3. destruct H3 as (A & B & C). repeat split; auto.
  - constructor; auto. intro. apply H2. apply in_or_app; auto.
  - intros j [->|Hj] Hj'; [apply H2; apply in_or_app; auto|eauto].
Qed.

Definition setAB_goal (t : tree) := forall before lim h s b a v,
  rep h s b a t -> NoDup (ids t) -> (depth t <= lim)%nat -> 0 < b -> 0 < a -> 0 < v -> v * tdim t < 2 ^ 53 ->
  exists h', setAB lim before (rt t) v h = (h', Ok tt) /\
    rep h' s (pick before v b) (pick before a v) t /\
    (forall j, ~ In j (ids t) -> h' j = h j) /\ shape h h'.

Lemma setAB_loop : forall ts, Forall setAB_goal ts -> forall before l h i b0 a0 P v,
  reps h i a0 (b0 * P) ts -> NoDup (flat_map ids ts) -> (depths ts <= l)%nat ->
  0 < b0 -> 0 < a0 -> 0 < v -> 0 < P -> v * P * tdims ts < 2 ^ 53 ->
  exists h', for_ (map rt ts) (fun s => y <- get s ;; w <- lift (intdiv (fldAB before y * v) (pick before b0 a0)) ;; setAB l before s w) h = (h', Ok tt) /\
    reps h' i (pick before a0 v) (pick before v b0 * P) ts /\
    (forall j, ~ In j (flat_map ids ts) -> h' j = h j) /\ shape h h'.
Proof.
  induction ts as [|t ts IH]; intros F before l h i b0 a0 P v R ND Hl Hb Ha Hv HP Hbig.
  { exists h. cbn. repeat split; auto. }
  inversion F as [|? ? Ft Fts]; subst. cbn [reps] in R. destruct R as [Rt Rts].
  cbn [flat_map] in ND. apply NoDup_app_disj in ND. destruct ND as (ND1 & ND2 & Dis).
  cbn [depths fold_right] in Hl. fold (depths ts) in Hl.
  pose proof (tdim_pos _ _ _ _ _ Rt) as Pt. pose proof (tdims_pos _ _ _ _ _ Rts) as Pts.
  rewrite tdims_cons in Hbig.
  set (w := pick before (v * P) (v * tdims ts)).
  assert (Hw : 0 < w) by (unfold w; destruct before; cbn [pick]; nia).
  assert (Hwb : w * tdim t < 2 ^ 53) by (unfold w; destruct before; cbn [pick]; nia).
  assert (Hdiv : intdiv (fldAB before (h (rt t)) * v) (pick before b0 a0) = Ok w).
  { pose proof (rep_root _ _ _ _ _ Rt) as (E1 & E2 & _). unfold fldAB, w, pick. destruct before.
    - rewrite E1. replace (b0 * P * v) with (v * P * b0) by ring. apply intdiv_exact; nia.
    - rewrite E2. replace (a0 * tdims ts * v) with (v * tdims ts * a0) by ring. apply intdiv_exact; nia. }
  destruct (Ft before l h (Some i) (b0 * P) (a0 * tdims ts) w Rt ND1) as (h1 & S1 & R1 & O1 & Sh1); [lia|nia|nia|exact Hw|exact Hwb|].
  assert (Rts1 : reps h1 i a0 (b0 * (P * tdim t)) ts).
  { replace (b0 * (P * tdim t)) with (b0 * P * tdim t) by ring. eapply reps_ext; [|eassumption]. intros j Hj.
    rewrite O1; [reflexivity|]. intro. eauto. }
  destruct (IH Fts before l h1 i b0 a0 (P * tdim t) v Rts1 ND2) as (h2 & S2 & R2 & O2 & Sh2); try lia; try nia.
  exists h2. split; [|split; [|split]].
  - cbn [map for_]. unfold mbind at 1. rewrite get_step. unfold lift at 1. unfold mbind at 1. rewrite Hdiv.
    fold w. rewrite S1. exact S2.
  - cbn [reps]. split.
    + eapply rep_ext with (h := h1).
      * intros j Hj. rewrite O2; [reflexivity|]. intro. eauto.
      * unfold w, pick in *. destruct before; exact R1.
    + replace (pick before v b0 * P * tdim t) with (pick before v b0 * (P * tdim t)) by ring. exact R2.
  - intros j Hj. cbn [flat_map] in Hj. rewrite O2 by (intro; apply Hj; apply in_or_app; auto).
    apply O1. intro. apply Hj. apply in_or_app; auto.
  - eapply shape_trans; eauto.
Qed.

Lemma setAB_S : forall l before i v, setAB (S l) before i v =
  (x <- get i ;; let old := fldAB before x in setAttrZ i (fldAB before) (wrAB before) v ;;;
   for_ (subs x) (fun s => y <- get s ;; w <- lift (intdiv (fldAB before y * v) old) ;; setAB l before s w)).
Proof. reflexivity. Qed.

Lemma fldAB_split : forall before b a x, fldAB before x = pick before b a -> fldAB (negb before) x = pick before a b -> dB x = b /\ dA x = a.
Proof. intros [] b a x; cbn; auto. Qed.

Lemma setAB_rep : forall t, setAB_goal t.
Proof.
  induction t as [i d|i ts IH] using tree_ind'; intros before lim h s b a v R ND Hl Hb Ha Hv Hbig.
  - destruct lim as [|l]; [cbn in Hl; lia|]. cbn [rt]. rewrite setAB_S, get_step.
    cbn [rep] in R. destruct R as (R1 & R2 & R3 & R4 & R5 & R6 & R7). rewrite R2.
    destruct (setAttr_AB i before v h) as (h' & S & F1 & F2 & O & Sh). exists h'. split; [|split; [|split]]; auto.
    + cbv zeta. rewrite (mbind_ok _ _ _ _ _ _ _ S). reflexivity.
    + pose proof (Sh i) as (C & E1 & E2 & E3 & E4). cbn [rep]. unfold isComp in *. rewrite C, E1, E2, E4.
      repeat split; auto; destruct before; cbn in *; congruence.
    + intros j Hj. apply O. cbn in Hj. intuition.
  - rewrite depth_N in Hl. destruct lim as [|l]; [lia|]. apply le_S_n in Hl. cbn [rt]. rewrite setAB_S, get_step.
    rewrite rep_N in R. destruct R as (R1 & R2 & R3 & R4 & R5 & R6). rewrite R2.
    destruct (setAttr_AB i before v h) as (h1 & S1 & F1 & F2 & O1 & Sh1).
    rewrite ids_N in ND. apply NoDup_cons_iff in ND. destruct ND as [Ni ND']. subst b a s.
    rewrite tdim_N in Hbig.
    assert (R6' : reps h1 i (dA (h i)) (dB (h i) * 1) ts).
    { rewrite Z.mul_1_r. eapply reps_ext; [|eassumption]. intros j Hj. rewrite O1; [reflexivity|]. intros ->. contradiction. }
    destruct (setAB_loop ts IH before l h1 i _ _ 1 v R6' ND' Hl Hb Ha Hv) as (h2 & S2 & R & O2 & Sh2); try lia.
    exists h2. split; [|split; [|split]].
    + cbv zeta. rewrite (mbind_ok _ _ _ _ _ _ _ S1). replace (fldAB before (h i)) with (pick before (dB (h i)) (dA (h i))) by (now destruct before). exact S2.
    + assert (h2 i = h1 i) as E by (apply O2; assumption). pose proof (Sh1 i) as (C & E1 & E2 & E3 & E4).
      rewrite rep_N, E. unfold isComp in *. rewrite C, E1, E2. repeat split; auto; try (destruct before; cbn in *; congruence).
      rewrite Z.mul_1_r in R. exact R.
    + intros j Hj. rewrite ids_N in Hj. cbn in Hj. rewrite O2 by tauto. apply O1. intuition.
    + eapply shape_trans; eauto.
Qed.

(** ** Contexts: the path from a system to its root. *)
Definition frame := (oid * list tree * list tree)%type.
Fixpoint plug (c : list frame) (t : tree) : tree :=
  match c with [] => t | (p, ls, rs) :: c' => plug c' (N p (ls ++ t :: rs)) end.
Fixpoint cids (c : list frame) : list oid :=
  match c with [] => [] | (p, ls, rs) :: c' => p :: flat_map ids ls ++ flat_map ids rs ++ cids c' end.
(** The factor by which the dimension of the root exceeds that of the hole. *)
Fixpoint cfac (c : list frame) : Z :=
  match c with [] => 1 | (p, ls, rs) :: c' => tdims ls * tdims rs * cfac c' end.
Fixpoint cdepth (c : list frame) : nat :=
  match c with [] => O | (p, ls, rs) :: c' => Nat.max (Nat.max (depths ls) (depths rs)) (cdepth c') end.
Fixpoint repc (h : heap) (c : list frame) (i : oid) (D b a : Z) (s : option oid) : Prop :=
  match c with
  | [] => b = 1 /\ a = 1 /\ s = None
  | (p, ls, rs) :: c' =>
      s = Some p /\ isComp (h p) = true /\ subs (h p) = map rt ls ++ i :: map rt rs /\
      b = dB (h p) * tdims ls /\ a = dA (h p) * tdims rs /\
      reps h p (dA (h p) * (D * tdims rs)) (dB (h p)) ls /\ reps h p (dA (h p)) (dB (h p) * tdims ls * D) rs /\
      repc h c' p (tdims ls * D * tdims rs) (dB (h p)) (dA (h p)) (sup (h p))
  end.

Lemma repc_cons : forall h p ls rs c i D b a s, repc h ((p, ls, rs) :: c) i D b a s =
     (s = Some p /\ isComp (h p) = true /\ subs (h p) = map rt ls ++ i :: map rt rs /\
      b = dB (h p) * tdims ls /\ a = dA (h p) * tdims rs /\
      reps h p (dA (h p) * (D * tdims rs)) (dB (h p)) ls /\ reps h p (dA (h p)) (dB (h p) * tdims ls * D) rs /\
      repc h c p (tdims ls * D * tdims rs) (dB (h p)) (dA (h p)) (sup (h p))).
Proof. reflexivity. Qed.
Lemma cfac_cons : forall p ls rs c, cfac ((p, ls, rs) :: c) = tdims ls * tdims rs * cfac c. Proof. reflexivity. Qed.
Lemma cids_cons : forall p ls rs c, cids ((p, ls, rs) :: c) = p :: flat_map ids ls ++ flat_map ids rs ++ cids c.
Proof. reflexivity. Qed.

Lemma plug_rep : forall h c t, rep h None 1 1 (plug c t) <->
  exists b a s, repc h c (rt t) (tdim t) b a s /\ rep h s b a t.
Proof.
  induction c as [|[[p ls] rs] c IH]; intros t; cbn [plug repc].
  - split; [intros R; exists 1, 1, None; auto|intros (b & a & s & (-> & -> & ->) & R); exact R].
  - rewrite IH. split.
    + intros (b & a & s & Rc & R). rewrite rep_N in R. destruct R as (R1 & R2 & R3 & R4 & R5 & R6).
      apply reps_app in R6. destruct R6 as [R6 R7]. cbn [reps] in R7. destruct R7 as [R7 R8].
      exists (b * tdims ls), (a * tdims rs), (Some p). rewrite R3, R4, R5. rewrite map_app in R2. cbn [map] in R2.
      rewrite tdim_N, tdims_app, tdims_cons in Rc. rewrite tdims_cons in R6.
      cbn [rt] in Rc.
      replace (tdims ls * tdim t * tdims rs) with (tdims ls * (tdim t * tdims rs)) by ring.
      replace (a * tdims rs) with (a * tdims rs) by ring. repeat split; auto.
    + intros (b & a & s & (-> & Hc & Hs & -> & -> & Hl & Hr & Rc) & R).
      exists (dB (h p)), (dA (h p)), (sup (h p)). rewrite tdim_N, tdims_app, tdims_cons. cbn [rt].
      replace (tdims ls * (tdim t * tdims rs)) with (tdims ls * tdim t * tdims rs) by ring. split; [exact Rc|].
      rewrite rep_N. rewrite map_app. cbn [map]. repeat split; auto. apply reps_app. rewrite tdims_cons. split; [exact Hl|].
      cbn [reps]. split; [exact R|exact Hr].
Qed.
Lemma tdim_plug : forall c t, tdim (plug c t) = tdim t * cfac c.
Proof.
  induction c as [|[[p ls] rs] c IH]; intros t; cbn [plug cfac]; [ring|]. rewrite IH, tdim_N, tdims_app, tdims_cons. ring.
Qed.
Lemma repc_cfac_pos : forall h c i D b a s, repc h c i D b a s -> 0 < cfac c.
Proof.
  induction c as [|[[p ls] rs] c IH]; intros i D b a s R; cbn [cfac]; [lia|]. cbn [repc] in R.
  destruct R as (_ & _ & _ & _ & _ & R1 & R2 & R3). apply tdims_pos in R1. apply tdims_pos in R2. apply IH in R3. nia.
Qed.
Lemma repc_pos : forall h c i D b a s, repc h c i D b a s -> 0 < b /\ 0 < a /\ b * a <= cfac c.
Proof.
  induction c as [|[[p ls] rs] c IH]; intros i D b a s R; cbn [cfac repc] in *; [lia|].
  destruct R as (_ & _ & _ & -> & -> & R1 & R2 & R3). apply tdims_pos in R1. apply tdims_pos in R2. apply IH in R3. nia.
Qed.
Lemma repc_sup : forall h c i D b a s, repc h c i D b a s -> s = match c with [] => None | (p, _, _) :: _ => Some p end.
Proof. intros h [|[[p ls] rs] c] i D b a s R; cbn in R; tauto. Qed.

Lemma repc_ext : forall h h' c i D b a s, (forall j, In j (cids c) -> core (h' j) = core (h j)) -> repc h c i D b a s -> repc h' c i D b a s.
Proof.
  intros h h'. induction c as [|[[p ls] rs] c IH]; intros i D b a s E R; [exact R|]. cbn [repc cids] in *.
  pose proof (E p ltac:(cbn; auto)) as Ep. unfold core in Ep. injection Ep as E1 E2 E3 E4 E5 E6.
  rewrite E1, E3, E4, E5, E6. destruct R as (R1 & R2 & R3 & R4 & R5 & R6 & R7 & R8). repeat split; auto.
  - eapply reps_ext; [|exact R6]. intros j Hj. apply E. right. apply in_or_app; auto.
  - eapply reps_ext; [|exact R7]. intros j Hj. apply E. right. apply in_or_app; right. apply in_or_app; auto.
  - apply IH; [|exact R8]. intros j Hj. apply E. right. apply in_or_app; right. apply in_or_app; auto.
Qed.

Lemma ids_plug : forall c t j, In j (ids (plug c t)) <-> In j (ids t) \/ In j (cids c).
Proof.
  induction c as [|[[p ls] rs] c IH]; intros t j; cbn [plug cids]; [cbn; tauto|]. rewrite IH, ids_N.
  rewrite flat_map_app. cbn [flat_map In]. rewrite !in_app_iff. cbn [In]. rewrite ?in_app_iff. tauto.
Qed.
From Coq Require Import Permutation.
Lemma ids_plug_perm : forall c t, Permutation (ids (plug c t)) (ids t ++ cids c).
Proof.
  induction c as [|[[p ls] rs] c IH]; intros t; cbn [plug cids]; [rewrite app_nil_r; reflexivity|].
  rewrite IH, ids_N, flat_map_app. cbn [flat_map app]. rewrite <- Permutation_middle. constructor. rewrite !app_assoc.
  apply Permutation_app_tail. apply Permutation_app_tail. apply Permutation_app_comm.
Qed.

(** ** _updateDimension. *)
Definition updBody (l : nat) (s : oid) (new old : Z) (q : oid) : M unit :=
        iq <- look (fun h => ind h q) ;;
        is <- look (fun h => ind h s) ;;
        (if Nat.ltb iq is then
           y <- get q ;; w <- lift (intdiv (dA y * new) old) ;; setAB l false q w
         else ret tt) ;;;
        iq' <- look (fun h => ind h q) ;;
        is' <- look (fun h => ind h s) ;;
        (if Nat.ltb is' iq' then
           y <- get q ;; w <- lift (intdiv (dB y * new) old) ;; setAB l true q w
         else ret tt).
Lemma updateDimension_S : forall l p s new old, updateDimension (S l) p s new old =
  (x <- get p ;; for_ (subs x) (updBody l s new old) ;;;
   y <- get p ;; match sup y with None => ret tt | Some g => updateDimension l g p new old end).
Proof. reflexivity. Qed.

Lemma index_l : forall q l l', In q l -> exists n, index q (l ++ l') = Ok n /\ (n < List.length l)%nat.
Proof.
  induction l as [|j l IH]; intros l' H; [contradiction|]. cbn [app index]. destruct (Nat.eqb_spec q j) as [->|E].
  - exists O. cbn. split; [reflexivity|lia].
  - destruct H as [->|H]; [contradiction|]. destruct (IH l' H) as (n & Hn & Hl). exists (S n). rewrite Hn. cbn. split; [reflexivity|lia].
Qed.
Lemma index_r : forall q l l', ~ In q l -> index q (l ++ l') = bind (index q l') (fun n => Ok (List.length l + n)%nat).
Proof.
  induction l as [|j l IH]; intros l' H; cbn [app index List.length].
  - destruct (index q l'); reflexivity.
  - destruct (Nat.eqb_spec q j) as [->|E]; [exfalso; apply H; now left|]. rewrite IH by (intro; apply H; now right).
    destruct (index q l'); reflexivity.
Qed.

Lemma for_app : forall X (l l' : list X) (f : X -> M unit) h h', for_ l f h = (h', Ok tt) -> for_ (l ++ l') f h = for_ l' f h'.
Proof.
  induction l as [|x l IH]; intros l' f h h' H; cbn [for_ app] in *.
  - injection H as ->. reflexivity.
  - unfold mbind in *. destruct (f x h) as [h1 [[]|]]; [|discriminate]. now apply IH.
Qed.

Section Upd.
  Variables (l : nat) (s p : oid) (new old : Z) (ls rs : list oid).
  Hypothesis (Hnew : 0 < new) (Hold : 0 < old).
  Definition placedIn (h : heap) := sup (h s) = Some p /\ subs (h p) = ls ++ s :: rs.
  Hypothesis ND : NoDup (ls ++ s :: rs).
  Lemma placedIn_shape : forall h h', placedIn h -> shape h h' -> placedIn h'.
  Proof. intros h h' [A B] Sh. split; [destruct (Sh s) as (_ & _ & E & _)|destruct (Sh p) as (_ & E & _)]; congruence. Qed.
  Lemma ind_s : forall h, placedIn h -> ind h s = Ok (List.length ls).
  Proof.
    intros h [A B]. unfold ind. rewrite A, B, index_r.
    - cbn [index]. rewrite Nat.eqb_refl. cbn. now rewrite Nat.add_0_r.
    - apply NoDup_remove_2 in ND. intro. apply ND. apply in_or_app; auto.
  Qed.
  Lemma ind_l : forall h q, placedIn h -> sup (h q) = Some p -> In q ls -> exists n, ind h q = Ok n /\ (n < List.length ls)%nat.
  Proof. intros h q [A B] Hq Hin. unfold ind. rewrite Hq, B. now apply index_l. Qed.
  Lemma ind_r : forall h q, placedIn h -> sup (h q) = Some p -> In q rs -> exists n, ind h q = Ok n /\ (List.length ls < n)%nat.
  Proof.
    intros h q [A B] Hq Hin. unfold ind. rewrite Hq, B.
    assert (Hn : ~ In q (ls ++ [s])).
    { replace (ls ++ s :: rs) with ((ls ++ [s]) ++ rs) in ND by (now rewrite <- app_assoc).
      apply NoDup_app_disj in ND. destruct ND as (_ & _ & D). intro. eauto. }
    replace (ls ++ s :: rs) with ((ls ++ [s]) ++ rs) by (now rewrite <- app_assoc).
    rewrite index_r by exact Hn. destruct (index_l q rs [] Hin) as (n & E & _). rewrite app_nil_r in E. rewrite E. cbn.
    eexists. split; [reflexivity|]. rewrite app_length. cbn. lia.
  Qed.
  Lemma upd_left : forall h q w h', placedIn h -> sup (h q) = Some p -> In q ls ->
    intdiv (dA (h q) * new) old = Ok w -> setAB l false q w h = (h', Ok tt) -> shape h h' ->
    updBody l s new old q h = (h', Ok tt).
  Proof.
    intros h q w h' Hp Hq Hin Hw Hs Sh. destruct (ind_l h q Hp Hq Hin) as (n & Hn & Ln).
    assert (Hp' := placedIn_shape _ _ Hp Sh). assert (Hq' : sup (h' q) = Some p) by (destruct (Sh q) as (_ & _ & E & _); congruence).
    destruct (ind_l h' q Hp' Hq' Hin) as (n' & Hn' & Ln').
    unfold updBody, look, mbind at 1. rewrite Hn. unfold mbind at 1. rewrite (ind_s h Hp).
    destruct (Nat.ltb_spec n (List.length ls)); [|lia]. unfold mbind at 1. rewrite get_step. unfold lift, mbind at 1. rewrite Hw, Hs.
    unfold mbind at 1. rewrite Hn'. unfold mbind at 1. rewrite (ind_s h' Hp').
    destruct (Nat.ltb_spec (List.length ls) n'); [lia|reflexivity].
  Qed.
  Lemma upd_right : forall h q w h', placedIn h -> sup (h q) = Some p -> In q rs ->
    intdiv (dB (h q) * new) old = Ok w -> setAB l true q w h = (h', Ok tt) ->
    updBody l s new old q h = (h', Ok tt).
  Proof.
    intros h q w h' Hp Hq Hin Hw Hs. destruct (ind_r h q Hp Hq Hin) as (n & Hn & Ln).
    unfold updBody, look, mbind at 1. rewrite Hn. unfold mbind at 1. rewrite (ind_s h Hp).
    destruct (Nat.ltb_spec n (List.length ls)); [lia|]. unfold mbind at 1, ret at 1.
    unfold mbind at 1. rewrite Hn. unfold mbind at 1. rewrite (ind_s h Hp).
    destruct (Nat.ltb_spec (List.length ls) n); [|lia]. rewrite get_step. unfold lift, mbind. rewrite Hw. exact Hs.
  Qed.
  Lemma upd_self : forall h, placedIn h -> updBody l s new old s h = (h, Ok tt).
  Proof.
    intros h Hp. unfold updBody, look, mbind. rewrite (ind_s h Hp). rewrite Nat.ltb_irrefl. cbv beta iota zeta delta [ret]. rewrite (ind_s h Hp). rewrite ?Nat.ltb_irrefl. reflexivity.
  Qed.

  Lemma loop_left : forall ts h b K, placedIn h -> reps h p (K * old) b ts -> incl (map rt ts) ls -> NoDup (flat_map ids ts) ->
    (depths ts <= l)%nat -> 0 < K -> 0 < b -> K * new * tdims ts < 2 ^ 53 ->
    exists h', for_ (map rt ts) (updBody l s new old) h = (h', Ok tt) /\ reps h' p (K * new) b ts /\
      (forall j, ~ In j (flat_map ids ts) -> h' j = h j) /\ shape h h'.
  Proof.
    induction ts as [|t ts IH]; intros h b K Hp R Hin ND' Hl HK Hb Hbig.
    { exists h. cbn. repeat split; auto. }
    cbn [reps] in R. destruct R as [Rt Rts]. cbn [flat_map] in ND'. apply NoDup_app_disj in ND'. destruct ND' as (ND1 & ND2 & Dis).
    cbn [depths fold_right] in Hl. fold (depths ts) in Hl.
    pose proof (tdim_pos _ _ _ _ _ Rt) as Pt. pose proof (tdims_pos _ _ _ _ _ Rts) as Pts. rewrite tdims_cons in Hbig.
    set (w := K * new * tdims ts). assert (Hw : 0 < w) by (unfold w; nia).
    assert (Hwb : w * tdim t < 2 ^ 53) by (unfold w; nia).
    destruct (rep_root _ _ _ _ _ Rt) as (E1 & E2 & E3 & _).
    assert (Hdiv : intdiv (dA (h (rt t)) * new) old = Ok w).
    { rewrite E2. replace (K * old * tdims ts * new) with (w * old) by (unfold w; ring). apply intdiv_exact; [assumption|nia]. }
    destruct (setAB_rep t false l h (Some p) b (K * old * tdims ts) w Rt ND1) as (h1 & S1 & R1 & O1 & Sh1); [lia|lia|nia|exact Hw|exact Hwb|].
    cbn [pick] in R1.
    assert (Pin1 := placedIn_shape _ _ Hp Sh1).
    assert (Hin1 : incl (map rt ts) ls) by (intros j Hj; apply Hin; cbn; auto).
    assert (Rts1 : reps h1 p (K * old) (b * tdim t) ts).
    { eapply reps_ext; [|eassumption]. intros j Hj. rewrite O1; [reflexivity|]. intro. eauto. }
    destruct (IH h1 (b * tdim t) K Pin1 Rts1 Hin1 ND2) as (h2 & S2 & R2 & O2 & Sh2); [lia|lia|nia|nia|].
    exists h2. split; [|split; [|split]].
    - cbn [map for_]. rewrite (mbind_ok _ _ _ _ _ _ _ (upd_left h (rt t) w h1 Hp E3 ltac:(apply Hin; cbn; auto) Hdiv S1 Sh1)). exact S2.
    - cbn [reps]. split; [|exact R2]. eapply rep_ext; [|exact R1]. intros j Hj. rewrite O2; [reflexivity|]. intro. eauto.
    - intros j Hj. cbn [flat_map] in Hj. rewrite O2 by (intro; apply Hj; apply in_or_app; auto).
      apply O1. intro. apply Hj. apply in_or_app; auto.
    - eapply shape_trans; eauto.
  Qed.
  Lemma loop_right : forall ts h a K, placedIn h -> reps h p a (K * old) ts -> incl (map rt ts) rs -> NoDup (flat_map ids ts) ->
    (depths ts <= l)%nat -> 0 < K -> 0 < a -> K * new * tdims ts < 2 ^ 53 ->
    exists h', for_ (map rt ts) (updBody l s new old) h = (h', Ok tt) /\ reps h' p a (K * new) ts /\
      (forall j, ~ In j (flat_map ids ts) -> h' j = h j) /\ shape h h'.
  Proof.
    induction ts as [|t ts IH]; intros h a K Hp R Hin ND' Hl HK Ha Hbig.
    { exists h. cbn. repeat split; auto. }
    cbn [reps] in R. destruct R as [Rt Rts]. cbn [flat_map] in ND'. apply NoDup_app_disj in ND'. destruct ND' as (ND1 & ND2 & Dis).
    cbn [depths fold_right] in Hl. fold (depths ts) in Hl.
    pose proof (tdim_pos _ _ _ _ _ Rt) as Pt. pose proof (tdims_pos _ _ _ _ _ Rts) as Pts. rewrite tdims_cons in Hbig.
    set (w := K * new). assert (Hw : 0 < w) by (unfold w; nia).
    assert (Hwb : w * tdim t < 2 ^ 53) by (unfold w; nia).
    destruct (rep_root _ _ _ _ _ Rt) as (E1 & E2 & E3 & _).
    assert (Hdiv : intdiv (dB (h (rt t)) * new) old = Ok w).
    { rewrite E1. replace (K * old * new) with (w * old) by (unfold w; ring). apply intdiv_exact; [assumption|nia]. }
    destruct (setAB_rep t true l h (Some p) (K * old) (a * tdims ts) w Rt ND1) as (h1 & S1 & R1 & O1 & Sh1); [lia|nia|nia|exact Hw|exact Hwb|].
    cbn [pick] in R1.
    assert (Pin1 := placedIn_shape _ _ Hp Sh1).
    assert (Hin1 : incl (map rt ts) rs) by (intros j Hj; apply Hin; cbn; auto).
    assert (Rts1 : reps h1 p a (K * tdim t * old) ts).
    { replace (K * tdim t * old) with (K * old * tdim t) by ring. eapply reps_ext; [|eassumption]. intros j Hj. rewrite O1; [reflexivity|]. intro. eauto. }
    destruct (IH h1 a (K * tdim t) Pin1 Rts1 Hin1 ND2) as (h2 & S2 & R2 & O2 & Sh2); [lia|nia|lia|nia|].
    exists h2. split; [|split; [|split]].
    - cbn [map for_]. rewrite (mbind_ok _ _ _ _ _ _ _ (upd_right h (rt t) w h1 Hp E3 ltac:(apply Hin; cbn; auto) Hdiv S1)). exact S2.
    - cbn [reps]. split.
      + eapply rep_ext; [|exact R1]. intros j Hj. rewrite O2; [reflexivity|]. intro. eauto.
      + replace (w * tdim t) with (K * tdim t * new) by (unfold w; ring). exact R2.
    - intros j Hj. cbn [flat_map] in Hj. rewrite O2 by (intro; apply Hj; apply in_or_app; auto).
      apply O1. intro. apply Hj. apply in_or_app; auto.
    - eapply shape_trans; eauto.
  Qed.
End Upd.

Lemma NoDup_rts : forall ts, NoDup (flat_map ids ts) -> NoDup (map rt ts).
Proof.
  induction ts as [|t ts IH]; intros H; [constructor|]. cbn [flat_map map] in *. apply NoDup_app_disj in H. destruct H as (A & B & C).
  constructor; auto. intro Hin. apply in_map_iff in Hin. destruct Hin as (u & E & Hu). apply (C (rt t)); [apply rt_in|].
  apply in_flat_map. exists u. split; [assumption|]. rewrite <- E. apply rt_in.
Qed.
Lemma rts_in_ids : forall ts j, In j (map rt ts) -> In j (flat_map ids ts).
Proof. intros ts j H. apply in_map_iff in H. destruct H as (u & <- & Hu). apply in_flat_map. exists u. split; auto. apply rt_in. Qed.

Lemma updateDimension_ctx : forall c p ls rs lim h i x old new b a s,
  repc h ((p, ls, rs) :: c) i (x * old) b a s -> sup (h i) = Some p -> NoDup (i :: cids ((p, ls, rs) :: c)) ->
  (List.length c + 1 + cdepth ((p, ls, rs) :: c) <= lim)%nat ->
  0 < x -> 0 < old -> 0 < new -> x * new * cfac ((p, ls, rs) :: c) < 2 ^ 53 ->
  exists h', updateDimension lim p i new old h = (h', Ok tt) /\ repc h' ((p, ls, rs) :: c) i (x * new) b a s /\
    (forall j, ~ In j (cids ((p, ls, rs) :: c)) -> h' j = h j) /\ shape h h'.
Proof.
  induction c as [|[[p' ls'] rs'] c IH]; intros p ls rs lim h i x old new b a s R Hsup ND Hlim Hx Hold Hnew Hbig.
  all: pose proof R as R0; rewrite repc_cons in R; destruct R as (-> & Rc & Rs & -> & -> & Rl & Rr & Rout).
  all: destruct lim as [|l]; [cbn in Hlim; lia|].
  all: apply NoDup_cons_iff in ND; destruct ND as [Ni ND]; rewrite cids_cons in ND, Ni; apply NoDup_cons_iff in ND; destruct ND as [Np ND].
  all: apply NoDup_app_disj in ND; destruct ND as (NDl & ND & Dl); apply NoDup_app_disj in ND; destruct ND as (NDr & NDo & Dr).
  all: pose proof (tdims_pos _ _ _ _ _ Rl) as Pl; pose proof (tdims_pos _ _ _ _ _ Rr) as Pr.
  all: pose proof (repc_pos _ _ _ _ _ _ _ Rout) as (Pb & Pa & Pba); pose proof (repc_cfac_pos _ _ _ _ _ _ _ Rout) as Pf.
  all: assert (NDs : NoDup (map rt ls ++ i :: map rt rs)).
  1,3: apply NoDup_rts in NDl; pose proof (NoDup_rts _ NDr) as NDr';
    apply (Permutation_NoDup (l := i :: map rt ls ++ map rt rs)); [apply Permutation_middle|]; constructor;
    [intro Hin; apply Ni; right; apply in_app_iff in Hin; destruct Hin as [Hin|Hin]; apply rts_in_ids in Hin; rewrite !in_app_iff; auto
    |clear - NDl NDr' Dl; assert (D : forall j, In j (map rt ls) -> In j (map rt rs) -> False) by (intros j Ha Hb; apply (Dl j); [now apply rts_in_ids|apply in_or_app; left; now apply rts_in_ids]);
     clear Dl; induction (map rt ls) as [|u us IHu]; [assumption|]; inversion NDl; subst; cbn; constructor;
     [rewrite in_app_iff; intros [Hu|Hu]; [contradiction|apply (D u); cbn; auto]|apply IHu; auto; intros j Ha; apply D; now right]].
  all: assert (Pin : placedIn i p (map rt ls) (map rt rs) h) by (split; assumption).
  all: rewrite cfac_cons in Hbig; cbn [cdepth List.length] in Hlim.
  all: assert (Py : 0 < x * new * (tdims ls * tdims rs)) by nia.
  all: rewrite Z.mul_assoc in Hbig.
  all: assert (Hbl : dA (h p) * x * tdims rs * new * tdims ls < 2 ^ 53)
    by (replace (dA (h p) * x * tdims rs * new * tdims ls) with (x * new * (tdims ls * tdims rs) * dA (h p)) by ring; revert Py Hbig; generalize (x * new * (tdims ls * tdims rs)); intros; nia).
  all: destruct (loop_left l i p new old (map rt ls) (map rt rs) Hnew Hold NDs ls h (dB (h p)) (dA (h p) * x * tdims rs) Pin) as (h1 & S1 & R1 & O1 & Sh1);
    [replace (dA (h p) * x * tdims rs * old) with (dA (h p) * (x * old * tdims rs)) by ring; exact Rl|apply incl_refl|exact NDl|lia|nia|lia|exact Hbl|].
  all: assert (Pin1 := placedIn_shape i p (map rt ls) (map rt rs) _ _ Pin Sh1).
  all: assert (Hbr : dB (h p) * tdims ls * x * new * tdims rs < 2 ^ 53)
    by (replace (dB (h p) * tdims ls * x * new * tdims rs) with (x * new * (tdims ls * tdims rs) * dB (h p)) by ring; revert Py Hbig; generalize (x * new * (tdims ls * tdims rs)); intros; nia).
  all: destruct (loop_right l i p new old (map rt ls) (map rt rs) Hnew Hold NDs rs h1 (dA (h p)) (dB (h p) * tdims ls * x) Pin1) as (h2 & S2 & R2 & O2 & Sh2);
    [replace (dB (h p) * tdims ls * x * old) with (dB (h p) * tdims ls * (x * old)) by ring; eapply reps_ext; [|exact Rr]; intros j Hj; rewrite O1; [reflexivity|]; intro; apply (Dl j); [assumption|apply in_or_app; auto]
    |apply incl_refl|exact NDr|lia|nia|lia|exact Hbr|].
  all: assert (Sh : shape h h2) by (eapply shape_trans; eauto).
  all: assert (Hloop : for_ (subs (h p)) (updBody l i new old) h = (h2, Ok tt))
    by (rewrite Rs; rewrite (for_app _ _ _ _ _ _ S1); cbn [for_]; rewrite (mbind_ok _ _ _ _ _ _ _ (upd_self l i p new old (map rt ls) (map rt rs) NDs h1 Pin1)); exact S2).
  all: assert (E2 : h2 p = h p) by (rewrite O2 by (intro; apply Np; rewrite !in_app_iff; auto); apply O1; intro; apply Np; rewrite !in_app_iff; auto).
  all: assert (Rl2 : reps h2 p (dA (h p) * (x * new * tdims rs)) (dB (h p)) ls) by
    (replace (dA (h p) * (x * new * tdims rs)) with (dA (h p) * x * tdims rs * new) by ring; eapply reps_ext; [|exact R1]; intros j Hj; rewrite O2; [reflexivity|]; intro; apply (Dl j); [assumption|apply in_or_app; auto]).
  all: assert (Rr2 : reps h2 p (dA (h p)) (dB (h p) * tdims ls * (x * new)) rs) by
    (replace (dB (h p) * tdims ls * (x * new)) with (dB (h p) * tdims ls * x * new) by ring; exact R2).
  - (* the root *)
    cbn [repc] in Rout. destruct Rout as (Ob & Oa & Os).
    exists h2. split; [|split; [|split]]; auto.
    + rewrite updateDimension_S, get_step, (mbind_ok _ _ _ _ _ _ _ Hloop), get_step, E2, Os. reflexivity.
    + cbn [repc]. rewrite E2. repeat split; auto.
    + intros j Hj. cbn [cids] in Hj. rewrite O2 by (intro; apply Hj; right; rewrite !in_app_iff; auto).
      apply O1. intro. apply Hj. right. rewrite !in_app_iff. auto.
  - pose proof (repc_sup _ _ _ _ _ _ _ Rout) as Es.
    assert (Rout2 : repc h2 ((p', ls', rs') :: c) p (tdims ls * x * tdims rs * old) (dB (h p)) (dA (h p)) (sup (h p))).
    { replace (tdims ls * x * tdims rs * old) with (tdims ls * (x * old) * tdims rs) by ring. eapply repc_ext; [|exact Rout].
      intros j Hj. rewrite O2, O1; [reflexivity| |].
      - intro. apply (Dl j); [assumption|apply in_or_app; auto].
      - intro. apply (Dr j); assumption. }
    assert (Hs2 : sup (h2 p) = Some p') by (rewrite E2; exact Es).
    assert (ND2 : NoDup (p :: cids ((p', ls', rs') :: c))) by (constructor; [intro; apply Np; rewrite !in_app_iff; auto|exact NDo]).
    assert (Hb2 : tdims ls * x * tdims rs * new * cfac ((p', ls', rs') :: c) < 2 ^ 53).
    { replace (tdims ls * x * tdims rs * new * cfac ((p', ls', rs') :: c)) with (x * new * (tdims ls * tdims rs) * cfac ((p', ls', rs') :: c)) by ring. exact Hbig. }
    destruct (IH p' ls' rs' l h2 p (tdims ls * x * tdims rs) old new _ _ _ Rout2 Hs2 ND2) as (h3 & S3 & R3 & O3 & Sh3); auto.
    { cbn [cdepth List.length]. lia. }
    { nia. }
    assert (E3 : h3 p = h p) by (rewrite O3; [exact E2|]; intro; apply Np; rewrite !in_app_iff; auto).
    exists h3. split; [|split; [|split]].
    + rewrite updateDimension_S, get_step, (mbind_ok _ _ _ _ _ _ _ Hloop), get_step, E2, Es. exact S3.
    + rewrite repc_cons, E3. split; [reflexivity|]. split; [exact Rc|]. split; [exact Rs|]. split; [reflexivity|]. split; [reflexivity|].
      split; [|split].
      * eapply reps_ext; [|exact Rl2]. intros j Hj. rewrite O3; [reflexivity|]. intro. apply (Dl j); [assumption|apply in_or_app; auto].
      * eapply reps_ext; [|exact Rr2]. intros j Hj. rewrite O3; [reflexivity|]. intro. apply (Dr j); assumption.
      * replace (tdims ls * (x * new) * tdims rs) with (tdims ls * x * tdims rs * new) by ring. exact R3.
    + intros j Hj. rewrite cids_cons in Hj.
      rewrite O3 by (intro; apply Hj; right; rewrite !in_app_iff; auto).
      rewrite O2 by (intro; apply Hj; right; rewrite !in_app_iff; auto). apply O1. intro; apply Hj; right; rewrite !in_app_iff; auto.
    + eapply shape_trans; eauto.
Qed.

(** ** Paths and places. *)
Lemma repc_ba : forall h c i D b a s, repc h c i D b a s -> b * a = cfac c.
Proof.
  induction c as [|[[p ls] rs] c IH]; intros i D b a s R.
  - cbn in R. destruct R as (-> & -> & _). reflexivity.
  - rewrite repc_cons in R. destruct R as (_ & _ & _ & -> & -> & _ & _ & R). apply IH in R. rewrite cfac_cons, <- R. ring.
Qed.
Lemma depth_plug : forall c t, (List.length c + depth t <= depth (plug c t))%nat /\ (cdepth c <= depth (plug c t))%nat.
Proof.
  induction c as [|[[p ls] rs] c IH]; intros t; cbn [plug List.length cdepth]; [lia|].
  specialize (IH (N p (ls ++ t :: rs))). rewrite depth_N in IH.
  assert (A : (depth t <= depths (ls ++ t :: rs))%nat /\ (depths ls <= depths (ls ++ t :: rs))%nat /\ (depths rs <= depths (ls ++ t :: rs))%nat).
  { clear. induction ls as [|u ls IHl]; cbn [app depths fold_right]; fold (depths rs).
    - lia.
    - fold (depths ls). fold (depths (ls ++ t :: rs)). lia. }
  lia.
Qed.
Lemma depths_app : forall l l', depths (l ++ l') = Nat.max (depths l) (depths l').
Proof. induction l; intros; [reflexivity|]. unfold depths in *. cbn [app fold_right]. rewrite IHl. lia. Qed.
Lemma depths_cons : forall t l, depths (t :: l) = Nat.max (depth t) (depths l). Proof. reflexivity. Qed.
Lemma depth_plug_le : forall c t t', (depth t' <= depth t)%nat -> (depth (plug c t') <= depth (plug c t))%nat.
Proof.
  induction c as [|[[p ls] rs] c IH]; intros t t' H; cbn [plug]; [assumption|]. apply IH. rewrite !depth_N, !depths_app, !depths_cons. lia.
Qed.
Lemma rt_plug : forall c t t', rt t' = rt t -> rt (plug c t') = rt (plug c t).
Proof. induction c as [|[[p ls] rs] c IH]; intros t t' H; cbn [plug]; [assumption|]. now apply IH. Qed.
Lemma plug_app : forall c c' t, plug (c ++ c') t = plug c' (plug c t).
Proof. induction c as [|[[p ls] rs] c IH]; intros c' t; cbn [plug app]; [reflexivity|]. apply IH. Qed.
Lemma in_plug : forall T i, In i (ids T) -> exists c t, T = plug c t /\ rt t = i.
Proof.
  induction T as [j d|j ts IH] using tree_ind'; intros i H.
  - exists [], (L j d). cbn in H. destruct H as [->|[]]. split; reflexivity.
  - rewrite ids_N in H. destruct H as [->|H]; [exists [], (N i ts); split; reflexivity|].
    apply in_flat_map in H. destruct H as (u & Hu & Hi). rewrite Forall_forall in IH. destruct (IH u Hu i Hi) as (c & t & E & R).
    apply in_split in Hu. destruct Hu as (l1 & l2 & ->). exists (c ++ [(j, l1, l2)]), t. split; [|assumption].
    rewrite plug_app. cbn [plug]. now rewrite <- E.
Qed.

Scheme has_dim_mut := Induction for has_dim Sort Prop
with has_dims_mut := Induction for has_dims Sort Prop.
Lemma rep_has_dim : forall h t s b a, rep h s b a t -> has_dim h (rt t) (tdim t).
Proof.
  intros h. induction t as [i d|i ts IH] using tree_ind'; intros s b a R.
  - cbn [rep] in R. destruct R as (R1 & _ & R3 & _). cbn [rt tdim]. rewrite <- R3. now constructor.
  - rewrite rep_N in R. destruct R as (R1 & R2 & _ & _ & _ & R). cbn [rt]. rewrite tdim_N. constructor; [assumption|]. rewrite R2. clear R1 R2.
    revert b R. induction ts as [|t ts IHt]; intros b R; [constructor|]. cbn [reps] in R. destruct R as [Ra Rb]. inversion IH; subst.
    cbn [map]. rewrite tdims_cons. constructor; eauto.
Qed.
Lemma reps_has_dims : forall h i a ts b, reps h i a b ts -> has_dims h (map rt ts) (tdims ts).
Proof.
  induction ts as [|t ts IH]; intros b R; [constructor|]. cbn [reps] in R. destruct R as [Ra Rb]. cbn [map]. rewrite tdims_cons. constructor; eauto using rep_has_dim.
Qed.
Lemma has_dim_fun : forall h t s b a d, rep h s b a t -> has_dim h (rt t) d -> d = tdim t.
Proof.
  intros h. induction t as [i d0|i ts IH] using tree_ind'; intros s b a d R H.
  - cbn [rep] in R. destruct R as (R1 & _ & R3 & _). cbn [rt tdim] in *. inversion H; subst; [reflexivity|congruence].
  - rewrite rep_N in R. destruct R as (R1 & R2 & _ & _ & _ & R). cbn [rt] in H. inversion H as [? Hc|? ? Hc Hd]; subst; [congruence|].
    rewrite R2 in Hd. rewrite tdim_N. clear R1 R2 H Hc. revert b R d Hd. induction ts as [|t ts IHt]; intros b R d Hd.
    + inversion Hd. reflexivity.
    + cbn [reps] in R. destruct R as [Ra Rb]. inversion IH; subst. cbn [map] in Hd. inversion Hd; subst. rewrite tdims_cons.
      f_equal; eauto.
Qed.
Lemma has_dims_fun : forall h i a ts b d, reps h i a b ts -> has_dims h (map rt ts) d -> d = tdims ts.
Proof.
  induction ts as [|t ts IH]; intros b d R H; cbn [map] in H; inversion H; subst; [reflexivity|].
  cbn [reps] in R. destruct R. rewrite tdims_cons. f_equal; eauto using has_dim_fun.
Qed.

Lemma placed_ctx : forall h T, rep h None 1 1 T -> forall s b a, placed h (rt T) s b a ->
  exists c t sp, T = plug c t /\ rt t = s /\ repc h c s (tdim t) b a sp /\ rep h sp b a t.
Proof.
  intros h T R s b a P. induction P as [|p b a l s l' bl al P IH Hc Hs Hl Hl'].
  - exists [], T, None. cbn [plug repc]. tauto.
  - destruct IH as (c & t & sp & E & Et & Rc & Rt). destruct t as [i d|i ts]; cbn [rt] in Et; subst i.
    { cbn [rep] in Rt. destruct Rt as [Rt _]. congruence. }
    rewrite rep_N in Rt. destruct Rt as (R1 & R2 & R3 & R4 & R5 & R6).
    rewrite R2 in Hs. apply map_eq_app in Hs. destruct Hs as (ls & rest & -> & El & Er).
    destruct rest as [|u rs]; [discriminate|]. cbn [map] in Er. injection Er as Eu Er. subst s l l'.
    apply reps_app in R6. destruct R6 as [R6 R7]. cbn [reps] in R7. destruct R7 as [R7 R8].
    rewrite (has_dims_fun _ _ _ _ _ _ R6 Hl). rewrite (has_dims_fun _ _ _ _ _ _ R8 Hl').
    exists ((p, ls, rs) :: c), u, (Some p). cbn [plug]. split; [assumption|]. split; [reflexivity|]. split; [|exact R7].
    rewrite repc_cons. rewrite R3, R4, R5. rewrite map_app in R2. rewrite tdims_cons in R6. rewrite tdim_N, tdims_app, tdims_cons in Rc.
    cbn [rt] in Rc. replace (tdims ls * tdim u * tdims rs) with (tdims ls * (tdim u * tdims rs)) by ring. repeat split; auto.
Qed.
Lemma ctx_placed : forall h c t s b a, repc h c (rt t) (tdim t) b a s -> rep h s b a t -> placed h (rt (plug c t)) (rt t) b a.
Proof.
  induction c as [|[[p ls] rs] c IH]; intros t s b a Rc Rt.
  - cbn in Rc. destruct Rc as (-> & -> & _). constructor.
  - pose proof Rc as Rc0. rewrite repc_cons in Rc. destruct Rc as (-> & Hc & Hs & -> & -> & Rl & Rr & Ro). cbn [plug].
    assert (RN : rep h (sup (h p)) (dB (h p)) (dA (h p)) (N p (ls ++ t :: rs))).
    { rewrite rep_N, map_app. cbn [map]. repeat split; auto. apply reps_app. rewrite tdims_cons. split; [exact Rl|]. cbn [reps]. auto. }
    assert (E : tdims ls * tdim t * tdims rs = tdim (N p (ls ++ t :: rs))) by (rewrite tdim_N, tdims_app, tdims_cons; ring).
    rewrite E in Ro. apply (IH (N p (ls ++ t :: rs))) in Ro; [|assumption]. cbn [rt] in Ro.
    eapply P_sub; [exact Ro|exact Hc|exact Hs| |]; eapply reps_has_dims; eassumption.
Qed.
Lemma rep_booked : forall h T, rep h None 1 1 T -> booked h (rt T).
Proof.
  intros h T R. split; [eexists; eapply rep_has_dim; eassumption|].
  intros s b a P. destruct (placed_ctx _ _ R _ _ _ P) as (c & t & sp & _ & <- & _ & Rt). apply rep_root in Rt. tauto.
Qed.

(** ** The invariant: every system belongs to exactly one tree. *)
Definition Inv (lim : nat) (h : heap) (own : oid -> oid) (F : oid -> tree) : Prop :=
  (forall i, own (own i) = own i) /\
  (forall r, own r = r -> rt (F r) = r /\ rep h None 1 1 (F r) /\ NoDup (ids (F r)) /\ (2 * depth (F r) <= lim)%nat /\
     tdim (F r) < 2 ^ 53 /\ forall i, In i (ids (F r)) <-> own i = r) /\
  (forall i qs ps, In (TMulti qs ps) (terms (h i)) -> List.length qs = List.length ps).
Definition WF (lim : nat) (h : heap) : Prop := exists own F, Inv lim h own F.

Lemma Inv_path : forall lim h own F i, Inv lim h own F -> exists c t b a s,
  F (own i) = plug c t /\ rt t = i /\ repc h c i (tdim t) b a s /\ rep h s b a t /\ NoDup (ids t ++ cids c).
Proof.
  intros lim h own F i (I1 & I2 & _). destruct (I2 (own i) (I1 i)) as (A & B & C & D & E & G).
  destruct (in_plug (F (own i)) i) as (c & t & Ep & Er). { now apply G. }
  rewrite Ep in B. apply plug_rep in B. destruct B as (b & a & s & Rc & Rt). exists c, t, b, a, s. rewrite Er in Rc. repeat split; auto.
  eapply Permutation_NoDup; [apply ids_plug_perm|]. rewrite <- Ep. exact C.
Qed.
Lemma root_own : forall lim h own F r, Inv lim h own F -> (root h r <-> own r = r).
Proof.
  intros lim h own F r I. split.
  - intros Hr. destruct (Inv_path _ _ _ _ r I) as (c & t & b & a & s & E & Er & Rc & Rt & _).
    apply rep_root in Rt. rewrite Er in Rt. destruct Rt as (_ & _ & Rs & _). unfold root in Hr. rewrite Hr in Rs. subst s.
    apply repc_sup in Rc. destruct c as [|[[p ls] rs] c]; [|discriminate]. cbn [plug] in E.
    destruct I as (I1 & I2 & _). destruct (I2 (own r) (I1 r)) as (A & _). rewrite E, Er in A. auto.
  - intros Hr. destruct I as (I1 & I2 & _). destruct (I2 r Hr) as (A & B & _). apply rep_root in B. rewrite A in B. unfold root. tauto.
Qed.
Lemma Inv_booked : forall lim h, WF lim h -> forall r, root h r -> booked h r.
Proof.
  intros lim h (own & F & I) r Hr. pose proof (proj1 (root_own _ _ _ _ r I) Hr) as Hr'. destruct I as (I1 & I2 & _).
  destruct (I2 r Hr') as (A & B & _). rewrite <- A. now apply rep_booked.
Qed.
Lemma Inv_ext : forall lim h h' own F, Inv lim h own F -> (forall j, core (h' j) = core (h j)) ->
  (forall i qs ps, In (TMulti qs ps) (terms (h' i)) -> List.length qs = List.length ps) -> Inv lim h' own F.
Proof.
  intros lim h h' own F (I1 & I2 & _) E T. repeat split; auto; try (now apply I2); try (intros; now apply (I2 _ H)).
  eapply rep_ext; [|now apply I2]. auto.
Qed.

(** ** The dimension setter. *)
Lemma hasConsistent_ext : forall lim h h' i d, (forall j, terms (h' j) = terms (h j) /\ sup (h' j) = sup (h j)) ->
  hasConsistent lim h' i d = hasConsistent lim h i d.
Proof.
  induction lim as [|l IH]; intros h h' i d E; [reflexivity|]. cbn [hasConsistent]. destruct (E i) as [-> ->].
  destruct (terms (h i)); [|reflexivity]. destruct (sup (h i)); [|reflexivity]. now apply IH.
Qed.
Definition frozen (h h' : heap) : Prop := forall j, isComp (h' j) = isComp (h j) /\ subs (h' j) = subs (h j) /\
  sup (h' j) = sup (h j) /\ terms (h' j) = terms (h j).
Lemma shape_frozen : forall h h', shape h h' -> frozen h h'.
Proof. intros h h' Sh j. pose proof (shape_isComp _ _ j Sh). specialize (Sh j). tauto. Qed.
Lemma frozen_trans : forall h1 h2 h3, frozen h1 h2 -> frozen h2 h3 -> frozen h1 h3.
Proof. intros h1 h2 h3 A B j. specialize (A j). specialize (B j). intuition congruence. Qed.

Lemma setAttr_dim : forall i v h, exists h', setAttrZ i dim set_dimF v h = (h', Ok tt) /\
  dim (h' i) = v /\ dB (h' i) = dB (h i) /\ dA (h' i) = dA (h i) /\ comp (h' i) = comp (h i) /\
  (upd (h' i) = false -> dim (h i) = v) /\
  (forall j, j <> i -> h' j = h j) /\ frozen h h'.
Proof.
  intros. unfold setAttrZ. rewrite get_step. destruct (Z.eqb_spec (dim (h i)) v) as [E|E].
  - exists h. split; [reflexivity|]. repeat split; auto.
  - rewrite modify_step. unfold flag, modify. eexists. split; [reflexivity|].
    rewrite !upf_same. split; [reflexivity|]. split; [reflexivity|]. split; [reflexivity|]. split; [reflexivity|].
    split; [cbn; discriminate|]. split; [intros; now rewrite !upf_other|].
    intros j. destruct (Nat.eq_dec j i) as [->|]; [rewrite !upf_same; repeat split|rewrite !upf_other by assumption; repeat split].
Qed.

Lemma setDim_leaf : forall lim h c i d0 b a s d,
  repc h c i d0 b a s -> rep h s b a (L i d0) -> NoDup (i :: cids c) -> (List.length c + cdepth c <= lim)%nat ->
  0 < d -> d * cfac c < 2 ^ 53 ->
  match hasConsistent lim h i d with
  | Err e => exists h', setDim lim i d h = (h', Err e) /\ forall j, core (h' j) = core (h j) /\ terms (h' j) = terms (h j)
  | Ok _ => exists h', setDim lim i d h = (h', Ok tt) /\ repc h' c i d b a s /\ rep h' s b a (L i d) /\
              (forall j, ~ In j (i :: cids c) -> h' j = h j) /\ frozen h h'
  end.
Proof.
  intros lim h c i d0 b a s d Rc Rt ND Hlim Hd Hbig. unfold setDim. rewrite get_step.
  set (h0 := match comp (h i) with None => upf i (set_comp (Some (negb (List.length (subs (h i)) =? 0)%nat))) h | Some _ => h end).
  assert (S0 : forall (Y : Type) (f : M Y), (match comp (h i) with
    | None => modify i (set_comp (Some (negb (List.length (subs (h i)) =? 0)%nat))) | Some _ => ret tt end ;;; f) h = f h0).
  { intros. unfold h0. destruct (comp (h i)); reflexivity. }
  rewrite S0. clear S0.
  cbn [rep] in Rt. destruct Rt as (R1 & R2 & R3 & R4 & R5 & R6 & R7).
  assert (C0 : forall j, core (h0 j) = core (h j) /\ terms (h0 j) = terms (h j)).
  { intros j. unfold h0. destruct (comp (h i)) eqn:Ec; [split; reflexivity|]. destruct (Nat.eq_dec j i) as [->|]; [|now rewrite upf_other].
    rewrite upf_same. split; [|reflexivity]. unfold core, isComp. cbn. now rewrite Ec, R2. }
  assert (O0 : forall j, j <> i -> h0 j = h j). { intros j Hj. unfold h0. destruct (comp (h i)); [reflexivity|]. now apply upf_other. }
  assert (Z0 : frozen h h0). { intros j. destruct (C0 j) as [E ->]. unfold core in E. injection E as E1 E2 E3 E4 E5 E6. repeat split; assumption. }
  rewrite get_step. assert (Ec : isComp (h0 i) = false) by (destruct (Z0 i) as [E _]; congruence). rewrite Ec.
  destruct (Z.leb_spec d 0); [lia|].
  rewrite <- (hasConsistent_ext lim h h0 i d) by (intros j; destruct (Z0 j); tauto).
  destruct (hasConsistent lim h0 i d) as [bl|e] eqn:Hcons.
  2:{ exists h0. split; [|exact C0]. unfold look, mbind. now rewrite Hcons. }
  unfold look at 1. unfold mbind at 1. rewrite Hcons.
  destruct (setAttr_dim i d h0) as (h1 & S1 & D1 & DB1 & DA1 & Co1 & U1 & O1 & Z1).
  rewrite (mbind_ok _ _ _ _ _ _ _ S1), get_step.
  assert (Ed0 : dim (h0 i) = d0) by (destruct (C0 i) as [E _]; unfold core in E; congruence).
  assert (EB : dB (h0 i) = b) by (destruct (C0 i) as [E _]; unfold core in E; congruence).
  assert (EA : dA (h0 i) = a) by (destruct (C0 i) as [E _]; unfold core in E; congruence).
  assert (Zt : frozen h h1) by (eapply frozen_trans; eauto).
  assert (Rt1 : rep h1 s b a (L i d)). { cbn [rep]. destruct (Zt i) as (Z1a & Z1b & Z1c & Z1d). rewrite Z1a, Z1b, Z1c. repeat split; auto; congruence. }
  apply NoDup_cons_iff in ND. destruct ND as [Ni ND].
  assert (Rc1 : repc h1 c i d0 b a s). { eapply repc_ext; [|exact Rc]. intros j Hj. rewrite O1 by (intros ->; contradiction). apply C0. }
  assert (Hsup : sup (h1 i) = s) by (destruct (Zt i) as (_ & _ & E & _); congruence).
  rewrite Hsup. rewrite Ed0.
  destruct c as [|[[p ls] rs] c].
  - cbn in Rc. destruct Rc as (-> & -> & ->). exists h1. split; [destruct (upd (h1 i)); reflexivity|].
    split; [cbn [repc]; auto|]. split; [exact Rt1|]. split; [|exact Zt].
    intros j Hj. rewrite O1 by (intros ->; apply Hj; now left). apply O0. intros ->. apply Hj; now left.
  - pose proof (repc_sup _ _ _ _ _ _ _ Rc) as ->. destruct (upd (h1 i)) eqn:Eu.
    + destruct (updateDimension_ctx c p ls rs lim h1 i 1 d0 d b a (Some p)) as (h2 & S2 & R2' & O2 & Sh2);
       [now rewrite Z.mul_1_l|exact Hsup|constructor; assumption|rewrite Nat.add_1_r; exact Hlim|lia|exact R4|exact Hd|now rewrite Z.mul_1_l|].
      exists h2. split; [exact S2|]. rewrite Z.mul_1_l in R2'. split; [exact R2'|]. split; [|split].
      * eapply rep_ext; [|exact Rt1]. intros j Hj. cbn in Hj. destruct Hj as [<-|[]]. now rewrite O2.
      * intros j Hj. rewrite O2 by (intro; apply Hj; now right). rewrite O1 by (intros ->; apply Hj; now left). apply O0. intros ->. apply Hj; now left.
      * eapply frozen_trans; [exact Zt|]. now apply shape_frozen.
    + specialize (U1 eq_refl). rewrite Ed0 in U1. rewrite U1 in Rc1. exists h1. split; [reflexivity|]. split; [exact Rc1|]. split; [exact Rt1|]. split; [|exact Zt].
      intros j Hj. rewrite O1 by (intros ->; apply Hj; now left). apply O0. intros ->. apply Hj; now left.
Qed.

(** ** addSubSys. *)
Definition addBody (lim : nat) (c s : oid) : M unit :=
  dc <- look (fun h => dimension lim h c) ;;
  z <- get s ;; setAB lim false s (dA z * dc) ;;;
  ds <- look (fun h => dimension lim h s) ;;
  z <- get c ;; setAB lim true c (dB z * ds).
Lemma look_step : forall X Y (f : heap -> result X) (g : X -> M Y) h x, f h = Ok x -> mbind (look f) g h = g x h.
Proof. intros. unfold look, mbind. now rewrite H. Qed.

Lemma add_loop : forall lim p tc ts h b K,
  reps h p 1 b ts -> rep h None K 1 tc -> NoDup (flat_map ids ts ++ ids tc) ->
  (depths ts <= lim)%nat -> (depth tc <= lim)%nat -> 0 < b -> 0 < K -> K * tdims ts * tdim tc < 2 ^ 53 ->
  exists h', for_ (map rt ts) (addBody lim (rt tc)) h = (h', Ok tt) /\
    reps h' p (tdim tc) b ts /\ rep h' None (K * tdims ts) 1 tc /\
    (forall j, ~ In j (flat_map ids ts ++ ids tc) -> h' j = h j) /\ shape h h'.
Proof.
  intros lim p tc. induction ts as [|t ts IH]; intros h b K R Rc ND Hl Hlc Hb HK Hbig.
  { exists h. cbn [map for_ reps]. rewrite tdims_nil, Z.mul_1_r. repeat split; auto. }
  cbn [reps] in R. destruct R as [Rt Rts]. cbn [flat_map] in ND. rewrite <- app_assoc in ND.
  pose proof ND as ND0. apply NoDup_app_disj in ND. destruct ND as (ND1 & ND2 & Dis).
  pose proof ND2 as ND3. apply NoDup_app_disj in ND3. destruct ND3 as (ND3 & ND4 & Dis2).
  rewrite depths_cons in Hl.
  pose proof (tdim_pos _ _ _ _ _ Rt) as Pt. pose proof (tdims_pos _ _ _ _ _ Rts) as Pts. pose proof (tdim_pos _ _ _ _ _ Rc) as Pc.
  rewrite tdims_cons in Hbig. rewrite Z.mul_1_l in Rt.
  assert (Hb1 : K * (tdims ts * tdim tc * tdim t) < 2 ^ 53) by (revert Hbig; apply Z.le_lt_trans; nia).
  assert (Hb2 : tdims ts * tdim tc * tdim t < 2 ^ 53) by (assert (0 < tdims ts * tdim tc * tdim t) by nia; nia).
  destruct (rep_root _ _ _ _ _ Rt) as (E1 & E2 & E3 & _).
  destruct (setAB_rep t false lim h (Some p) b (tdims ts) (tdims ts * tdim tc) Rt ND1) as (h1 & S1 & R1 & O1 & Sh1); [lia|lia|lia|nia|exact Hb2|].
  cbn [pick] in R1.
  assert (Rc1 : rep h1 None K 1 tc). { eapply rep_ext; [|exact Rc]. intros j Hj. rewrite O1; [reflexivity|]. intro. apply (Dis j); [assumption|apply in_or_app; auto]. }
  destruct (rep_root _ _ _ _ _ Rc1) as (Ec1 & _).
  assert (Hb3 : K * tdim t * tdim tc < 2 ^ 53).
  { assert (Hq : K * tdim t * tdim tc <= K * (tdim t * tdims ts) * tdim tc) by (assert (0 < K * tdim t * tdim tc) by nia; nia). lia. }
  destruct (setAB_rep tc true lim h1 None K 1 (K * tdim t) Rc1 ND4) as (h2 & S2 & R2 & O2 & Sh2); [lia|lia|lia|nia|exact Hb3|].
  cbn [pick] in R2.
  assert (Rts2 : reps h2 p 1 (b * tdim t) ts).
  { eapply reps_ext; [|exact Rts]. intros j Hj. rewrite O2, O1; [reflexivity| |].
    - intro. apply (Dis j); [assumption|apply in_or_app; auto].
    - intro. apply (Dis2 j); assumption. }
  destruct (IH h2 (b * tdim t) (K * tdim t) Rts2 R2 ND2) as (h3 & S3 & R3 & Rc3 & O3 & Sh3); [lia|lia|nia|nia| |].
  { replace (K * tdim t * tdims ts * tdim tc) with (K * (tdim t * tdims ts) * tdim tc) by ring. exact Hbig. }
  exists h3. split; [|split; [|split; [|split]]].
  - cbn [map for_]. unfold mbind at 1. unfold addBody at 1.
    rewrite (look_step _ _ _ _ _ _ (dimension_rep _ _ _ _ _ _ Rc Hlc)), get_step, E2.
    rewrite (mbind_ok _ _ _ _ _ _ _ S1). rewrite (look_step _ _ _ _ _ (tdim t)); [|eapply dimension_rep; [exact R1|lia]].
    rewrite get_step, Ec1, S2. exact S3.
  - cbn [reps]. split; [|exact R3]. eapply rep_ext with (h := h1).
    + intros j Hj. rewrite O3, O2; [reflexivity| |].
      * intro. apply (Dis j); [assumption|apply in_or_app; auto].
      * intro. apply (Dis j); assumption.
    + replace (tdim tc * tdims ts) with (tdims ts * tdim tc) by ring. exact R1.
  - rewrite tdims_cons. replace (K * (tdim t * tdims ts)) with (K * tdim t * tdims ts) by ring. exact Rc3.
  - intros j Hj. cbn [flat_map] in Hj. rewrite !in_app_iff in Hj. rewrite O3 by (rewrite in_app_iff; tauto).
    rewrite O2 by tauto. apply O1. tauto.
  - eapply shape_trans; [|exact Sh3]. eapply shape_trans; eauto.
Qed.

Lemma rep_resup : forall h s b a t f, rep h s b a t -> ~ In (rt t) (match t with L _ _ => [] | N _ ts => flat_map ids ts end) ->
  isComp (f (h (rt t))) = isComp (h (rt t)) -> subs (f (h (rt t))) = subs (h (rt t)) -> dim (f (h (rt t))) = dim (h (rt t)) ->
  dB (f (h (rt t))) = dB (h (rt t)) -> dA (f (h (rt t))) = dA (h (rt t)) ->
  rep (upf (rt t) f h) (sup (f (h (rt t)))) b a t.
Proof.
  intros h s b a [i d|i ts] f R Hn F1 F2 F3 F4 F5; cbn [rt] in *.
  - cbn [rep] in *. rewrite upf_same. rewrite F1, F2, F3, F4, F5. intuition.
  - rewrite rep_N in *. rewrite upf_same, F1, F2, F4, F5. destruct R as (R1 & R2 & R3 & R4 & R5 & R6). repeat split; auto.
    eapply reps_ext; [|exact R6]. intros j Hj. rewrite upf_other; [reflexivity|]. intros ->. contradiction.
Qed.
Lemma memb_In : forall i l, memb i l = true <-> In i l.
Proof. intros. unfold memb. rewrite existsb_exists. split; [intros (x & Hx & E); apply Nat.eqb_eq in E; now subst|intros; exists i; split; auto; apply Nat.eqb_refl]. Qed.
Lemma root_notin : forall t, NoDup (ids t) -> ~ In (rt t) (match t with L _ _ => [] | N _ ts => flat_map ids ts end).
Proof. intros [i d|i ts] H; cbn [rt]; [auto|]. rewrite ids_N in H. now apply NoDup_cons_iff in H. Qed.

(** The tree of a system that may be given sub-systems. *)
Definition kids (t : tree) : list tree := match t with L _ _ => [] | N _ ts => ts end.
Lemma addSub_rep : forall lim h tp tc,
  rep h None 1 1 tp -> rep h None 1 1 tc -> NoDup (ids tp ++ ids tc) ->
  (depth tp <= lim)%nat -> (depth tc <= lim)%nat -> tdims (kids tp) * tdim tc < 2 ^ 53 ->
  comp (h (rt tp)) <> Some false ->
  exists h', addSub lim (rt tp) (rt tc) h = (h', Ok tt) /\ rep h' None 1 1 (N (rt tp) (kids tp ++ [tc])) /\
    (forall j, ~ In j (ids tp ++ ids tc) -> h' j = h j) /\ (forall j, terms (h' j) = terms (h j)).
Proof.
  intros lim h tp tc Rp Rc ND Hlp Hlc Hbig Hcomp. set (p := rt tp). set (c := rt tc).
  pose proof ND as ND0. apply NoDup_app_disj in ND. destruct ND as (NDp & NDc & Dis).
  assert (Hpc : p <> c). { intros E. apply (Dis p); [apply rt_in|rewrite E; apply rt_in]. }
  assert (Sc : sup (h c) = None) by (apply (rep_root _ _ _ _ _ Rc)).
  assert (Sp : sup (h p) = None) by (apply (rep_root _ _ _ _ _ Rp)).
  assert (kid_sup : forall t' s b a, rep h s b a t' -> forall j, In j (subs (h (rt t'))) -> sup (h j) = Some (rt t')).
  { intros [i d|i ts] s b a R j Hj; cbn [rt] in *.
    - cbn [rep] in R. destruct R as (_ & R & _). rewrite R in Hj. contradiction.
    - rewrite rep_N in R. destruct R as (_ & R2 & _ & _ & _ & R). rewrite R2 in Hj. clear R2. revert b R. induction ts as [|t ts IH]; intros b R; [contradiction|].
      cbn [reps] in R. destruct R as [Ra Rb]. destruct Hj as [<-|Hj]; [apply (rep_root _ _ _ _ _ Ra)|eauto]. }
  assert (M1 : memb p (subs (h c)) = false).
  { destruct (memb p (subs (h c))) eqn:E; [|reflexivity]. apply memb_In in E. apply (kid_sup _ _ _ _ Rc) in E. congruence. }
  assert (M2 : memb c (subs (h p)) = false).
  { destruct (memb c (subs (h p))) eqn:E; [|reflexivity]. apply memb_In in E. apply (kid_sup _ _ _ _ Rp) in E. congruence. }
  unfold addSub. rewrite get_step, M1, get_step.
  set (h0 := match comp (h p) with None => upf p (set_comp (Some true)) h | _ => h end).
  assert (S0 : forall (Y : Type) (f : M Y), (match comp (h p) with
    | None => modify p (set_comp (Some true)) | Some false => raise TypeError | Some true => ret tt end ;;; f) h = f h0).
  { intros. unfold h0. destruct (comp (h p)) as [[]|] eqn:E; try reflexivity. exfalso. apply Hcomp. exact E. }
  rewrite S0. rewrite M2.
  assert (O0 : forall j, j <> p -> h0 j = h j). { intros j Hj. unfold h0. destruct (comp (h p)); [reflexivity|]. now apply upf_other. }
  assert (T0 : forall j, terms (h0 j) = terms (h j)).
  { intros j. destruct (Nat.eq_dec j p) as [->|]; [|now rewrite O0]. unfold h0. destruct (comp (h p)); [reflexivity|]. now rewrite upf_same. }
  set (ts := kids tp).
  assert (Rp0 : rep h0 None 1 1 (N p ts)).
  { unfold ts, p in *. destruct tp as [i d|i us]; cbn [rt kids] in *.
    - cbn [rep] in Rp. destruct Rp as (R1 & R2 & R3 & R4 & R5 & R6 & R7). rewrite rep_N. unfold h0. unfold isComp in R1.
      destruct (comp (h i)) as [[]|]; try congruence; try (exfalso; now apply Hcomp). rewrite upf_same. repeat split; auto.
    - assert (E : h0 = h); [|rewrite E; exact Rp]. unfold h0. rewrite rep_N in Rp. destruct Rp as (R1 & _). unfold isComp in R1.
      destruct (comp (h i)) as [[]|]; congruence. }
  assert (Esub : subs (h p) = map rt ts).
  { unfold ts, p. destruct (rep_root _ _ _ _ _ Rp) as (_ & _ & _ & ->). destruct tp; reflexivity. }
  assert (NDts : NoDup (p :: flat_map ids ts ++ ids tc)).
  { unfold ts, p in *. destruct tp as [i d|i us]; cbn [rt kids] in *; exact ND0. }
  apply NoDup_cons_iff in NDts. destruct NDts as [Np NDts].
  assert (Hin : forall j, In j (ids tp) <-> j = p \/ In j (flat_map ids ts)).
  { intros j. unfold ts, p. destruct tp as [i d|i us]; [cbn|rewrite ids_N; cbn [In rt kids]]; intuition. }
  assert (Hdep : (depths ts <= lim)%nat). { unfold ts. destruct tp; cbn [kids]; [cbn; lia|]. rewrite depth_N in Hlp. lia. }
  assert (Rc0 : rep h0 None 1 1 tc). { eapply rep_ext; [|exact Rc]. intros j Hj. rewrite O0; [reflexivity|]. intros ->. apply (Dis p); [apply rt_in|assumption]. }
  rewrite rep_N in Rp0. destruct Rp0 as (P1 & P2 & P3 & P4 & P5 & P6).
  destruct (add_loop lim p tc ts h0 1 1 P6 Rc0 NDts Hdep Hlc) as (h1 & S1 & R1 & Rc1 & O1 & Sh1); [lia|lia|rewrite Z.mul_1_l; exact Hbig|].
  rewrite Esub. fold c in S1. fold (addBody lim c). rewrite (mbind_ok _ _ _ _ _ _ _ S1), modify_step.
  set (h2 := upf c (set_sup (Some p)) h1). unfold flag. rewrite modify_step. set (h3 := upf p (set_upd true) h2).
  unfold modify. eexists. split; [reflexivity|].
  set (f := fun x : qsys => set_subs (if memb c (subs x) then subs x else subs x ++ [c]) x).
  assert (Ep1 : h1 p = h0 p) by (apply O1; exact Np).
  assert (Ep3 : h3 p = set_upd true (h0 p)). { unfold h3. rewrite upf_same. unfold h2. rewrite upf_other by assumption. now rewrite Ep1. }
  assert (Rc2 : rep h2 (Some p) (1 * tdims ts) 1 tc).
  { unfold h2, c. replace (Some p) with (sup (set_sup (Some p) (h1 (rt tc)))) at 2 by reflexivity. eapply rep_resup; try reflexivity; [exact Rc1|now apply root_notin]. }
  assert (Hcin : ~ In c (flat_map ids ts)). { intro. apply (Dis c); [apply Hin; now right|apply rt_in]. }
  assert (Hpt : ~ In p (ids tc)). { intro. apply (Dis p); [apply rt_in|assumption]. }
  split; [|split].
  - rewrite rep_N, upf_same, Ep3. cbn [set_subs set_upd subs comp dB dA sup isComp]. unfold isComp in *. cbn [comp].
    assert (Es0 : subs (h0 p) = map rt ts) by exact P2. assert (Ef : f (set_upd true (h0 p)) = set_subs (if memb c (subs (h0 p)) then subs (h0 p) else subs (h0 p) ++ [c]) (set_upd true (h0 p))) by reflexivity. rewrite Ef. cbn [set_subs set_upd subs comp dB dA sup]. rewrite Es0.
    assert (Mc : memb c (map rt ts) = false). { rewrite <- Esub. exact M2. } rewrite Mc. rewrite map_app. cbn [map].
    repeat split; auto. apply reps_app. rewrite tdims_cons, tdims_nil, Z.mul_1_l, Z.mul_1_r. split.
    + eapply reps_ext with (h := h1); [|exact R1]. intros j Hj. rewrite upf_other by (intros ->; apply Np; apply in_or_app; auto).
      unfold h3. rewrite upf_other by (intros ->; apply Np; apply in_or_app; auto). unfold h2. rewrite upf_other by (intros ->; contradiction). reflexivity.
    + cbn [reps]. rewrite tdims_nil, Z.mul_1_r. split; [|exact I]. eapply rep_ext with (h := h2); [|exact Rc2]. intros j Hj.
      rewrite upf_other by (intros ->; contradiction). unfold h3. rewrite upf_other by (intros ->; contradiction). reflexivity.
  - intros j Hj. rewrite in_app_iff, Hin in Hj. assert (j <> p) by tauto. assert (j <> c) by (intros ->; apply Hj; right; apply rt_in).
    rewrite upf_other by assumption. unfold h3. rewrite upf_other by assumption. unfold h2. rewrite upf_other by assumption.
    rewrite O1 by (rewrite in_app_iff; tauto). apply O0. assumption.
  - intros j. destruct (Nat.eq_dec j p) as [->|Hj].
    + rewrite upf_same, Ep3. cbn. apply T0.
    + rewrite upf_other by assumption. unfold h3. rewrite upf_other by assumption. destruct (Nat.eq_dec j c) as [->|Hc].
      * unfold h2. rewrite upf_same. cbn. destruct (Sh1 c) as (_ & _ & _ & -> & _). apply T0.
      * unfold h2. rewrite upf_other by assumption. destruct (Sh1 j) as (_ & _ & _ & -> & _). apply T0.
Qed.

(** ** removeSubSys. *)
Definition tok (h : heap) : Prop := forall i qs ps, In (TMulti qs ps) (terms (h i)) -> List.length qs = List.length ps.
Lemma checkMulti_1 : forall qs ps, List.length qs = List.length ps -> checkMulti 1 qs ps = Ok tt.
Proof.
  induction qs as [|q qs IH]; intros [|p ps] H; try discriminate; [reflexivity|]. cbn [checkMulti]. unfold badPauli. cbn.
  rewrite Bool.andb_false_r. apply IH. now injection H.
Qed.
Lemma hasConsistent_1 : forall h c i D b a s lim, tok h -> repc h c i D b a s -> sup (h i) = s -> (List.length c < lim)%nat ->
  exists bl, hasConsistent lim h i 1 = Ok bl.
Proof.
  induction c as [|[[p ls] rs] c IH]; intros i D b a s lim T R Es Hl; (destruct lim as [|l]; [lia|]); cbn [hasConsistent].
  all: assert (Ht : forall t l', terms (h i) = t :: l' -> checkTermDim 1 t = Ok tt) by
   (intros t l' E; destruct t as [q pl|qs ps]; cbn; [unfold badPauli; cbn; now rewrite Bool.andb_false_r|]; apply checkMulti_1; apply (T i); rewrite E; now left).
  all: destruct (terms (h i)) as [|t l'] eqn:Et; [|rewrite (Ht _ _ eq_refl); eexists; reflexivity].
  - cbn in R. destruct R as (_ & _ & ->). rewrite Es. eexists; reflexivity.
  - rewrite repc_cons in R. destruct R as (-> & _ & _ & _ & _ & _ & _ & R). rewrite Es. eapply IH; eauto. cbn in Hl. lia.
Qed.
Lemma filter_out : forall i l l', ~ In i l -> ~ In i l' -> filter (fun s => negb (Nat.eqb s i)) (l ++ i :: l') = l ++ l'.
Proof.
  intros i l l' H H'. assert (A : forall l, ~ In i l -> filter (fun s => negb (Nat.eqb s i)) l = l).
  { clear. induction l as [|x l IH]; intros H; [reflexivity|]. cbn. destruct (Nat.eqb_spec x i) as [->|]; [exfalso; apply H; now left|].
    cbn. f_equal. apply IH. intro. apply H. now right. }
  rewrite filter_app. cbn [filter]. rewrite Nat.eqb_refl. cbn [negb]. now rewrite !A.
Qed.

Lemma rmSub_S : forall l p c exc, rmSub (S l) p c exc =
  (x <- get p ;;
   match comp x with
   | Some false => raise ValueError
   | _ =>
     exc' <- (if memb c (subs x) then
               let exc := exc ++ [p] in
               y <- get c ;;
               exc <-
                 (if isComp y then
                    exc <- (fix each qs exc := match qs with
                            | [] => ret exc
                            | q :: qs' => exc' <- rmSub l c q exc ;; each qs' exc'
                            end) (subs y) exc ;;
                    modify p (fun x => set_subs (filter (fun s => negb (Nat.eqb s c)) (subs x)) x) ;;;
                    addAll (S l) c (subs y) ;;;
                    ret exc
                  else
                    let old := dim y in
                    setDim (S l) c 1 ;;;
                    modify p (fun x => set_subs (filter (fun s => negb (Nat.eqb s c)) (subs x)) x) ;;;
                    setAttrZ p dim set_dimF old ;;;
                    ret exc) ;;
               modify c (set_sup None) ;;;
               setAB (S l) false c 1 ;;;
               setAB (S l) true c 1 ;;;
               ret (exc ++ [c])
             else if memb p exc then ret exc
             else
               let exc := exc ++ [p] in
               r <- (fix each qs exc := match qs with
                     | [] => ret (exc, false)
                     | q :: qs' =>
                         z <- get q ;;
                         if isComp z then
                           exc' <- rmSub l q c exc ;;
                           if memb c exc' then ret (exc', true) else each qs' exc'
                         else each qs' exc
                     end) (subs x) exc ;;
               let '(exc, broke) := r in
               if (broke : bool) then ret exc
               else z <- get p ;; match sup z with None => ret exc | Some g => rmSub l g c exc end) ;;
          (if Nat.eqb c p then ret tt else modify p (dropTerms c)) ;;;
          flag p ;;;
          ret exc'
   end).
Proof. reflexivity. Qed.

Lemma isComp_not_false : forall X x (e1 e2 : X), isComp x = true -> match comp x with Some false => e1 | _ => e2 end = e2.
Proof. intros X x e1 e2 H. unfold isComp in H. destruct (comp x) as [[]|]; congruence. Qed.

Lemma rmSub_leaf : forall l h cx p ls rs i d0 b a exc,
  tok h -> repc h ((p, ls, rs) :: cx) i d0 b a (Some p) -> rep h (Some p) b a (L i d0) ->
  NoDup (i :: cids ((p, ls, rs) :: cx)) -> (List.length cx + 1 + cdepth ((p, ls, rs) :: cx) <= S l)%nat -> (List.length cx + 1 < S l)%nat ->
  cfac ((p, ls, rs) :: cx) < 2 ^ 53 ->
  exists h' b' a' s', rmSub (S l) p i exc h = (h', Ok ((exc ++ [p]) ++ [i])) /\
    repc h' cx p (tdims ls * tdims rs) b' a' s' /\ rep h' s' b' a' (N p (ls ++ rs)) /\
    rep h' None 1 1 (L i 1) /\
    (forall j, ~ In j (i :: cids ((p, ls, rs) :: cx)) -> h' j = h j) /\
    (forall j, terms (h' j) = if Nat.eqb j p then filter (fun t => negb (mentions i t)) (terms (h p)) else terms (h j)).
Proof.
  intros l h cx p ls rs i d0 b a exc T Rc Rt ND Hlim Hlen Hbig.
  pose proof (setDim_leaf (S l) h ((p, ls, rs) :: cx) i d0 b a (Some p) 1 Rc Rt ND) as HS.
  assert (Hsi : sup (h i) = Some p) by (apply (rep_root _ _ _ _ _ Rt)).
  destruct (hasConsistent_1 h ((p, ls, rs) :: cx) i d0 b a (Some p) (S l) T Rc Hsi) as (bl & Hcons). { cbn [List.length]. rewrite Nat.add_1_r in Hlen. exact Hlen. }
  rewrite Hcons in HS. destruct HS as (h1 & S1 & Rc1 & Rt1 & O1 & Z1); [cbn [List.length]; rewrite Nat.add_1_r in Hlim; exact Hlim|lia|rewrite Z.mul_1_l; exact Hbig|].
  clear Hcons bl.
  pose proof Rc as Rc'. rewrite repc_cons in Rc'. destruct Rc' as (_ & Cp & Sp & _).
  cbn [rep] in Rt. destruct Rt as (L1 & L2 & L3 & L4 & L5 & L6 & L7).
  apply NoDup_cons_iff in ND. destruct ND as [Ni ND]. rewrite cids_cons in Ni, ND. apply NoDup_cons_iff in ND. destruct ND as [Np ND].
  assert (Hip : i <> p) by (intros ->; apply Ni; now left).
  assert (Mi : memb i (subs (h p)) = true). { apply memb_In. rewrite Sp. apply in_or_app. right. now left. }
  rewrite rmSub_S, get_step, (isComp_not_false _ _ _ _ Cp), Mi. cbv zeta. unfold mbind at 1. rewrite get_step, L1.
  unfold mbind at 1. rewrite (mbind_ok _ _ _ _ _ _ _ S1), modify_step.
  set (h2 := upf p (fun x => set_subs (filter (fun s => negb (s =? i)%nat) (subs x)) x) h1).
  destruct (setAttr_dim p (dim (h i)) h2) as (h3 & S3 & D3 & DB3 & DA3 & Co3 & _ & O3 & Z3).
  rewrite (mbind_ok _ _ _ _ _ _ _ S3). unfold ret at 1. cbv beta iota. rewrite modify_step.
  set (h4 := upf i (set_sup None) h3).
  rewrite repc_cons in Rc1. destruct Rc1 as (_ & Cp1 & Sp1 & Eb & Ea & Rl & Rr & Ro).
  assert (Ep2 : h2 p = set_subs (map rt ls ++ map rt rs) (h1 p)).
  { unfold h2. rewrite upf_same. rewrite Sp1. f_equal. apply filter_out; intro Hx; apply Ni; right; apply rts_in_ids in Hx; rewrite !in_app_iff; auto. }
  assert (Ei3 : h3 i = h1 i). { rewrite O3 by assumption. unfold h2. now rewrite upf_other. }
  assert (Rt4 : rep h4 None b a (L i 1)).
  { cbn [rep] in *. unfold h4. rewrite upf_same, Ei3. cbn. tauto. }
  pose proof (tdims_pos _ _ _ _ _ Rl) as Pl. pose proof (tdims_pos _ _ _ _ _ Rr) as Pr.
  pose proof (repc_pos _ _ _ _ _ _ _ Ro) as (Pb & Pa & _).
  destruct (setAB_rep (L i 1) false (S l) h4 None b a 1 Rt4) as (h5 & S5 & R5 & O5 & Sh5); [repeat constructor; auto|cbn; lia|subst b; nia|subst a; nia|lia|cbn; lia|].
  cbn [pick rt] in R5, S5.
  destruct (setAB_rep (L i 1) true (S l) h5 None b 1 1 R5) as (h6 & S6 & R6 & O6 & Sh6); [repeat constructor; auto|cbn; lia|subst b; nia|lia|lia|cbn; lia|].
  cbn [pick rt] in R6, S6.
  rewrite (mbind_ok _ _ _ _ _ _ _ S5), (mbind_ok _ _ _ _ _ _ _ S6). unfold ret at 1. cbv beta iota.
  destruct (Nat.eqb_spec i p) as [|_]; [contradiction|]. rewrite modify_step. unfold flag. rewrite modify_step. unfold ret.
  set (h7 := upf p (set_upd true) (upf p (dropTerms i) h6)).
  assert (E6 : forall j, j <> i -> h6 j = h3 j).
  { intros j Hj. rewrite O6 by (cbn; intuition). rewrite O5 by (cbn; intuition). unfold h4. now rewrite upf_other. }
  assert (E7 : forall j, j <> i -> j <> p -> h7 j = h1 j).
  { intros j Hj Hp. unfold h7. rewrite !upf_other by assumption. rewrite E6 by assumption. rewrite O3 by assumption. unfold h2. now rewrite upf_other. }
  assert (E7p : h7 p = set_upd true (dropTerms i (h3 p))). { unfold h7. rewrite !upf_same. now rewrite E6 by (intro; now apply Hip). }
  assert (Fp : isComp (h7 p) = true /\ subs (h7 p) = map rt (ls ++ rs) /\ dB (h7 p) = dB (h1 p) /\ dA (h7 p) = dA (h1 p) /\ sup (h7 p) = sup (h1 p) /\ terms (h7 p) = filter (fun t => negb (mentions i t)) (terms (h p))).
  { rewrite E7p. destruct (Z3 p) as (Za & Zb & Zc & Zd). destruct (Z1 p) as (_ & _ & _ & Zd1). rewrite Ep2 in *. cbn [set_subs subs sup terms dB dA comp] in *.
    assert (isComp (set_upd true (dropTerms i (h3 p))) = isComp (h3 p)) as -> by reflexivity.
    cbn [set_upd dropTerms set_terms subs sup terms dB dA]. rewrite Za, Zb, Zc, Zd, DB3, DA3, map_app. rewrite Zd1.
    split; [exact Cp1|]. repeat split. }
  destruct Fp as (F1 & F2 & F3 & F4 & F5 & F6).
  exists h7, (dB (h1 p)), (dA (h1 p)), (sup (h1 p)). split; [reflexivity|]. split; [|split; [|split; [|split]]].
  - eapply repc_ext with (h := h1).
    + intros j Hj. rewrite E7; [reflexivity| |]; intros ->; [apply Ni; right|apply Np]; rewrite !in_app_iff; auto.
    + rewrite Z.mul_1_r in Ro. exact Ro.
  - rewrite rep_N. split; [exact F1|]. split; [exact F2|]. split; [exact F3|]. split; [exact F4|]. split; [exact F5|].
    apply reps_app. rewrite Z.mul_1_l in Rl. rewrite Z.mul_1_r in Rr. split.
    + eapply reps_ext; [|exact Rl]. intros j Hj. rewrite E7; [reflexivity| |]; intros ->; [apply Ni; right|apply Np]; rewrite !in_app_iff; auto.
    + eapply reps_ext; [|exact Rr]. intros j Hj. rewrite E7; [reflexivity| |]; intros ->; [apply Ni; right|apply Np]; rewrite !in_app_iff; auto.
  - eapply rep_ext; [|exact R6]. intros j Hj. cbn in Hj. destruct Hj as [<-|[]]. unfold h7. now rewrite !upf_other.
  - intros j Hj. rewrite E7.
    + apply O1. exact Hj.
    + intros ->. apply Hj. now left.
    + intros ->. apply Hj. right. rewrite cids_cons. now left.
  - intros j. destruct (Nat.eqb_spec j p) as [->|Hj]; [exact F6|]. destruct (Nat.eq_dec j i) as [->|Hi].
    + unfold h7. rewrite !upf_other by assumption. destruct (Sh6 i) as (_ & _ & _ & -> & _). destruct (Sh5 i) as (_ & _ & _ & -> & _).
      unfold h4. rewrite upf_same. cbn. rewrite Ei3. apply Z1.
    + rewrite E7 by assumption. apply Z1.
Qed.

(** ** Every fine call preserves the invariant. *)
Definition good (lim : nat) (h : heap) (own : oid -> oid) (F : oid -> tree) (r : oid) : Prop :=
  rt (F r) = r /\ rep h None 1 1 (F r) /\ NoDup (ids (F r)) /\ (2 * depth (F r) <= lim)%nat /\
     tdim (F r) < 2 ^ 53 /\ forall i, In i (ids (F r)) <-> own i = r.
Lemma Inv_rebuild : forall lim h own F h' own' F', Inv lim h own F -> tok h' -> (forall i, own' (own' i) = own' i) ->
  (forall r, own' r = r ->
     (own r = r /\ F' r = F r /\ (forall j, own j = r -> core (h' j) = core (h j)) /\ (forall j, own' j = r <-> own j = r)) \/
     good lim h' own' F' r) ->
  Inv lim h' own' F'.
Proof.
  intros lim h own F h' own' F' (I1 & I2 & I3) T O H. split; [exact O|]. split; [|exact T]. intros r Hr.
  destruct (H r Hr) as [(A & B & C & D)|G]; [|exact G]. rewrite B. destruct (I2 r A) as (J1 & J2 & J3 & J4 & J5 & J6).
  repeat split; auto.
  - eapply rep_ext; [|exact J2]. intros j Hj. apply C. now apply J6.
  - intros Hi. apply D. now apply J6.
  - intros Hi. apply J6. now apply D.
Qed.
Lemma tok_ext : forall h h', tok h -> (forall j, terms (h' j) = terms (h j)) -> tok h'.
Proof. intros h h' T E i qs ps Hin. rewrite E in Hin. eauto. Qed.
Lemma WF_ext : forall lim h h', WF lim h -> (forall j, core (h' j) = core (h j)) -> tok h' -> WF lim h'.
Proof. intros lim h h' (own & F & I) E T. exists own, F. eapply Inv_ext; eauto. Qed.
Lemma core_upf : forall h i f, (forall x, core (f x) = core x) -> forall j, core (upf i f h j) = core (h j).
Proof. intros h i f E j. destruct (Nat.eq_dec j i) as [->|]; [now rewrite upf_same|now rewrite upf_other]. Qed.

(** A leaf and its context, for an object of the invariant. *)
Lemma Inv_leaf : forall lim h own F i, Inv lim h own F -> isComp (h i) = false ->
  exists c b a s, F (own i) = plug c (L i (dim (h i))) /\ repc h c i (dim (h i)) b a s /\ rep h s b a (L i (dim (h i))) /\
    NoDup (i :: cids c) /\ (List.length c + cdepth c <= lim)%nat /\ (List.length c < lim)%nat /\ placed h (own i) i b a.
Proof.
  intros lim h own F i I Hc. destruct (Inv_path _ _ _ _ i I) as (c & t & b & a & s & E & Et & Rc & Rt & ND).
  destruct t as [j d|j ts]; cbn [rt] in Et; subst j.
  2:{ rewrite rep_N in Rt. destruct Rt as [Rt _]. congruence. }
  assert (dim (h i) = d) as <- by (cbn in Rt; tauto). exists c, b, a, s. destruct I as (I1 & I2 & _).
  destruct (I2 (own i) (I1 i)) as (J1 & J2 & J3 & J4 & J5 & J6). rewrite E in J4. cbn [tdim] in Rc.
  pose proof (depth_plug c (L i (dim (h i)))) as [Da Db]. cbn [depth] in Da.
  repeat split; auto; try lia.
  all: try (cbn in Rt; tauto).
  - pose proof (ctx_placed h c (L i (dim (h i))) s b a Rc Rt) as P. cbn [rt] in P. rewrite <- E in P. rewrite J1 in P. exact P.
Qed.

Lemma setDim_WF : forall lim h i d, WF lim h -> fine lim h (OSetDim i d) -> WF lim (fst (setDim lim i d h)).
Proof.
  intros lim h i d (own & F & I) Hf. cbn [fine] in Hf. pose proof I as (I1 & I2 & I3).
  destruct (isComp (h i)) eqn:Hc.
  { unfold setDim. rewrite get_step. pose proof Hc as Hc'. unfold isComp in Hc'. destruct (comp (h i)) as [[]|]; try discriminate.
    rewrite ret_step, get_step, Hc. cbn. exists own, F. exact I. }
  destruct (Inv_leaf _ _ _ _ i I Hc) as (c & b & a & s & E & Rc & Rt & ND & Hl & Hl2 & P).
  assert (Hroot : root h (own i)) by (apply (root_own _ _ _ _ _ I); apply I1).
  specialize (Hf _ _ _ Hroot P eq_refl).
  destruct (Z_le_gt_dec d 0) as [Hd|Hd].
  { (* not positive: raises *)
    assert (E0 : exists h0, setDim lim i d h = (h0, Err ValueError) /\ forall j, core (h0 j) = core (h j) /\ terms (h0 j) = terms (h j)).
    { cbn [rep] in Rt. destruct Rt as (_ & R2 & _). unfold setDim. rewrite get_step. pose proof Hc as Hc'. unfold isComp in Hc'.
      destruct (comp (h i)) as [[]|] eqn:Ec; try discriminate.
      - rewrite ret_step, get_step, Hc. destruct (Z.leb_spec d 0); [|lia]. exists h. split; auto.
      - rewrite modify_step, get_step, upf_same. rewrite R2. cbn [List.length Nat.eqb negb].
        assert (isComp (set_comp (Some false) (h i)) = false) as -> by reflexivity. destruct (Z.leb_spec d 0); [|lia].
        eexists. split; [reflexivity|]. intros j. destruct (Nat.eq_dec j i) as [->|]; [|now rewrite upf_other]. rewrite upf_same.
        split; [unfold core, isComp; cbn; now rewrite Ec|reflexivity]. }
    destruct E0 as (h0 & -> & E0). cbn [fst]. exists own, F. eapply Inv_ext; [exact I|intros; apply E0|]. eapply tok_ext; [exact I3|intros; apply E0]. }
  pose proof (repc_ba _ _ _ _ _ _ _ Rc) as Eba.
  assert (Hbig : d * cfac c < 2 ^ 53) by (rewrite <- Eba; replace (d * (b * a)) with (b * d * a) by ring; exact Hf).
  pose proof (setDim_leaf lim h c i (dim (h i)) b a s d Rc Rt ND Hl ltac:(lia) Hbig) as HS.
  destruct (hasConsistent lim h i d) as [bl|e].
  - destruct HS as (h' & -> & Rc' & Rt' & O & Z). cbn [fst].
    exists own, (fun r => if Nat.eqb r (own i) then plug c (L i d) else F r). eapply Inv_rebuild; [exact I| |exact I1|].
    { eapply tok_ext; [exact I3|]. intros; apply Z. }
    intros r Hr. destruct (Nat.eqb_spec r (own i)) as [->|Hne].
    + right. unfold good. rewrite Nat.eqb_refl. destruct (I2 (own i) (I1 i)) as (J1 & J2 & J3 & J4 & J5 & J6). rewrite E in *.
      split; [rewrite <- J1; now apply rt_plug|]. split; [apply plug_rep; exists b, a, s; split; assumption|]. split.
      { eapply Permutation_NoDup; [symmetry; apply ids_plug_perm|]. exact ND. }
      split; [eapply Nat.le_trans; [|exact J4]; apply Nat.mul_le_mono_l; now apply depth_plug_le|]. split; [rewrite tdim_plug; exact Hbig|].
      intros j. rewrite <- J6. rewrite !ids_plug. reflexivity.
    + left. split; [assumption|]. split; [reflexivity|]. split; [|tauto]. intros j Hj. rewrite O; [reflexivity|].
      intro Hin. apply Hne. rewrite <- Hj. destruct (I2 (own i) (I1 i)) as (_ & _ & _ & _ & _ & J6). apply J6. rewrite E. apply ids_plug.
      destruct Hin as [<-|Hin]; [left; cbn; auto|now right].
  - destruct HS as (h0 & -> & E0). cbn [fst]. exists own, F. eapply Inv_ext; [exact I|intros; apply E0|]. eapply tok_ext; [exact I3|intros; apply E0].
Qed.

Lemma nested_depth : forall h t s b a n, rep h s b a t -> nested h (rt t) n -> (depth t <= n)%nat.
Proof.
  intros h. induction t as [i d|i ts IH] using tree_ind'; intros s b a n R H.
  - inversion H; subst; cbn; lia.
  - rewrite rep_N in R. destruct R as (R1 & R2 & _ & _ & _ & R). cbn [rt] in H. inversion H as [|? m Hc Hs]; subst; [congruence|].
    rewrite R2 in Hs. rewrite depth_N. apply le_n_S. clear R1 R2 H Hc. revert b R. induction ts as [|t ts IHt]; intros b R; [cbn; lia|].
    cbn [reps] in R. destruct R as [Ra Rb]. inversion IH as [|? ? H1 H2]; subst. rewrite depths_cons. apply Nat.max_lub.
    + eapply H1; [exact Ra|]. apply Hs. now left.
    + eapply IHt; eauto. intros s' Hs'. apply Hs. now right.
Qed.

(** The parent of a system found in a list of sub-systems. *)
Lemma Inv_child : forall lim h own F p c, Inv lim h own F -> In c (subs (h p)) ->
  exists cx ls u rs b a, F (own c) = plug ((p, ls, rs) :: cx) u /\ rt u = c /\ own c = own p /\ repc h ((p, ls, rs) :: cx) c (tdim u) b a (Some p) /\
    rep h (Some p) b a u.
Proof.
  intros lim h own F p c I Hin. destruct (Inv_path _ _ _ _ p I) as (cx & t & b & a & s & E & Et & Rc & Rt & ND).
  destruct t as [j d|j ts]; cbn [rt] in Et; subst j.
  { cbn [rep] in Rt. destruct Rt as (_ & R & _). rewrite R in Hin. contradiction. }
  rewrite rep_N in Rt. destruct Rt as (R1 & R2 & R3 & R4 & R5 & R6). rewrite R2 in Hin. apply in_map_iff in Hin. destruct Hin as (u & Eu & Hu).
  apply in_split in Hu. destruct Hu as (ls & rs & ->).
  assert (Eo : own c = own p).
  { destruct I as (I1 & I2 & _). destruct (I2 (own p) (I1 p)) as (_ & _ & _ & _ & _ & J6). apply J6. rewrite E. apply ids_plug. left.
    rewrite ids_N. right. rewrite flat_map_app. apply in_or_app. right. cbn. apply in_or_app. left. rewrite <- Eu. apply rt_in. }
  apply reps_app in R6. destruct R6 as [R6 R7]. cbn [reps] in R7. destruct R7 as [R7 R8].
  exists cx, ls, u, rs, (b * tdims ls), (a * tdims rs). rewrite Eo. split; [exact E|]. split; [assumption|]. split; [reflexivity|].
  split; [|exact R7]. rewrite repc_cons, R3, R4, R5. rewrite map_app in R2. cbn [map] in R2. rewrite Eu in R2. rewrite tdims_cons in R6.
  rewrite tdim_N, tdims_app, tdims_cons in Rc. replace (tdims ls * tdim u * tdims rs) with (tdims ls * (tdim u * tdims rs)) by ring.
  repeat split; auto.
Qed.

Lemma add_WF : forall lim h p c, WF lim h -> fine lim h (OAdd p c) -> WF lim (fst (addSub lim p c h)).
Proof.
  intros lim h p c (own & F & I) Hf. cbn [fine] in Hf. pose proof I as (I1 & I2 & I3). destruct Hf as [Hin|(Rp & Rc & Hpc & Hd & n & Hn & Hlim)].
  - (* already there *)
    destruct (Inv_child _ _ _ _ _ _ I Hin) as (cx & ls & u & rs & b & a & E & Eu & Eo & Rcx & Ru).
    assert (Hs : sup (h c) = Some p) by (rewrite <- Eu; apply (rep_root _ _ _ _ _ Ru)).
    rewrite repc_cons in Rcx. destruct Rcx as (_ & Hcp & _).
    unfold addSub. rewrite get_step. destruct (memb p (subs (h c))). { cbn. exists own, F. exact I. }
    rewrite get_step. pose proof Hcp as Hcp'. unfold isComp in Hcp'. destruct (comp (h p)) as [[]|]; try discriminate. rewrite ret_step.
    apply memb_In in Hin. rewrite Hin, ret_step, modify_step. unfold flag. rewrite modify_step. unfold modify. cbn [fst].
    exists own, F. eapply Inv_ext; [exact I| |].
    + intros j.
      assert (E1 : forall j, core (upf p (set_upd true) (upf c (set_sup (Some p)) h) j) = core (h j)).
      { intros k. rewrite core_upf by reflexivity. destruct (Nat.eq_dec k c) as [->|]; [|now rewrite upf_other].
        rewrite upf_same. unfold core. cbn. rewrite Hs. reflexivity. }
      destruct (Nat.eq_dec j p) as [->|]; [|rewrite upf_other by assumption; apply E1].
      rewrite upf_same, <- E1. set (x := upf p (set_upd true) (upf c (set_sup (Some p)) h) p).
      assert (Es : subs x = subs (h p)). { pose proof (E1 p) as E2. fold x in E2. unfold core in E2. congruence. }
      unfold core, isComp. cbn. rewrite Es, Hin. reflexivity.
    + intros k qs ps. destruct (Nat.eq_dec k p) as [->|]; [rewrite upf_same; cbn [set_subs terms]|rewrite upf_other by assumption].
      * rewrite upf_same. cbn [set_upd terms]. destruct (Nat.eq_dec p c) as [->|]; [rewrite upf_same|rewrite upf_other by assumption]; cbn; apply I3.
      * rewrite upf_other by assumption. destruct (Nat.eq_dec k c) as [->|]; [rewrite upf_same|rewrite upf_other by assumption]; cbn; apply I3.
  - pose proof (proj1 (root_own _ _ _ _ _ I) Rp) as Op. pose proof (proj1 (root_own _ _ _ _ _ I) Rc) as Oc.
    destruct (I2 p Op) as (P1 & P2 & P3 & P4 & P5 & P6). destruct (I2 c Oc) as (C1 & C2 & C3 & C4 & C5 & C6).
    assert (Hnd : NoDup (ids (F p) ++ ids (F c))).
    { assert (D : forall j, In j (ids (F p)) -> In j (ids (F c)) -> False) by (intros j Hj Hj'; apply P6 in Hj; apply C6 in Hj'; congruence).
      clear - P3 C3 D. induction (ids (F p)) as [|x l IH]; [assumption|]. cbn. inversion P3; subst. constructor.
      - rewrite in_app_iff. intros [Hx|Hx]; [contradiction|]. apply (D x); cbn; auto.
      - apply IH; auto. intros j Hj. apply D. now right. }
    assert (Hprod : tdim (F p) * tdim (F c) < 2 ^ 53).
    { apply Hd; [rewrite <- P1 at 1|rewrite <- C1 at 1]; eapply rep_has_dim; eassumption. }
    assert (Hk : tdims (kids (F p)) * tdim (F c) < 2 ^ 53).
    { destruct (F p) as [i0 d0|i0 ts] eqn:EF; cbn [kids]; [|exact Hprod]. rewrite tdims_nil. pose proof (tdim_pos _ _ _ _ _ P2). cbn [tdim] in *. lia. }
    assert (Hdc : (depth (F c) <= n)%nat). { eapply nested_depth; [exact C2|]. rewrite C1. exact Hn. }
    destruct (option_map (fun b => b) (comp (h p))) as [[]|] eqn:Ecp.
    2:{ (* a single system: raises *)
      assert (comp (h p) = Some false) as Ec by (destruct (comp (h p)); cbn in Ecp; congruence).
      unfold addSub. rewrite get_step. destruct (memb p (subs (h c))); [exists own, F; exact I|]. rewrite get_step, Ec. exists own, F. exact I. }
    1,2: assert (Hcomp : comp (h (rt (F p))) <> Some false) by (rewrite P1; destruct (comp (h p)); cbn in Ecp; congruence).
    1,2: destruct (addSub_rep lim h (F p) (F c) P2 C2 Hnd) as (h' & S & R & O & T); [lia|lia|exact Hk|exact Hcomp|]; rewrite P1, C1 in S; rewrite S; cbn [fst].
    1,2: exists (fun i => if Nat.eqb (own i) c then p else own i), (fun r => if Nat.eqb r p then N p (kids (F p) ++ [F c]) else F r).
    1,2: eapply Inv_rebuild; [exact I|eapply tok_ext; [exact I3|exact T]| |].
    1,3: intros i; destruct (Nat.eqb_spec (own i) c) as [Ei|Ei]; [rewrite Op; destruct (Nat.eqb_spec p c); [contradiction|reflexivity]|rewrite I1; destruct (Nat.eqb_spec (own i) c); [contradiction|reflexivity]].
    1,2: intros r Hr; destruct (Nat.eqb_spec r p) as [->|Hne].
    1,3: right; unfold good; rewrite Nat.eqb_refl; split; [reflexivity|]; rewrite P1 in R; split; [exact R|];
      assert (Eids : ids (N p (kids (F p) ++ [F c])) = ids (F p) ++ ids (F c)) by
       (rewrite ids_N, flat_map_app; cbn [flat_map]; rewrite app_nil_r; destruct (F p) as [i0 d0|i0 ts]; cbn [rt] in P1; subst i0; [reflexivity|]; rewrite ids_N; reflexivity);
      rewrite Eids; split; [exact Hnd|];
      split; [rewrite depth_N, depths_app; cbn [depths fold_right]; destruct (F p) as [i0 d0|i0 ts]; cbn [kids]; [cbn [depths fold_right]; lia|rewrite depth_N in P4; lia]|];
      split; [rewrite tdim_N, tdims_app, tdims_cons, tdims_nil, Z.mul_1_r; exact Hk|];
      intros j; rewrite in_app_iff, P6, C6; destruct (Nat.eqb_spec (own j) c); intuition congruence.
    1,2: destruct (Nat.eqb_spec (own r) c) as [Er|Er]; [congruence|]; left; split; [assumption|]; split; [reflexivity|]; split;
      [intros j Hj; rewrite O; [reflexivity|]; rewrite in_app_iff, P6, C6; intros [H|H]; congruence
      |intros j; destruct (Nat.eqb_spec (own j) c) as [Ej|Ej]; split; intros Hj; congruence].
Qed.

Lemma remove_WF : forall lim h p c, WF lim h -> fine lim h (ORemove p c) -> WF lim (fst (removeSub lim p c h)).
Proof.
  intros lim h p c (own & F & I) [Hin Hc]. pose proof I as (I1 & I2 & I3).
  destruct (Inv_child _ _ _ _ _ _ I Hin) as (cx & ls & u & rs & b & a & E & Eu & Eo & Rcx & Ru).
  destruct u as [j d|j ts]; cbn [rt] in Eu; subst j.
  2:{ rewrite rep_N in Ru. destruct Ru as [Ru _]. congruence. }
  destruct (I2 (own c) (I1 c)) as (J1 & J2 & J3 & J4 & J5 & J6). rewrite E in *.
  assert (ND : NoDup (c :: cids ((p, ls, rs) :: cx))).
  { eapply Permutation_NoDup in J3; [|apply ids_plug_perm]. exact J3. }
  pose proof (depth_plug ((p, ls, rs) :: cx) (L c d)) as [D1 D2]. cbn [List.length depth] in D1.
  destruct lim as [|l]; [lia|].
  assert (G1 : forall n x D l : nat, (S n + 1 <= D -> x <= D -> 2 * D <= S l -> n + 1 + x <= S l)%nat) by (intros; lia).
  assert (G2 : forall n D l : nat, (S n + 1 <= D -> 2 * D <= S l -> n + 1 < S l)%nat) by (intros; lia).
  pose proof (repc_cfac_pos _ _ _ _ _ _ _ Rcx) as Pf.
  assert (Pd : 0 < d) by (cbn in Ru; tauto).
  assert (Hbig : cfac ((p, ls, rs) :: cx) < 2 ^ 53).
  { rewrite tdim_plug in J5. cbn [tdim] in J5. revert Pf J5. generalize (cfac ((p, ls, rs) :: cx)). intros; nia. }
  destruct (rmSub_leaf l h cx p ls rs c d b a [] I3 Rcx Ru ND) as (h' & b' & a' & s' & S & Rc' & Rp' & Ri & O & T).
  { exact (G1 _ _ _ _ D1 D2 J4). }
  { exact (G2 _ _ _ D1 J4). }
  { exact Hbig. }
  unfold removeSub. rewrite (mbind_ok _ _ _ _ _ _ _ S). cbn [ret fst].
  assert (Hcp : c <> p). { intros ->. apply NoDup_cons_iff in ND. destruct ND as [ND _]. apply ND. rewrite cids_cons. now left. }
  assert (Eoc : own c <> c).
  { intros Hr. apply (root_own _ _ _ _ _ I) in Hr. unfold root in Hr. cbn [rep] in Ru. destruct Ru as (_ & _ & _ & _ & _ & _ & Ru). congruence. }
  set (T' := plug cx (N p (ls ++ rs))).
  assert (Hids : forall j, In j (ids T') <-> own j = own c /\ j <> c).
  { intros j. rewrite <- J6. unfold T'. cbn [plug]. rewrite !ids_plug. rewrite !ids_N, !flat_map_app. cbn [flat_map ids In]. rewrite !in_app_iff. cbn [In].
    apply NoDup_cons_iff in ND. destruct ND as [Nc _]. rewrite cids_cons in Nc. cbn [In] in Nc. rewrite !in_app_iff in Nc. intuition (subst; tauto). }
  exists (fun i => if Nat.eqb i c then c else own i), (fun r => if Nat.eqb r c then L c 1 else if Nat.eqb r (own c) then T' else F r).
  eapply Inv_rebuild; [exact I| | |].
  - intros i qs ps Hi. rewrite T in Hi. destruct (Nat.eqb_spec i p) as [->|]; [apply filter_In in Hi; destruct Hi as [Hi _]|]; eapply I3; eauto.
  - intros i. destruct (Nat.eqb_spec i c) as [->|Hi]; [now rewrite Nat.eqb_refl|]. destruct (Nat.eqb_spec (own i) c) as [Ei|Ei].
    + exfalso. apply Eoc. rewrite <- Ei. apply I1.
    + apply I1.
  - intros r Hr. destruct (Nat.eq_dec r c) as [Hrc|Hrc]; [clear Hr; subst r|destruct (Nat.eqb_spec r c) as [|_]; [contradiction|]].
    + right. unfold good. rewrite Nat.eqb_refl. cbn [rt ids depth tdim]. split; [reflexivity|]. split; [exact Ri|]. split; [repeat constructor; auto|].
      split; [lia|]. split; [lia|]. intros i. cbn [In]. destruct (Nat.eqb_spec i c) as [->|Hi].
      * split; auto.
      * split; [intros [->|[]]; contradiction|]. intros Ei. exfalso. apply Eoc. rewrite <- Ei. apply I1.
    + destruct (Nat.eq_dec r (own c)) as [->|Hro].
      * right. unfold good. destruct (Nat.eqb_spec (own c) c) as [|_]; [contradiction|]. rewrite Nat.eqb_refl.
        assert (RT : rep h' None 1 1 T').
        { unfold T'. apply plug_rep. exists b', a', s'. cbn [rt]. rewrite tdim_N, tdims_app. split; assumption. }
        split; [unfold T'; rewrite <- J1; cbn [plug]; now apply rt_plug|]. split; [exact RT|]. split.
        { unfold T'. eapply Permutation_NoDup; [symmetry; apply ids_plug_perm|]. rewrite ids_N, flat_map_app.
          apply NoDup_cons_iff in ND. destruct ND as [_ ND]. rewrite cids_cons in ND. cbn [app]. rewrite <- app_assoc. exact ND. }
        split; [|split].
        { unfold T'. eapply Nat.le_trans; [|exact J4]. apply Nat.mul_le_mono_l. cbn [plug]. apply depth_plug_le. rewrite !depth_N, !depths_app, depths_cons. lia. }
        { unfold T'. rewrite tdim_plug, tdim_N, tdims_app. rewrite cfac_cons in Hbig. exact Hbig. }
        intros i. rewrite Hids. destruct (Nat.eqb_spec i c) as [->|Hi]; [|tauto]. split; [intros [_ X]; now contradiction X|intros X; congruence].
      * left. split; [exact Hr|]. destruct (Nat.eqb_spec r (own c)) as [|_]; [contradiction|]. split; [reflexivity|]. split.
        { intros j Hj. rewrite O; [reflexivity|]. intro Hin'. apply Hro. rewrite <- Hj. apply J6. apply ids_plug.
          destruct Hin' as [<-|Hin']; [left; cbn; auto|now right]. }
        { intros j. destruct (Nat.eqb_spec j c) as [->|Hj]; [|tauto]. split; intros X; congruence. }
Qed.

Lemma exec_WF : forall lim h o, WF lim h -> fine lim h o -> WF lim (fst (exec lim o h)).
Proof.
  intros lim h o W Hf. destruct o as [i d|p c|p c|i pl|i qs ps|i k pl|i|i]; cbn [exec].
  - now apply setDim_WF.
  - now apply add_WF.
  - now apply remove_WF.
  - unfold createTerm, look, mbind. destruct (checkOp lim h i pl); [|exact W]. unfold addTerm. rewrite modify_step. unfold flag, modify. cbn [fst].
    eapply WF_ext; [exact W| |].
    + intros j. rewrite core_upf by reflexivity. now apply core_upf.
    + destruct W as (own & F & I1 & I2 & I3). intros j qs ps. destruct (Nat.eq_dec j i) as [->|]; [|rewrite !upf_other by assumption; apply I3].
      rewrite !upf_same. cbn. rewrite in_app_iff. intros [H|[H|[]]]; [eauto|discriminate].
  - unfold createCoupling. rewrite get_step. destruct (negb (isComp (h i))); [exact W|].
    assert (G : forall l, exists r, for_ l (fun q => b <- look (fun h => hasInSubs lim h i q) ;; if b : bool then ret tt else raise ValueError) h = (h, r)).
    { induction l as [|q l IHl]; [eexists; reflexivity|]. cbn [for_]. unfold mbind at 1. unfold look at 1, mbind at 1.
      destruct (hasInSubs lim h i q) as [[]|]; [|eexists; reflexivity|eexists; reflexivity]. exact IHl. }
    destruct (G qs) as [[[]|e] Eg]; [rewrite (mbind_ok _ _ _ _ _ _ _ Eg)|rewrite (mbind_err _ _ _ _ _ _ _ Eg); exact W].
    destruct (Nat.eqb_spec (List.length ps) (List.length qs)) as [El|El]; cbn [negb]; [|exact W].
    unfold look, mbind. destruct (checkOps lim h qs ps); [|exact W]. unfold addTerm. rewrite modify_step. unfold flag, modify. cbn [fst].
    eapply WF_ext; [exact W| |].
    + intros j. rewrite core_upf by reflexivity. now apply core_upf.
    + destruct W as (own & F & I1 & I2 & I3). intros j qs' ps'. destruct (Nat.eq_dec j i) as [->|]; [|rewrite !upf_other by assumption; apply I3].
      rewrite !upf_same. cbn. rewrite in_app_iff. intros [H|[H|[]]]; [eauto|]. now injection H as <- <-.
  - unfold setOperator. rewrite get_step. destruct (nth_error (terms (h i)) k) as [[q pl'|qs ps]|]; try exact W.
    unfold look, mbind. destruct (checkOp lim h q pl); [|exact W]. fold (mbind (modify i (fun x => set_terms (replace k (TSingle q pl) (terms x)) x)) (fun _ => flag i)).
    unfold flag, modify. cbn [fst].
    eapply WF_ext; [exact W| |].
    + intros j. rewrite core_upf by reflexivity. now apply core_upf.
    + destruct W as (own & F & I1 & I2 & I3). intros j qs ps. destruct (Nat.eq_dec j i) as [->|]; [|rewrite !upf_other by assumption; apply I3].
      rewrite !upf_same. cbn.
      assert (G : forall l k, In (TMulti qs ps) (replace k (TSingle q pl) l) -> In (TMulti qs ps) l).
      { clear. induction l as [|x l IH]; intros [|k] H; cbn in *; auto; destruct H as [H|H]; auto; try discriminate. right. eauto. }
      intros H. eauto.
  - unfold modify. cbn [fst]. eapply WF_ext; [exact W|intros j; now apply core_upf|]. destruct W as (own & F & I1 & I2 & I3).
    intros j qs ps. destruct (Nat.eq_dec j i) as [->|]; [|rewrite !upf_other by assumption; apply I3]. rewrite upf_same. cbn. apply I3.
  - unfold flag, modify. cbn [fst]. eapply WF_ext; [exact W|intros j; now apply core_upf|]. destruct W as (own & F & I1 & I2 & I3).
    intros j qs ps. destruct (Nat.eq_dec j i) as [->|]; [|rewrite !upf_other by assumption; apply I3]. rewrite upf_same. cbn. apply I3.
Qed.
Lemma run_WF : forall lim os h, WF lim h -> allFine lim os h -> WF lim (run lim os h).
Proof. induction os as [|o os IH]; intros h W H; [exact W|]. cbn [allFine run] in *. destruct H. apply IH; auto. now apply exec_WF. Qed.
Lemma init_WF : forall lim ks, (2 <= lim)%nat -> WF lim (init ks).
Proof.
  intros lim ks Hl. exists (fun i => i), (fun i => L i (dim (init ks i))). split; [reflexivity|]. split.
  - intros r _. cbn [rt rep ids depth tdim]. unfold init. destruct (ks r); cbn; repeat split; try lia; auto; try (repeat constructor; auto); intuition.
  - intros i qs ps. unfold init. destruct (ks i); cbn; intuition discriminate.
Qed.

(** ** What the invariant says about the observable attributes. *)
Lemma WF_dimension : forall lim h i, WF lim h -> exists d, dimension lim h i = Ok d /\ has_dim h i d /\ 0 < d /\ (forall d', has_dim h i d' -> d' = d).
Proof.
  intros lim h i (own & F & I). destruct (Inv_path _ _ _ _ i I) as (c & t & b & a & s & E & Et & Rc & Rt & ND).
  destruct I as (I1 & I2 & _). destruct (I2 (own i) (I1 i)) as (J1 & J2 & J3 & J4 & J5 & J6). rewrite E in J4.
  pose proof (depth_plug c t) as [Da Db].
  exists (tdim t). subst i. split; [eapply dimension_rep; [exact Rt|lia]|]. split; [eapply rep_has_dim; exact Rt|].
  split; [eapply tdim_pos; exact Rt|]. intros d' Hd'. eapply has_dim_fun; eauto.
Qed.
Lemma WF_factor : forall lim h r s b a, WF lim h -> root h r -> placed h r s b a ->
  exists d D, dimension lim h s = Ok d /\ dimension lim h r = Ok D /\ b * d * a = D.
Proof.
  intros lim h r s b a W Hr Hp. destruct (WF_dimension lim h s W) as (d & Ed & Hd & _ & Ud). destruct (WF_dimension lim h r W) as (D & ED & HD & _ & UD).
  exists d, D. split; [assumption|]. split; [assumption|]. destruct W as (own & F & I). pose proof I as (I1 & I2 & _).
  pose proof (proj1 (root_own _ _ _ _ _ I) Hr) as Or. destruct (I2 r Or) as (J1 & J2 & J3 & J4 & J5 & J6).
  rewrite <- J1 in Hp. destruct (placed_ctx h (F r) J2 s b a Hp) as (c & t & o & E & Et & Rc & Rt). subst s.
  rewrite <- (Ud _ (rep_has_dim _ _ _ _ _ Rt)). rewrite <- J1 in UD. rewrite <- (UD _ (rep_has_dim _ _ _ _ _ J2)). rewrite E, tdim_plug.
  rewrite <- (repc_ba _ _ _ _ _ _ _ Rc). ring.
Qed.

(** ** Flat composites. *)
Definition leaf (c : oid * Z) : tree := L (fst c) (snd c).
Lemma ids_leaves : forall l, flat_map ids (map leaf l) = map fst l.
Proof. induction l as [|[c d] l IH]; [reflexivity|]. cbn. now rewrite IH. Qed.
Lemma tdims_leaves : forall l, tdims (map leaf l) = fold_right Z.mul 1 (map snd l).
Proof. induction l as [|[c d] l IH]; [reflexivity|]. cbn [map]. rewrite tdims_cons, IH. reflexivity. Qed.
Lemma depths_leaves : forall l, (depths (map leaf l) <= 1)%nat.
Proof. induction l as [|[c d] l IH]; [cbn; lia|]. cbn [map]. rewrite depths_cons. cbn [leaf depth]. lia. Qed.
Lemma prod_pos : forall l, Forall (fun d => 0 < d) l -> 0 < fold_right Z.mul 1 l.
Proof. induction 1; cbn; lia. Qed.
Lemma prod_app : forall l l', fold_right Z.mul 1 (l ++ l') = fold_right Z.mul 1 l * fold_right Z.mul 1 l'.
Proof. induction l; intros; cbn [app fold_right]; [ring|]. rewrite IHl. ring. Qed.

Lemma flat_add : forall lim p todo done tp h, (2 <= lim)%nat -> rt tp = p -> kids tp = map leaf done -> (depth tp <= 2)%nat ->
  ids tp = p :: map fst done ->
  rep h None 1 1 tp -> comp (h p) <> Some false -> (forall c, In c todo -> rep h None 1 1 (leaf c)) ->
  NoDup (p :: map fst (done ++ todo)) -> Forall (fun d => 0 < d) (map snd (done ++ todo)) ->
  fold_right Z.mul 1 (map snd (done ++ todo)) < 2 ^ 53 -> todo <> [] ->
  rep (run lim (map (OAdd p) (map fst todo)) h) None 1 1 (N p (map leaf (done ++ todo))).
Proof.
  intros lim p. induction todo as [|c todo IH]; intros done tp h Hlim Et Ek Hd Ei R Hc Hr ND Pos Hbig Hne; [now contradiction Hne|].
  cbn [map run exec].
  destruct (addSub_rep lim h tp (leaf c)) as (h' & S & R' & O & T).
  - exact R.
  - apply Hr. now left.
  - rewrite Ei. cbn [ids leaf]. replace (done ++ c :: todo) with ((done ++ [c]) ++ todo) in ND by now rewrite <- app_assoc.
    rewrite map_app in ND. rewrite app_comm_cons in ND. apply NoDup_app_disj in ND. destruct ND as [ND _]. rewrite map_app in ND. exact ND.
  - lia.
  - cbn. lia.
  - rewrite Ek, tdims_leaves. cbn [leaf tdim]. rewrite map_app, prod_app in Hbig. cbn [map fold_right] in Hbig.
    rewrite map_app in Pos. apply Forall_app in Pos. destruct Pos as [P1 P2]. cbn [map] in P2. inversion P2 as [|? ? P3 P4]; subst.
    apply prod_pos in P1. apply prod_pos in P4. nia.
  - now rewrite Et.
  - rewrite Et in *. change (rt (leaf c)) with (fst c) in *. rewrite S. cbn [fst]. rewrite Ek in R'.
    change [leaf c] with (map leaf [c]) in R'. rewrite <- map_app in R'.
    replace (done ++ c :: todo) with ((done ++ [c]) ++ todo) in * by now rewrite <- app_assoc.
    destruct todo as [|c' todo']. { cbn [map run]. rewrite app_nil_r. exact R'. }
    apply IH with (done := done ++ [c]) (tp := N p (map leaf (done ++ [c]))); try assumption; try reflexivity.
    + rewrite depth_N. pose proof (depths_leaves (done ++ [c])). lia.
    + rewrite ids_N, ids_leaves. reflexivity.
    + pose proof R' as R2. rewrite rep_N in R2. destruct R2 as [R2 _]. unfold isComp in R2. intro Q. rewrite Q in R2. discriminate.
    + intros c1 Hc1. eapply rep_ext; [|apply Hr; right; exact Hc1]. intros j Hj. rewrite O; [reflexivity|]. rewrite Ei. cbn [leaf ids In] in *. destruct Hj as [<-|[]].
      intros Hin. apply NoDup_cons_iff in ND. destruct ND as [N1 N2]. rewrite map_app in N1, N2. rewrite map_app in N1, N2. rewrite !in_app_iff in N1. cbn [map In] in N1.
      apply NoDup_app_disj in N2. destruct N2 as (_ & _ & N2). cbn [app In] in Hin. rewrite in_app_iff in Hin. cbn [In] in Hin.
      destruct Hin as [Hin|[Hin|[Hin|[]]]].
      * apply N1. right. rewrite Hin. exact (in_map fst (c' :: todo') c1 Hc1).
      * apply (N2 (fst c1)); [rewrite in_app_iff; now left|exact (in_map fst (c' :: todo') c1 Hc1)].
      * apply (N2 (fst c1)); [rewrite in_app_iff; right; cbn; now left|exact (in_map fst (c' :: todo') c1 Hc1)].
    + discriminate.
Qed.
Lemma setDim_root : forall lim h i d0 d, (1 <= lim)%nat -> rep h None 1 1 (L i d0) -> (forall t, In t (terms (h i)) -> exists q, t = TSingle q false) -> 0 < d -> d < 2 ^ 53 ->
  exists h', setDim lim i d h = (h', Ok tt) /\ rep h' None 1 1 (L i d) /\ (forall j, j <> i -> h' j = h j).
Proof.
  intros lim h i d0 d Hl R HT Hd Hb.
  pose proof (setDim_leaf lim h [] i d0 1 1 None d) as HS. cbn [repc cids] in HS. cbn [cdepth List.length cfac] in HS.
  specialize (HS ltac:(auto) R ltac:(repeat constructor; auto) ltac:(lia) Hd ltac:(lia)).
  destruct lim as [|l]; [lia|]. cbn [hasConsistent] in HS.
  destruct (terms (h i)) as [|t ts] eqn:Et.
  - assert (sup (h i) = None) as Es by (cbn in R; tauto). rewrite Es in HS. destruct HS as (h' & S & _ & R' & O & _). exists h'. split; [assumption|]. split; [assumption|].
    intros j Hj. apply O. cbn. intuition.
  - destruct (HT t (or_introl eq_refl)) as (q & ->). cbn in HS. destruct HS as (h' & S & _ & R' & O & _). exists h'. split; [assumption|]. split; [assumption|].
    intros j Hj. apply O. cbn. intuition.
Qed.
Lemma flat_dims : forall lim cs h, (1 <= lim)%nat -> NoDup (map fst cs) ->
  (forall c, In c cs -> 0 < snd c < 2 ^ 53 /\ (forall t, In t (terms (h (fst c))) -> exists q, t = TSingle q false) /\ exists d0, rep h None 1 1 (L (fst c) d0)) ->
  (forall c, In c cs -> rep (run lim (map (fun c => OSetDim (fst c) (snd c)) cs) h) None 1 1 (leaf c)) /\
  (forall j, ~ In j (map fst cs) -> run lim (map (fun c => OSetDim (fst c) (snd c)) cs) h j = h j).
Proof.
  intros lim. induction cs as [|c cs IH]; intros h Hl ND Hc; [split; [contradiction|reflexivity]|].
  cbn [map run exec]. inversion ND as [|? ? Nin ND']; subst.
  destruct (Hc c (or_introl eq_refl)) as (Hd & HT & d0 & R). destruct (setDim_root lim h (fst c) d0 (snd c)) as (h' & S & R' & O); auto; try lia.
  rewrite S. cbn [fst]. destruct (IH h') as [A B]; auto.
  - intros c' Hc'. destruct (Hc c' (or_intror Hc')) as (Hd' & HT' & d0' & Rr).
    assert (Hn : fst c' <> fst c) by (intros E; apply Nin; rewrite <- E; now apply in_map).
    split; [assumption|]. rewrite (O _ Hn). split; [exact HT'|]. exists d0'. eapply rep_ext; [|exact Rr]. cbn. intros j [<-|[]]. now rewrite O.
  - split.
    + intros c' [<-|Hc']; [|now apply A]. eapply rep_ext; [|exact R']. cbn. intros j [<-|[]]. now rewrite B.
    + intros j Hj. cbn [In] in Hj. rewrite B by tauto. apply O. intros ->. apply Hj. now left.
Qed.
Lemma reps_nth : forall h i a ts b k t, reps h i a b ts -> nth_error ts k = Some t ->
  rep h (Some i) (b * tdims (firstn k ts)) (a * tdims (skipn (S k) ts)) t.
Proof.
  induction ts as [|u ts IH]; intros b k t R E; [destruct k; discriminate|]. cbn [reps] in R. destruct R as [R1 R2].
  destruct k as [|k]; cbn [nth_error] in E.
  - injection E as <-. cbn [firstn skipn]. rewrite tdims_nil, Z.mul_1_r. exact R1.
  - cbn [firstn skipn]. rewrite tdims_cons. specialize (IH _ _ _ R2 E). rewrite <- Z.mul_assoc in IH. exact IH.
Qed.

(** ** No two systems contain each other directly. *)
Definition no2 (h : heap) : Prop := forall i j, i <> j -> In j (subs (h i)) -> In i (subs (h j)) -> False.
Definition keeps {X} (P : heap -> Prop) (m : M X) : Prop := forall h, P h -> P (fst (m h)).
Lemma keeps_ret : forall X P (x : X), keeps P (ret x). Proof. intros X P x h H. exact H. Qed.
Lemma keeps_raise : forall X P e, keeps P (@raise X e). Proof. intros X P e h H. exact H. Qed.
Lemma keeps_get : forall P i, keeps P (get i). Proof. intros P i h H. exact H. Qed.
Lemma keeps_look : forall X P (f : heap -> result X), keeps P (look f). Proof. intros X P f h H. exact H. Qed.
Lemma keeps_lift : forall X P (r : result X), keeps P (lift r). Proof. intros X P r h H. exact H. Qed.
Lemma keeps_bind : forall X Y P (m : M X) (f : X -> M Y), keeps P m -> (forall x, keeps P (f x)) -> keeps P (mbind m f).
Proof. intros X Y P m f Hm Hf h H. unfold mbind. specialize (Hm h H). destruct (m h) as [h' [x|e]]; cbn [fst] in *; [now apply Hf|assumption]. Qed.
Lemma keeps_for : forall X P (l : list X) f, (forall x, keeps P (f x)) -> keeps P (for_ l f).
Proof. induction l; intros f Hf; cbn [for_]; [apply keeps_ret|apply keeps_bind; auto]. Qed.
Lemma no2_ext : forall h h', no2 h -> (forall j k, In k (subs (h' j)) -> In k (subs (h j))) -> no2 h'.
Proof. intros h h' H E i j N A B. exact (H i j N (E _ _ A) (E _ _ B)). Qed.
(** The heaps that have the same sub-systems as a given one. *)
Definition same (h0 h : heap) : Prop := forall j, subs (h j) = subs (h0 j).
Lemma keeps_modify_same : forall h0 i f, (forall x, subs (f x) = subs x) -> keeps (same h0) (modify i f).
Proof. intros h0 i f E h H j. cbn. destruct (Nat.eq_dec j i) as [->|]; [rewrite upf_same, E|rewrite upf_other by assumption]; apply H. Qed.
Lemma same_setAttr : forall h0 i fld wr v, (forall v x, subs (wr v x) = subs x) -> keeps (same h0) (setAttrZ i fld wr v).
Proof.
  intros. unfold setAttrZ. apply keeps_bind; [apply keeps_get|intros x]. destruct (fld x =? v); [apply keeps_ret|].
  apply keeps_bind; [now apply keeps_modify_same|intros _; now apply keeps_modify_same].
Qed.
Lemma same_setAB : forall h0 lim b i v, keeps (same h0) (setAB lim b i v).
Proof.
  intros h0. induction lim as [|l IH]; intros b i v; [apply keeps_raise|]. cbn [setAB]. apply keeps_bind; [apply keeps_get|intros x].
  apply keeps_bind; [apply same_setAttr; destruct b; reflexivity|intros _]. apply keeps_for. intros s.
  apply keeps_bind; [apply keeps_get|intros y]. apply keeps_bind; [apply keeps_lift|intros w]. apply IH.
Qed.
Lemma same_updateDimension : forall h0 lim p s new old, keeps (same h0) (updateDimension lim p s new old).
Proof.
  intros h0. induction lim as [|l IH]; intros p s new old; [apply keeps_raise|]. cbn [updateDimension].
  repeat first [apply keeps_bind; [|intros ?] | apply keeps_for; intros ? | apply keeps_get | apply keeps_look | apply keeps_lift | apply same_setAB | apply keeps_ret
    | match goal with |- keeps _ (if ?b then _ else _) => destruct b | |- keeps _ (match ?b with Some _ => _ | None => _ end) => destruct b end | apply IH].
Qed.
Lemma same_setDim : forall h0 lim i d, keeps (same h0) (setDim lim i d).
Proof.
  intros. unfold setDim.
  repeat first [apply keeps_bind; [|intros ?] | apply keeps_get | apply keeps_look | apply same_updateDimension | apply keeps_ret | apply keeps_raise
    | apply same_setAttr; reflexivity | apply keeps_modify_same; reflexivity
    | match goal with |- keeps _ (if ?b then _ else _) => destruct b | |- keeps _ (match ?b with Some _ => _ | None => _ end) => destruct b end].
Qed.
Lemma no2_same : forall X (m : M X), (forall h0, keeps (same h0) m) -> keeps no2 m.
Proof. intros X m H h Hh. eapply no2_ext; [exact Hh|]. intros j k. rewrite (H h h (fun _ => eq_refl)). auto. Qed.
Lemma no2_add : forall lim p c, keeps no2 (addSub lim p c).
Proof.
  intros lim p c h Hh. unfold addSub. rewrite get_step. destruct (memb p (subs (h c))) eqn:Em; [exact Hh|]. rewrite get_step.
  match goal with |- no2 (fst (mbind ?m ?f h)) => assert (K1 : keeps (same h) m); [|specialize (K1 h (fun _ => eq_refl)); unfold mbind at 1; destruct (m h) as [h1 [[]|e]]; cbn [fst] in * ] end.
  { destruct (comp (h p)) as [[]|]; [apply keeps_ret|apply keeps_raise|now apply keeps_modify_same]. }
  2:{ eapply no2_ext; [exact Hh|]. intros j k. now rewrite K1. }
  match goal with |- no2 (fst (mbind ?m ?f h1)) => assert (K2 : keeps (same h) m); [|specialize (K2 h1 K1); unfold mbind at 1; destruct (m h1) as [h2 [[]|e]]; cbn [fst] in * ] end.
  { destruct (memb c (subs (h p))); [apply keeps_ret|].
    repeat first [apply keeps_bind; [|intros ?] | apply keeps_for; intros ? | apply keeps_get | apply keeps_look | apply same_setAB]. }
  2:{ eapply no2_ext; [exact Hh|]. intros j k. now rewrite K2. }
  rewrite modify_step. unfold flag. rewrite modify_step. unfold modify. cbn [fst].
  set (h3 := upf p (set_upd true) (upf c (set_sup (Some p)) h2)).
  assert (K3 : same h h3). { intros j. unfold h3. destruct (Nat.eq_dec j p) as [->|]; [rewrite upf_same|rewrite upf_other by assumption];
    cbn [set_upd subs]; (destruct (Nat.eq_dec _ c) as [->|] in |- * || idtac);
    match goal with |- subs (upf ?c _ _ ?k) = _ => destruct (Nat.eq_dec k c) as [->|]; [rewrite upf_same|rewrite upf_other by assumption] end; cbn [set_sup subs]; apply K2. }
  assert (Ec : ~ In p (subs (h c))). { intro X. apply memb_In in X. congruence. }
  assert (E : forall j, subs (upf p (fun x => set_subs (if memb c (subs x) then subs x else subs x ++ [c]) x) h3 j) =
    if Nat.eqb j p then (if memb c (subs (h p)) then subs (h p) else subs (h p) ++ [c]) else subs (h j)).
  { intros j. destruct (Nat.eqb_spec j p) as [->|]; [rewrite upf_same|rewrite upf_other by assumption; apply K3]. cbn [set_subs subs]. now rewrite K3. }
  intros i j N A B. rewrite E in A, B.
  assert (G : forall k, In k (if memb c (subs (h p)) then subs (h p) else subs (h p) ++ [c]) -> k = c \/ In k (subs (h p))).
  { intros k. destruct (memb c (subs (h p))); [auto|]. rewrite in_app_iff. cbn. intuition. }
  destruct (Nat.eqb_spec i p) as [Ei|Ei]; destruct (Nat.eqb_spec j p) as [Ej|Ej].
  - congruence.
  - apply G in A. rewrite Ei in *. destruct A as [A|A]; [rewrite A in B; contradiction|]. exact (Hh p j N A B).
  - apply G in B. rewrite Ej in *. destruct B as [B|B]; [rewrite B in A; contradiction|]. exact (Hh i p N A B).
  - exact (Hh i j N A B).
Qed.
Lemma no2_filter : forall p f, keeps no2 (modify p (fun x => set_subs (filter f (subs x)) x)).
Proof.
  intros p f h Hh. eapply no2_ext; [exact Hh|]. intros j k. cbn. destruct (Nat.eq_dec j p) as [->|]; [rewrite upf_same|rewrite upf_other by assumption; auto].
  cbn. rewrite filter_In. tauto.
Qed.
Lemma no2_rm : forall lim p c exc, keeps no2 (rmSub lim p c exc).
Proof.
  induction lim as [|l IH]; intros p c exc; [apply keeps_raise|]. cbn [rmSub].
  assert (KA : forall l' q, keeps no2 (addAll (S l) q l')).
  { induction l' as [|x l' IHl]; intros q; cbn [addAll]; [apply keeps_ret|apply keeps_bind; [apply no2_add|intros; apply IHl]]. }
  assert (KM : forall i f, (forall x, subs (f x) = subs x) -> keeps no2 (modify i f)) by (intros; apply no2_same; intros; now apply keeps_modify_same).
  apply keeps_bind; [apply keeps_get|intros x].
  assert (KK : forall X (m : M X) (o : option bool), keeps no2 m -> keeps no2 (match o with Some false => raise ValueError | _ => m end)).
  { intros X m [[]|] H; auto. apply keeps_raise. }
  apply KK. apply keeps_bind.
  - destruct (memb c (subs x)).
    + apply keeps_bind; [apply keeps_get|intros y]. apply keeps_bind.
      * destruct (isComp y).
        -- apply keeps_bind.
           { generalize (exc ++ [p]). induction (subs y) as [|q qs IHq]; intros e; [apply keeps_ret|]. apply keeps_bind; [apply IH|intros e']. apply IHq. }
           intros e. apply keeps_bind; [apply no2_filter|intros _]. apply keeps_bind; [apply KA|intros _; apply keeps_ret].
        -- apply keeps_bind; [apply no2_same; intros; apply same_setDim|intros _]. apply keeps_bind; [apply no2_filter|intros _].
           apply keeps_bind; [apply no2_same; intros; now apply same_setAttr|intros _; apply keeps_ret].
      * intros e. apply keeps_bind; [now apply KM|intros _]. apply keeps_bind; [apply no2_same; intros; apply same_setAB|intros _].
        apply keeps_bind; [apply no2_same; intros; apply same_setAB|intros _; apply keeps_ret].
    + destruct (memb p exc); [apply keeps_ret|]. apply keeps_bind.
      * generalize (exc ++ [p]). induction (subs x) as [|q qs IHq]; intros e; [apply keeps_ret|]. apply keeps_bind; [apply keeps_get|intros z].
        destruct (isComp z); [|apply IHq]. apply keeps_bind; [apply IH|intros e']. destruct (memb c e'); [apply keeps_ret|apply IHq].
      * intros [e []]; [apply keeps_ret|]. apply keeps_bind; [apply keeps_get|intros z]. destruct (sup z); [apply IH|apply keeps_ret].
  - intros e. apply keeps_bind; [destruct (Nat.eqb c p); [apply keeps_ret|now apply KM]|intros _]. apply keeps_bind; [now apply KM|intros _; apply keeps_ret].
Qed.
Lemma no2_exec : forall lim o, keeps no2 (exec lim o).
Proof.
  intros lim o.
  assert (KM : forall i f, (forall x, subs (f x) = subs x) -> keeps no2 (modify i f)) by (intros; apply no2_same; intros; now apply keeps_modify_same).
  destruct o; cbn [exec].
  - apply no2_same; intros; apply same_setDim.
  - apply no2_add.
  - unfold removeSub. apply keeps_bind; [apply no2_rm|intros; apply keeps_ret].
  - unfold createTerm, addTerm, flag. repeat first [apply keeps_bind; [|intros ?] | apply keeps_look | apply KM; reflexivity].
  - unfold createCoupling, addTerm, flag. apply keeps_bind; [apply keeps_get|intros x]. destruct (negb (isComp x)); [apply keeps_raise|].
    apply keeps_bind; [apply keeps_for; intros q; apply keeps_bind; [apply keeps_look|intros []; [apply keeps_ret|apply keeps_raise]]|intros _].
    destruct (negb _); [apply keeps_raise|]. repeat first [apply keeps_bind; [|intros ?] | apply keeps_look | apply KM; reflexivity].
  - unfold setOperator, flag. apply keeps_bind; [apply keeps_get|intros x]. destruct (nth_error (terms x) k) as [[]|]; try apply keeps_raise.
    repeat first [apply keeps_bind; [|intros ?] | apply keeps_look | apply KM; reflexivity].
  - apply KM; reflexivity.
  - apply KM; reflexivity.
Qed.
Lemma no2_run : forall lim os h, no2 h -> no2 (run lim os h).
Proof. induction os; intros h H; [exact H|]. cbn [run]. apply IHos. now apply no2_exec. Qed.

(** ** Direct removal of a single system: what else changes. *)
Definition others (c p : oid) (h0 h : heap) : Prop := forall j,
  (j <> c -> isComp (h0 j) = false -> dim (h j) = dim (h0 j)) /\ (j <> p -> subs (h j) = subs (h0 j)) /\ (j <> c -> sup (h j) = sup (h0 j)).
Lemma oth_modify : forall c p h0 i f, (forall x, (dim (f x) = dim x \/ i = c \/ isComp (h0 i) = true) /\ (subs (f x) = subs x \/ i = p) /\ (sup (f x) = sup x \/ i = c)) -> keeps (others c p h0) (modify i f).
Proof.
  intros c p h0 i f E h H j. cbn. destruct (Nat.eq_dec j i) as [->|]; [rewrite upf_same|rewrite upf_other by assumption; apply H].
  destruct (H i) as (A & B & C). destruct (E (h i)) as (Ea & Eb & Ec). repeat split.
  - intros N T. destruct Ea as [->|[|Ea]]; [auto|contradiction|congruence].
  - intros N. destruct Eb as [->|]; [auto|contradiction].
  - intros N. destruct Ec as [->|]; [auto|contradiction].
Qed.
Ltac oth := apply oth_modify; intros ?; cbn; intuition.
Lemma oth_setAB : forall c p h0 lim b i v, keeps (others c p h0) (setAB lim b i v).
Proof.
  intros c p h0. induction lim as [|l IH]; intros b i v; [apply keeps_raise|]. cbn [setAB]. apply keeps_bind; [apply keeps_get|intros x].
  apply keeps_bind.
  - unfold setAttrZ. apply keeps_bind; [apply keeps_get|intros y]. destruct (_ =? v); [apply keeps_ret|].
    apply keeps_bind; [destruct b; oth|intros _; unfold flag; oth].
  - intros _. apply keeps_for. intros s. apply keeps_bind; [apply keeps_get|intros y]. apply keeps_bind; [apply keeps_lift|intros w]. apply IH.
Qed.
Lemma oth_updateDimension : forall c p0 h0 lim p s new old, keeps (others c p0 h0) (updateDimension lim p s new old).
Proof.
  intros c p0 h0. induction lim as [|l IH]; intros p s new old; [apply keeps_raise|]. cbn [updateDimension].
  repeat first [apply keeps_bind; [|intros ?] | apply keeps_for; intros ? | apply keeps_get | apply keeps_look | apply keeps_lift | apply oth_setAB | apply keeps_ret
    | match goal with |- keeps _ (if ?b then _ else _) => destruct b | |- keeps _ (match ?b with Some _ => _ | None => _ end) => destruct b end | apply IH].
Qed.
Lemma oth_setDim : forall c p h0 lim d, keeps (others c p h0) (setDim lim c d).
Proof.
  intros. unfold setDim, setAttrZ, flag.
  repeat first [apply keeps_bind; [|intros ?] | apply keeps_get | apply keeps_look | apply oth_updateDimension | apply keeps_ret | apply keeps_raise
    | progress oth
    | match goal with |- keeps _ (if ?b then _ else _) => destruct b | |- keeps _ (match ?b with Some _ => _ | None => _ end) => destruct b end].
Qed.
Lemma oth_rm : forall lim p c exc h, isComp (h p) = true -> In c (subs (h p)) -> isComp (h c) = false -> others c p h (fst (rmSub lim p c exc h)).
Proof.
  intros [|l] p c exc h Hp Hin Hc; [repeat split; auto|].
  rewrite rmSub_S, get_step, (isComp_not_false _ _ _ _ Hp). apply memb_In in Hin. rewrite Hin. cbv zeta.
  assert (K : keeps (others c p h) (
    exc' <- (exc0 <- (setDim (S l) c 1;;; modify p (fun x => set_subs (filter (fun s => negb (s =? c)%nat) (subs x)) x) ;;; setAttrZ p dim set_dimF (dim (h c)) ;;; ret (exc ++ [p]));;
             modify c (set_sup None) ;;; setAB (S l) false c 1 ;;; setAB (S l) true c 1 ;;; ret (exc0 ++ [c])) ;;
    (if Nat.eqb c p then ret tt else modify p (dropTerms c)) ;;; flag p ;;; ret exc')).
  { unfold setAttrZ, flag.
    repeat first [apply oth_setDim | apply oth_setAB | apply keeps_bind; [|intros ?] | apply keeps_get | apply keeps_ret
     | progress oth
     | match goal with |- keeps _ (if ?b then _ else _) => destruct b end]. }
  specialize (K h). unfold mbind at 1 in K. unfold mbind at 1. rewrite get_step, Hc. apply K. repeat split; auto.
Qed.
Lemma remove_ok : forall lim h p c, WF lim h -> In c (subs (h p)) -> isComp (h c) = false ->
  exists h', removeSub lim p c h = (h', Ok tt) /\
    (sup (h' c) = None /\ isComp (h' c) = false /\ dim (h' c) = 1 /\ dB (h' c) = 1 /\ dA (h' c) = 1) /\
    (exists l l', subs (h p) = l ++ c :: l' /\ subs (h' p) = l ++ l' /\ ~ In c l /\ ~ In c l') /\
    others c p h h' /\
    (forall j, terms (h' j) = if Nat.eqb j p then filter (fun t => negb (mentions c t)) (terms (h p)) else terms (h j)).
Proof.
  intros lim h p c (own & F & I) Hin Hc. pose proof I as (I1 & I2 & I3).
  destruct (Inv_child _ _ _ _ _ _ I Hin) as (cx & ls & u & rs & b & a & E & Eu & Eo & Rcx & Ru).
  destruct u as [j d|j ts]; cbn [rt] in Eu; subst j.
  2:{ rewrite rep_N in Ru. destruct Ru as [Ru _]. congruence. }
  destruct (I2 (own c) (I1 c)) as (J1 & J2 & J3 & J4 & J5 & J6). rewrite E in *.
  assert (ND : NoDup (c :: cids ((p, ls, rs) :: cx))).
  { eapply Permutation_NoDup in J3; [|apply ids_plug_perm]. exact J3. }
  pose proof (depth_plug ((p, ls, rs) :: cx) (L c d)) as [D1 D2]. cbn [List.length depth] in D1.
  destruct lim as [|l]; [lia|].
  assert (G1 : forall n x D l : nat, (S n + 1 <= D -> x <= D -> 2 * D <= S l -> n + 1 + x <= S l)%nat) by (intros; lia).
  assert (G2 : forall n D l : nat, (S n + 1 <= D -> 2 * D <= S l -> n + 1 < S l)%nat) by (intros; lia).
  pose proof (repc_cfac_pos _ _ _ _ _ _ _ Rcx) as Pf.
  assert (Pd : 0 < d) by (cbn in Ru; tauto).
  assert (Hbig : cfac ((p, ls, rs) :: cx) < 2 ^ 53).
  { rewrite tdim_plug in J5. cbn [tdim] in J5. revert Pf J5. generalize (cfac ((p, ls, rs) :: cx)). intros; nia. }
  destruct (rmSub_leaf l h cx p ls rs c d b a [] I3 Rcx Ru ND) as (h' & b' & a' & s' & S & Rc' & Rp' & Ri & O & T).
  { exact (G1 _ _ _ _ D1 D2 J4). }
  { exact (G2 _ _ _ D1 J4). }
  { exact Hbig. }
  exists h'. unfold removeSub. rewrite (mbind_ok _ _ _ _ _ _ _ S). split; [reflexivity|].
  split; [cbn [rep] in Ri; tauto|]. rewrite repc_cons in Rcx. destruct Rcx as (_ & Cp & Sp & _). split; [|split; [|exact T]].
  - rewrite rep_N in Rp'. destruct Rp' as (_ & Sp' & _). rewrite map_app in Sp'. exists (map rt ls), (map rt rs).
    split; [assumption|]. split; [assumption|]. apply NoDup_cons_iff in ND. destruct ND as [ND _]. rewrite cids_cons in ND.
    split; intros Hx; apply rts_in_ids in Hx; apply ND; right; rewrite !in_app_iff; auto.
  - pose proof (oth_rm (Datatypes.S l) p c [] h Cp Hin Hc) as Q. rewrite S in Q. exact Q.
Qed.

(** ** Pauli checks. *)
Lemma setDim_pauli_first : forall lim h i d t ts, terms (h i) = t :: ts -> isComp (h i) = false -> subs (h i) = [] ->
  checkTermDim d t = Err ValueError -> 
  exists h', setDim (S lim) i d h = (h', Err ValueError) /\ (forall j, core (h' j) = core (h j) /\ terms (h' j) = terms (h j) /\ upd (h' j) = upd (h j)).
Proof.
  intros lim h i d t ts Et Hc Hs Hck. unfold setDim. rewrite get_step. pose proof Hc as Hc'. unfold isComp in Hc'.
  destruct (comp (h i)) as [[]|] eqn:Ec; try discriminate.
  - rewrite ret_step, get_step, Hc. destruct (d <=? 0). { exists h. auto. }
    unfold look, mbind. cbn [hasConsistent]. rewrite Et, Hck. cbn [bind]. exists h. auto.
  - rewrite modify_step, get_step, upf_same, Hs. cbn [List.length Nat.eqb negb].
    assert (isComp (set_comp (Some false) (h i)) = false) as -> by reflexivity.
    set (h1 := upf i (set_comp (Some false)) h).
    assert (G : forall j, core (h1 j) = core (h j) /\ terms (h1 j) = terms (h j) /\ upd (h1 j) = upd (h j)).
    { intros j. unfold h1. destruct (Nat.eq_dec j i) as [->|]; [|now rewrite upf_other]. rewrite upf_same. unfold core, isComp. cbn. now rewrite Ec. }
    destruct (d <=? 0). { exists h1. auto. }
    unfold look, mbind. cbn [hasConsistent]. destruct (G i) as (_ & -> & _). rewrite Et, Hck. cbn [bind]. exists h1. auto.
Qed.
Lemma checkMulti_nopauli : forall d qs ps, List.length qs = List.length ps -> Forall (fun p => p = false) ps -> checkMulti d qs ps = Ok tt.
Proof. induction qs as [|q qs IH]; intros [|p ps] E F; try discriminate; [reflexivity|]. inversion F; subst. cbn. apply IH; auto. Qed.
Lemma hasConsistent_nopauli : forall h c i D b a s lim d, tok h -> repc h c i D b a s -> sup (h i) = s -> (List.length c < lim)%nat ->
  (forall j t, In t (terms (h j)) -> noPauli t) -> exists bl, hasConsistent lim h i d = Ok bl.
Proof.
  intros h c. induction c as [|[[p ls] rs] c IH]; intros i D b a s [|lim] d T Rc Hs Hl HP; cbn [List.length] in Hl; try lia; cbn [hasConsistent].
  - destruct (terms (h i)) as [|t ts] eqn:Et.
    + cbn [repc] in Rc. destruct Rc as (_ & _ & ->). rewrite Hs. eauto.
    + assert (Hin : In t (terms (h i))) by (rewrite Et; now left). pose proof (HP _ _ Hin) as Np. destruct t as [q pl|qs ps]; cbn [noPauli checkTermDim] in *.
      * subst pl. cbn. eauto.
      * rewrite checkMulti_nopauli; [cbn; eauto|eauto|assumption].
  - destruct (terms (h i)) as [|t ts] eqn:Et.
    + rewrite repc_cons in Rc. destruct Rc as (-> & _ & _ & _ & _ & _ & _ & Ro). rewrite Hs. eapply IH; eauto. lia.
    + assert (Hin : In t (terms (h i))) by (rewrite Et; now left). pose proof (HP _ _ Hin) as Np. destruct t as [q pl|qs ps]; cbn [noPauli checkTermDim] in *.
      * subst pl. cbn. eauto.
      * rewrite checkMulti_nopauli; [cbn; eauto|eauto|assumption].
Qed.
Lemma setDim_accepted : forall lim h i d, WF lim h -> fine lim h (OSetDim i d) -> isComp (h i) = false -> 0 < d ->
  (forall j t, In t (terms (h j)) -> noPauli t) ->
  exists h', setDim lim i d h = (h', Ok tt) /\ dim (h' i) = d /\ isComp (h' i) = false.
Proof.
  intros lim h i d (own & F & I) Hf Hc Hd HP. pose proof I as (I1 & I2 & I3).
  destruct (Inv_leaf _ _ _ _ i I Hc) as (c & b & a & s & E & Rc & Rt & ND & Hl & Hl2 & P).
  assert (Hroot : root h (own i)) by (apply (root_own _ _ _ _ _ I); apply I1).
  specialize (Hf _ _ _ Hroot P Hc). pose proof (repc_ba _ _ _ _ _ _ _ Rc) as Eba.
  assert (Hbig : d * cfac c < 2 ^ 53) by (rewrite <- Eba; replace (d * (b * a)) with (b * d * a) by ring; exact Hf).
  pose proof (setDim_leaf lim h c i (dim (h i)) b a s d Rc Rt ND Hl Hd Hbig) as HS.
  assert (Hs : sup (h i) = s) by (cbn in Rt; tauto).
  destruct (hasConsistent_nopauli h c i _ b a s lim d I3 Rc Hs Hl2 HP) as (bl & Eb). rewrite Eb in HS.
  destruct HS as (h' & S & _ & R' & _). exists h'. split; [assumption|]. cbn in R'. tauto.
Qed.

(** ** A decision procedure for fine calls, used for the concrete examples. *)
Fixpoint nestedb (h : heap) (i : oid) (n : nat) : bool :=
  match n with O => false | S m => if isComp (h i) then forallb (fun s => nestedb h s m) (subs (h i)) else true end.
Lemma nestedb_sound : forall h n i, nestedb h i n = true -> nested h i n.
Proof.
  induction n as [|n IH]; intros i H; [discriminate|]. cbn [nestedb] in H. destruct (isComp (h i)) eqn:E; [|now constructor].
  apply N_comp; [assumption|]. intros s Hs. apply IH. rewrite forallb_forall in H. now apply H.
Qed.
Definition isRoot (h : heap) (i : oid) : bool := match sup (h i) with None => true | _ => false end.
Definition fineb (lim : nat) (h : heap) (o : op) : bool :=
  match o with
  | OSetDim i d => isComp (h i) || (dB (h i) * d * dA (h i) <? 2 ^ 53)
  | OAdd p c => memb c (subs (h p)) ||
      (isRoot h p && isRoot h c && negb (Nat.eqb p c) && match dimension lim h p, dimension lim h c with Ok x, Ok y => x * y <? 2 ^ 53 | _, _ => false end &&
       nestedb h c (lim / 2 - 1))
  | ORemove p c => memb c (subs (h p)) && negb (isComp (h c))
  | _ => true
  end.
Lemma isRoot_true : forall h i, isRoot h i = true -> root h i.
Proof. unfold isRoot, root. intros h i. destruct (sup (h i)); congruence. Qed.
Lemma fineb_sound : forall lim h o, (4 <= lim)%nat -> WF lim h -> fineb lim h o = true -> fine lim h o.
Proof.
  intros lim h o Hl W. destruct o; cbn [fineb fine]; auto.
  - intros H r b a Hr P Hc. rewrite Hc in H. cbn [orb] in H. apply Z.ltb_lt in H. destruct (Inv_booked lim h W r Hr) as [_ Q]. destruct (Q _ _ _ P) as [<- <-]. exact H.
  - rewrite Bool.orb_true_iff. intros [H|H]; [left; now apply memb_In|right]. rewrite !Bool.andb_true_iff in H. destruct H as ((((H1 & H2) & H3) & H4) & H5).
    split; [now apply isRoot_true|]. split; [now apply isRoot_true|]. split; [intros ->; rewrite Nat.eqb_refl in H3; discriminate|]. split.
    + intros dp dc D1 D2. destruct (WF_dimension lim h p W) as (x & E1 & _ & _ & U1). destruct (WF_dimension lim h c W) as (y & E2 & _ & _ & U2).
      rewrite E1, E2 in H4. apply Z.ltb_lt in H4. now rewrite (U1 _ D1), (U2 _ D2).
    + exists (lim / 2 - 1)%nat. split; [now apply nestedb_sound|]. pose proof (Nat.div_mod lim 2 ltac:(lia)). lia.
  - rewrite Bool.andb_true_iff. intros [H1 H2]. split; [now apply memb_In|]. now destruct (isComp (h c)).
Qed.
Fixpoint allFineb (lim : nat) (os : list op) (h : heap) : bool :=
  match os with [] => true | o :: os' => fineb lim h o && allFineb lim os' (fst (exec lim o h)) end.
Lemma allFineb_sound : forall lim os h, (4 <= lim)%nat -> WF lim h -> allFineb lim os h = true -> allFine lim os h.
Proof.
  induction os as [|o os IH]; intros h Hl W H; [exact I|]. cbn [allFineb allFine] in *. apply Bool.andb_true_iff in H. destruct H as [H1 H2].
  assert (F : fine lim h o) by now apply fineb_sound. split; [assumption|]. apply IH; auto. now apply exec_WF.
Qed.
