(** Proofs about + and -. *)
From Verif Require Import Py QDimModel QDimSpec QDimProofs PlusModel PlusSpec.
#[local] Open Scope Z_scope.

Lemma has_dim_tdim : forall lim h own F r, Inv lim h own F -> own r = r -> forall d, has_dim h r d -> d = tdim (F r).
Proof.
  intros lim h own F r (I1 & I2 & _) O d H. destruct (I2 r O) as (J1 & J2 & _). rewrite <- J1 in H. eapply has_dim_fun; eauto.
Qed.

(** Fields that adding leaves alone. *)
Definition tame (p c : oid) (h0 h : heap) : Prop := forall j, dim (h j) = dim (h0 j) /\
  (j <> p -> comp (h j) = comp (h0 j) /\ subs (h j) = subs (h0 j)) /\ (j <> c -> sup (h j) = sup (h0 j)).
Lemma tame_modify : forall p c h0 i f, (forall x, dim (f x) = dim x /\ (i <> p -> comp (f x) = comp x /\ subs (f x) = subs x) /\ (i <> c -> sup (f x) = sup x)) -> keeps (tame p c h0) (modify i f).
Proof.
  intros p c h0 i f E h H j. cbn. destruct (Nat.eq_dec j i) as [->|]; [rewrite upf_same|rewrite upf_other by assumption; apply H].
  destruct (E (h i)) as (E1 & E2 & E3). destruct (H i) as (H1 & H2 & H3). rewrite E1. split; [assumption|]. split; intros N.
  - destruct (E2 N) as [-> ->]. now apply H2.
  - rewrite E3 by assumption. now apply H3.
Qed.
Lemma tame_setAttr : forall p c h0 i fld wr v, (forall v x, dim (wr v x) = dim x /\ comp (wr v x) = comp x /\ subs (wr v x) = subs x /\ sup (wr v x) = sup x) ->
  keeps (tame p c h0) (setAttrZ i fld wr v).
Proof.
  intros p c h0 i fld wr v E. unfold setAttrZ. apply keeps_bind; [apply keeps_get|intros x]. destruct (fld x =? v); [apply keeps_ret|].
  apply keeps_bind; [|intros _]; apply tame_modify; intros y.
  - destruct (E v y) as (-> & -> & -> & ->). auto.
  - cbn. auto.
Qed.
Lemma tame_setAB : forall p c h0 lim b i v, keeps (tame p c h0) (setAB lim b i v).
Proof.
  intros p c h0. induction lim as [|l IH]; intros b i v; [apply keeps_raise|]. cbn [setAB]. apply keeps_bind; [apply keeps_get|intros x].
  apply keeps_bind; [apply tame_setAttr; destruct b; cbn; auto|intros _]. apply keeps_for. intros s.
  apply keeps_bind; [apply keeps_get|intros y]. apply keeps_bind; [apply keeps_lift|intros w]. apply IH.
Qed.
Lemma tame_add : forall lim p c h0, keeps (tame p c h0) (addSub lim p c).
Proof.
  intros lim p c h0. unfold addSub. apply keeps_bind; [apply keeps_get|intros y]. destruct (memb p (subs y)); [apply keeps_raise|].
  apply keeps_bind; [apply keeps_get|intros x]. apply keeps_bind.
  { destruct (comp x) as [[]|]; [apply keeps_ret|apply keeps_raise|]. apply tame_modify. intros z. cbn. intuition congruence. }
  intros _. apply keeps_bind.
  { destruct (memb c (subs x)); [apply keeps_ret|]. apply keeps_for. intros s.
    repeat first [apply keeps_bind; [|intros ?] | apply keeps_get | apply keeps_look | apply tame_setAB]. }
  intros _. apply keeps_bind; [apply tame_modify; intros z; cbn; intuition congruence|intros _].
  apply keeps_bind; [apply tame_modify; intros z; cbn; intuition congruence|intros _].
  apply tame_modify. intros z. cbn. intuition congruence.
Qed.
Lemma depth_nested : forall h t s b a n, rep h s b a t -> (depth t <= n)%nat -> nested h (rt t) n.
Proof.
  intros h. induction t as [i d|i ts IH] using tree_ind'; intros s b a n R H.
  - cbn in H. destruct n; [lia|]. cbn [rep rt] in *. apply N_single. tauto.
  - rewrite depth_N in H. destruct n as [|n]; [lia|]. apply le_S_n in H. rewrite rep_N in R. destruct R as (R1 & R2 & _ & _ & _ & R).
    cbn [rt]. apply N_comp; [assumption|]. rewrite R2. clear R1 R2. revert b R. induction ts as [|t ts IHt]; intros b R j Hj; [contradiction|].
    cbn [reps] in R. destruct R as [Ra Rb]. inversion IH as [|? ? H1 H2]; subst. rewrite depths_cons in H. destruct Hj as [<-|Hj].
    + eapply H1; [exact Ra|]. eapply Nat.le_trans; [|exact H]. apply Nat.le_max_l.
    + eapply IHt; eauto. eapply Nat.le_trans; [|exact H]. apply Nat.le_max_r.
Qed.

(** Adding one system to another that stands alone. *)
Lemma add_ok : forall lim h p c dc dl, WF lim h -> root h p -> root h c -> p <> c -> comp (h p) <> Some false -> fits lim h p c ->
  has_dim h c dc -> has_dims h (subs (h p)) dl ->
  exists h', addSub lim p c h = (h', Ok tt) /\ fine lim h (OAdd p c) /\
    comp (h' p) = Some true /\ subs (h' p) = subs (h p) ++ [c] /\ root h' p /\ sup (h' c) = Some p /\
    dimension lim h' p = Ok (dl * dc) /\
    (forall j, root h j -> j <> p -> (forall d, has_dim h j d -> has_dim h' j d) /\ (forall m, nested h j m -> nested h' j m)) /\
    tame p c h h' /\
    (forall j, apart h p c j -> h' j = h j) /\
    (forall j, terms (h' j) = terms (h j)).
Proof.
  intros lim h p c dc dl W Rp Rc Hpc Hcomp (Hd & n & Hn & Hlim) HDc HDl.
  assert (Fi : fine lim h (OAdd p c)). { right. repeat split; auto. exists n. auto. }
  pose proof W as W0. destruct W as (own & F & I). pose proof I as (I1 & I2 & I3).
  pose proof (proj1 (root_own _ _ _ _ _ I) Rp) as Op. pose proof (proj1 (root_own _ _ _ _ _ I) Rc) as Oc.
  destruct (I2 p Op) as (P1 & P2 & P3 & P4 & P5 & P6). destruct (I2 c Oc) as (C1 & C2 & C3 & C4 & C5 & C6).
  assert (Hnd : NoDup (ids (F p) ++ ids (F c))).
  { assert (D : forall j, In j (ids (F p)) -> In j (ids (F c)) -> False) by (intros j Hj Hj'; apply P6 in Hj; apply C6 in Hj'; congruence).
    clear - P3 C3 D. induction (ids (F p)) as [|x l IH]; [assumption|]. cbn. inversion P3; subst. constructor.
    - rewrite in_app_iff. intros [Hx|Hx]; [contradiction|]. apply (D x); cbn; auto.
    - apply IH; auto. intros j Hj. apply D. now right. }
  assert (Hprod : tdim (F p) * tdim (F c) < 2 ^ 53).
  { apply Hd; [rewrite <- P1 at 1|rewrite <- C1 at 1]; eapply rep_has_dim; eassumption. }
  assert (Hk : tdims (kids (F p)) * tdim (F c) < 2 ^ 53).
  { destruct (F p) as [i0 d0|i0 ts] eqn:EF; cbn [kids]; [|exact Hprod]. rewrite tdims_nil. pose proof (tdim_pos _ _ _ _ _ P2). cbn [tdim] in *. lia. }
  assert (Hdc : (depth (F c) <= n)%nat). { eapply nested_depth; [exact C2|]. rewrite C1. exact Hn. }
  assert (Hcomp' : comp (h (rt (F p))) <> Some false) by (now rewrite P1).
  destruct (addSub_rep lim h (F p) (F c) P2 C2 Hnd) as (h' & S & R & O & T); [lia|lia|exact Hk|exact Hcomp'|]. rewrite P1, C1 in *.
  pose proof R as R0. rewrite rep_N in R0. destruct R0 as (R1 & R2 & R3 & R4 & R5 & R6).
  assert (Ek : map rt (kids (F p)) = subs (h p)).
  { pose proof (rep_root _ _ _ _ _ P2) as (_ & _ & _ & Es). rewrite P1 in Es. rewrite Es. destruct (F p); reflexivity. }
  assert (El : tdims (kids (F p)) = dl).
  { destruct (F p) as [i0 d0|i0 ts] eqn:EF; cbn [kids] in *.
    - cbn [map] in Ek. rewrite <- Ek in HDl. inversion HDl. reflexivity.
    - cbn [rt] in P1. subst i0. pose proof P2 as P2'. rewrite rep_N in P2'. destruct P2' as (_ & _ & _ & _ & _ & P2').
      rewrite <- Ek in HDl. symmetry. eapply has_dims_fun; eauto. }
  assert (Ec : tdim (F c) = dc) by (symmetry; eapply has_dim_tdim; eauto).
  exists h'. split; [exact S|]. split; [exact Fi|].
  split. { unfold isComp in R1. destruct (comp (h' p)) as [[]|]; congruence. }
  split. { rewrite R2, map_app, Ek. cbn [map]. now rewrite C1. }
  split; [assumption|]. split.
  { apply reps_app in R6. destruct R6 as [_ R6]. cbn [reps] in R6. destruct R6 as [R6 _]. pose proof (rep_root _ _ _ _ _ R6) as (_ & _ & Q & _). now rewrite C1 in Q. }
  split.
  { change p with (rt (N p (kids (F p) ++ [F c]))) at 1. rewrite (dimension_rep _ _ _ _ _ lim R).
    - rewrite tdim_N, tdims_app, tdims_cons, tdims_nil, El, Ec. do 2 f_equal. ring.
    - rewrite depth_N, depths_app. cbn [depths fold_right]. destruct (F p) as [i0 d0|i0 ts]; cbn [kids]; [cbn [depths fold_right]; lia|rewrite depth_N in P4; lia]. }
  split; [|split; [|split; [|exact T]]].
  - intros j Rj Hj. pose proof (proj1 (root_own _ _ _ _ _ I) Rj) as Oj. destruct (I2 j Oj) as (J1 & J2 & J3 & J4 & J5 & J6).
    assert (Q : exists s b a, rep h' s b a (F j)).
    { destruct (Nat.eq_dec j c) as [->|Hjc].
      - apply reps_app in R6. destruct R6 as [_ R6]. cbn [reps] in R6. destruct R6 as [R6 _]. eauto.
      - exists None, 1, 1. eapply rep_ext; [|exact J2]. intros k Hk'. rewrite O; [reflexivity|]. apply J6 in Hk'. rewrite in_app_iff, P6, C6. intros [H|H]; congruence. }
    destruct Q as (s & b & a & Q). split.
    + intros d HDj. rewrite (has_dim_tdim _ _ _ _ _ I Oj _ HDj). rewrite <- J1 at 1. eapply rep_has_dim. exact Q.
    + intros m Hm. rewrite <- J1 in Hm |- *. eapply depth_nested; [exact Q|]. eapply nested_depth; [exact J2|exact Hm].
  - pose proof (tame_add lim p c h h) as K. rewrite S in K. apply K. intros k. auto.
  - intros j (r & x & y & Rr & Hrp & Hrc & Pl). apply O. pose proof (proj1 (root_own _ _ _ _ _ I) Rr) as Or.
    destruct (I2 r Or) as (J1 & J2 & J3 & J4 & J5 & J6). rewrite <- J1 in Pl.
    destruct (placed_ctx h (F r) J2 _ _ _ Pl) as (cx & t & o & E & Et & _). assert (In j (ids (F r))) as Hj.
    { rewrite E. apply ids_plug. left. rewrite <- Et. apply rt_in. }
    apply J6 in Hj. rewrite in_app_iff, P6, C6. intros [H|H]; congruence.
Qed.

Lemma add_WF' : forall lim h p c h', WF lim h -> addSub lim p c h = (h', Ok tt) -> fine lim h (OAdd p c) -> WF lim h'.
Proof. intros lim h p c h' W E Fi. pose proof (add_WF lim h p c W Fi) as K. now rewrite E in K. Qed.
Lemma WF_dims : forall lim h l, WF lim h -> exists d, has_dims h l d.
Proof.
  intros lim h l W. induction l as [|i l (r & IH)]; [exists 1; constructor|]. destruct (WF_dimension lim h i W) as (d & _ & Hd & _).
  exists (d * r). now constructor.
Qed.
Lemma has_dims_snoc : forall h l c d dc, has_dims h l d -> has_dim h c dc -> has_dims h (l ++ [c]) (d * dc).
Proof.
  intros h l c d dc H Hc. induction H as [|i l d r Hi Hl IH] using has_dims_ind; cbn [app].
  - rewrite Z.mul_comm. apply HD_cons; [assumption|constructor].
  - rewrite <- Z.mul_assoc. now apply HD_cons.
Qed.

(** A fresh composite of two systems. *)
Lemma pair_ok : forall lim h new a b da db, WF lim h -> untouched h new -> root h a -> root h b -> NoDup [new; a; b] ->
  has_dim h a da -> has_dim h b db -> da * db < 2 ^ 53 ->
  (exists n, nested h a n /\ (2 * (n + 1) <= lim)%nat) -> (exists n, nested h b n /\ (2 * (n + 1) <= lim)%nat) ->
  exists h', addAll lim new [a; b] h = (h', Ok tt) /\ h' = run lim [OAdd new a; OAdd new b] h /\ allFine lim [OAdd new a; OAdd new b] h /\
    comp (h' new) = Some true /\ subs (h' new) = [a; b] /\ root h' new /\ sup (h' a) = Some new /\ sup (h' b) = Some new /\
    dimension lim h' new = Ok (da * db) /\
    (forall j, j <> new -> dim (h' j) = dim (h j) /\ comp (h' j) = comp (h j) /\ subs (h' j) = subs (h j)) /\
    (forall j, apart h a b j -> j <> new -> h' j = h j) /\
    (forall j, terms (h' j) = terms (h j)).
Proof.
  intros lim h new a b da db W (U1 & U2 & U3 & U4) Ra Rb ND Ha Hb Hbig Na Nb.
  assert (Q : new <> a /\ new <> b /\ a <> b). { inversion ND as [|? ? K1 K2]; subst. inversion K2 as [|? ? K3 K4]; subst. cbn in *. intuition. }
  destruct Q as (Qa & Qb & Qab).
  assert (Pa : 0 < da). { destruct (WF_dimension lim h a W) as (d & _ & _ & P & E). now rewrite (E _ Ha). }
  assert (Pb : 0 < db). { destruct (WF_dimension lim h b W) as (d & _ & _ & P & E). now rewrite (E _ Hb). }
  assert (In1 : isComp (h new) = false) by (unfold isComp; now rewrite U1).
  assert (Pn : 0 < dim (h new)). { destruct (WF_dimension lim h new W) as (d & _ & _ & P & E). rewrite (E (dim (h new))) by now constructor. assumption. }
  destruct (add_ok lim h new a da 1 W U3 Ra Qa) as (h1 & S1 & F1 & A1 & A2 & A3 & A4 & A5 & A6 & A7 & A8 & A9).
  { rewrite U1. discriminate. }
  { split; [|assumption]. intros dp dc Hp Hc. destruct (WF_dimension lim h new W) as (d & _ & _ & _ & E). rewrite (E _ Hp), <- (E (dim (h new))) by now constructor.
    destruct (WF_dimension lim h a W) as (d' & _ & _ & _ & E'). rewrite (E' _ Hc), <- (E' _ Ha), U4. nia. }
  { assumption. }
  { rewrite U2. constructor. }
  pose proof (add_WF' _ _ _ _ _ W S1 F1) as W1. rewrite Z.mul_1_l in A5.
  assert (Rb1 : root h1 b). { unfold root. destruct (A7 b) as (_ & _ & ->); [assumption|congruence]. }
  destruct (A6 b Rb) as [B1 B2]; [congruence|].
  destruct (A6 a Ra) as [B3 B4]; [congruence|].
  assert (Hn1 : has_dim h1 new da). { destruct (WF_dimension lim h1 new W1) as (d & E & H & _ & _). congruence. }
  destruct (add_ok lim h1 new b db da W1 A3 Rb1) as (h2 & S2 & F2 & C1 & C2 & C3 & C4 & C5 & C6 & C7 & C8 & C9).
  { assumption. }
  { rewrite A1. discriminate. }
  { split; [|destruct Nb as (n & Hn & Hl); exists n; auto]. intros dp dc Hp Hc. destruct (WF_dimension lim h1 new W1) as (d & _ & _ & _ & E).
    rewrite (E _ Hp), <- (E _ Hn1). destruct (WF_dimension lim h1 b W1) as (d' & _ & _ & _ & E'). rewrite (E' _ Hc), <- (E' _ (B1 _ Hb)). nia. }
  { auto. }
  { rewrite A2, U2. cbn [app]. replace da with (da * 1) by ring. constructor; [auto|constructor]. }
  exists h2. cbn [addAll run exec allFine]. rewrite (mbind_ok _ _ _ _ _ _ _ S1), (mbind_ok _ _ _ _ _ _ _ S2), S1. cbn [fst]. rewrite S2. cbn [fst].
  split; [reflexivity|]. split; [reflexivity|]. split; [auto|]. split; [assumption|]. split; [now rewrite C2, A2, U2|]. split; [assumption|].
  split. { destruct (C7 a) as (_ & _ & ->); [assumption|congruence]. }
  split; [assumption|]. split; [assumption|]. split; [|split].
  - intros j Hj. destruct (C7 j) as (K1 & K2 & _). destruct (A7 j) as (K3 & K4 & _). destruct (K2 Hj) as [K5 K6]. destruct (K4 Hj) as [K7 K8].
    repeat split; congruence.
  - intros j (r & x & y & Rr & Hra & Hrb & Pl) Hj.
    (* via WF: systems of other roots *)
    destruct (Nat.eq_dec r new) as [->|Hrn].
    { exfalso. apply Hj. clear - Pl U2. induction Pl as [|p b' a' l s l' bl al P IH C Es Hl Hl']; [reflexivity|].
      rewrite IH in Es. rewrite U2 in Es. destruct l; discriminate. }
    assert (K : h1 j = h j) by (apply A8; exists r, x, y; auto).
    rewrite <- K. apply C8.
    assert (Keep : forall i x' y', placed h r i x' y' -> h1 i = h i). { intros i x' y' P. apply A8. exists r, x', y'. auto. }
    destruct W1 as (own & F & I).
    destruct (Inv_path _ _ _ _ j I) as (cc & t & b1 & a1 & s1 & E1 & E2 & E3 & E4 & E5).
    pose proof I as (I1 & I2 & I3). destruct (I2 (own j) (I1 j)) as (J1 & J2 & J3 & J4 & J5 & J6).
    pose proof (ctx_placed h1 cc t s1 b1 a1) as Q. rewrite E2 in Q. specialize (Q E3 E4). rewrite <- E1, J1 in Q.
    exists (own j), b1, a1. assert (Ro : root h1 (own j)) by (apply (root_own _ _ _ _ _ I); apply I1).
    split; [assumption|].
    assert (Eo : own j = r).
    { assert (own r = r) as Or. { apply (root_own _ _ _ _ _ I). unfold root. rewrite (Keep r 1 1) by constructor. assumption. }
      transitivity (own r); [|assumption].
      clear - Pl Keep I. induction Pl as [|p b' a' l s l' bl al P IH C Es Hl Hl']; [reflexivity|].
      rewrite <- IH. assert (Hin : In s (subs (h1 p))). { rewrite (Keep _ _ _ P), Es. apply in_or_app. right. now left. }
      destruct (Inv_child _ _ _ _ _ _ I Hin) as (_ & _ & _ & _ & _ & _ & _ & _ & E & _). exact E. }
    rewrite Eo in *. repeat split; auto.
  - intros j. now rewrite C9.
Qed.

Lemma WF_positive : forall lim h i d, WF lim h -> has_dim h i d -> 0 < d.
Proof. intros lim h i d W H. destruct (WF_dimension lim h i W) as (d' & _ & _ & P & E). now rewrite (E _ H). Qed.
Lemma WF_positives : forall lim h l d, WF lim h -> has_dims h l d -> 0 < d.
Proof. intros lim h l d W H. induction H as [|i l d r Hi Hl IH] using has_dims_ind; [lia|]. apply (WF_positive lim) in Hi; [nia|assumption]. Qed.
Lemma single_dim : forall h i, comp (h i) = Some false -> has_dim h i (dim (h i)).
Proof. intros h i H. constructor. unfold isComp. now rewrite H. Qed.
Lemma single_nested : forall h i n, comp (h i) = Some false -> nested h i (S n).
Proof. intros h i n H. constructor. unfold isComp. now rewrite H. Qed.
Lemma run_app : forall lim os os' h, run lim (os ++ os') h = run lim os' (run lim os h).
Proof. intros lim. induction os as [|o os IH]; intros os' h; cbn [app run]; auto. Qed.
Lemma allFine_app : forall lim os os' h, allFine lim os h -> allFine lim os' (run lim os h) -> allFine lim (os ++ os') h.
Proof. intros lim. induction os as [|o os IH]; intros os' h H H'; cbn [app allFine run] in *; [assumption|]. destruct H. split; auto. Qed.

(** One + of a composite and a single system. *)
Lemma plus_append : forall lim h new cp a b, openEnded (comp (h a)) = true -> comp (h b) <> Some true -> b <> a ->
  plus lim new cp a b h = (addSub lim a b ;;; ret a) h.
Proof.
  intros lim h new cp a b Ha Hb N. unfold plus. rewrite !get_step. destruct (Nat.eqb_spec b a); [contradiction|]. rewrite Ha.
  destruct (comp (h b)) as [[]|]; [congruence|reflexivity|reflexivity].
Qed.

Lemma chain_ok : forall lim rest acc h dl e h0, (4 <= lim)%nat -> WF lim h -> eval lim e h0 = (h, Ok acc) -> composite h acc ->
  (forall s, In s (map snd rest) -> single h s) -> NoDup (acc :: map snd rest) -> has_dims h (subs (h acc)) dl ->
  dl * prod (map (fun s => dim (h s)) (map snd rest)) < 2 ^ 53 ->
  exists h', eval lim (fold_left (fun e x => match x with (new, cp, s) => EPlus new cp e (ESys s) end) rest e) h0 = (h', Ok acc) /\
    h' = run lim (map (OAdd acc) (map snd rest)) h /\ allFine lim (map (OAdd acc) (map snd rest)) h /\ WF lim h' /\ composite h' acc /\
    subs (h' acc) = subs (h acc) ++ map snd rest /\ has_dims h' (subs (h' acc)) (dl * prod (map (fun s => dim (h s)) (map snd rest))) /\
    (forall j, j <> acc -> dim (h' j) = dim (h j) /\ comp (h' j) = comp (h j) /\ subs (h' j) = subs (h j)).
Proof.
  intros lim. induction rest as [|[[new cp] s] rest IH]; intros acc h dl e h0 Hl W E Hc Hs ND HD Hbig.
  - cbn [map prod fold_right fold_left run allFine] in *. exists h. rewrite app_nil_r, Z.mul_1_r. repeat split; auto; apply Hc.
  - cbn [map prod fold_right fold_left snd] in *. apply NoDup_cons_iff in ND. destruct ND as [N1 N2]. cbn [In] in N1.
    assert (Hsn : s <> acc) by intuition. destruct (Hs s) as [S1 S2]; [now left|]. destruct Hc as [Hc1 Hc2].
    fold (prod (map (fun s => dim (h s)) (map snd rest))) in *.
    assert (Pds : 0 < dim (h s)) by (apply (WF_positive lim h s); [assumption|now apply single_dim]).
    assert (Pdl : 0 < dl) by (eapply WF_positives; eauto).
    assert (Pr : 0 < prod (map (fun s => dim (h s)) (map snd rest))).
    { clear - W Hs. assert (K : forall s, In s (map snd rest) -> single h s) by (intros; apply Hs; now right). clear Hs. induction (map snd rest) as [|x l IHl]; [cbn; lia|].
      cbn [map prod fold_right]. fold (prod (map (fun s => dim (h s)) l)).
      assert (0 < dim (h x)) by (apply (WF_positive lim h x); [assumption|apply single_dim; apply K; now left]).
      assert (0 < prod (map (fun s => dim (h s)) l)) by (apply IHl; intros; apply K; now right). nia. }
    destruct (add_ok lim h acc s (dim (h s)) dl W Hc2 S2) as (h1 & K1 & F1 & A1 & A2 & A3 & A4 & A5 & A6 & A7 & A8 & A9).
    { congruence. }
    { rewrite Hc1. discriminate. }
    { split; [|exists 1%nat; split; [now apply single_nested|lia]]. intros dp dc Hp Hd.
      destruct (WF_dimension lim h acc W) as (d & _ & _ & _ & U). rewrite (U _ Hp), <- (U dl) by (apply HD_comp; [unfold isComp; now rewrite Hc1|assumption]).
      destruct (WF_dimension lim h s W) as (d' & _ & _ & _ & U'). rewrite (U' _ Hd), <- (U' _ (single_dim h s S1)). nia. }
    { now apply single_dim. }
    { assumption. }
    pose proof (add_WF' _ _ _ _ _ W K1 F1) as W1.
    assert (D1 : has_dims h1 (subs (h1 acc)) (dl * dim (h s))).
    { destruct (WF_dimension lim h1 acc W1) as (d & Ed & Hd & _). rewrite A5 in Ed. injection Ed as <-. inversion Hd; [|assumption]. subst. unfold isComp in *. rewrite A1 in *. discriminate. }
    assert (Ed : map (fun s => dim (h1 s)) (map snd rest) = map (fun s => dim (h s)) (map snd rest)).
    { apply map_ext_in. intros x _. apply A7. }
    destruct (IH acc h1 (dl * dim (h s)) (EPlus new cp e (ESys s)) h0) as (h2 & B1 & B2 & B3 & B4 & B5 & B6 & B7 & B8); auto.
    + cbn [eval]. rewrite (mbind_ok _ _ _ _ _ _ _ E), ret_step. rewrite plus_append; [|rewrite Hc1; reflexivity|congruence|assumption].
      now rewrite (mbind_ok _ _ _ _ _ _ _ K1).
    + split; assumption.
    + intros x Hx. destruct (Hs x) as [X1 X2]; [now right|]. destruct (A7 x) as (_ & T1 & T2). split.
      * rewrite (proj1 (T1 ltac:(intros ->; apply N1; now right))). assumption.
      * unfold root. rewrite T2; [assumption|]. intros ->. apply NoDup_cons_iff in N2. now destruct N2.
    + constructor; [intuition|]. now apply NoDup_cons_iff in N2.
    + rewrite Ed. lia.
    + exists h2. split; [exact B1|]. cbn [run exec allFine]. rewrite K1. cbn [fst]. rewrite Ed in *. repeat split; auto; try apply B5.
      * rewrite B6, A2, <- app_assoc. reflexivity.
      * rewrite Z.mul_assoc. exact B7.
      * destruct (B8 j H) as (-> & _). apply A7.
      * destruct (B8 j H) as (_ & -> & _). now apply A7.
      * destruct (B8 j H) as (_ & _ & ->). now apply A7.
Qed.
