From Verif Require Import Py ParamModel ParamSpec ParamProofs QHamModel QHamSpec.
From Coq Require Import Permutation.

Section Proofs.
Variable A : alg.
Variable lim : nat.
Notation hst := (hst A).
Notation S_ := (S_ A). Notation P_ := (P_ A). Notation C_ := (C_ A).
Notation cont := (cont A). Notation freq := (freq A). Notation dims := (dims A).
Notation mat := (mat A). Notation ham := (ham A). Notation flag := (flag A).
Notation pflag := (pflag A). Notation pmat := (pmat A).
Notation sysVal := (sysVal A). Notation termVal := (termVal A).

Local Notation "x <- m ;; f" := (mbind A m (fun x => f)) (at level 61, m at next level, right associativity).
Local Notation "m ;;; f" := (mbind A m (fun _ => f)) (at level 61, right associativity).

#[local] Arguments memb : simpl never.
Lemma memb_In i l : memb i l = true <-> In i l.
Proof. apply existsb_In. Qed.
Lemma memb_nIn i l : memb i l = false <-> ~ In i l.
Proof. apply existsb_nIn. Qed.

(** ** Specification values *)

(** The systems a term refers to. *)
Definition facs (k : content A) : list nat :=
  match k with COne _ q _ _ => [q] | CMany _ parts _ _ => map (fun x => fst (fst x)) parts end.

Section SysInd.
Variables (s : struct) (p : params A) (P : nat -> matT A -> Prop).
Hypothesis IH : forall i vs ws,
  Forall2 (sysVal s p) (subs s i) vs -> Forall2 P (subs s i) vs ->
  Forall2 (termVal p) (filter (active A p) (terms s i)) ws ->
  P i (add A (msum A vs) (msum A ws)).
Fixpoint sysVal_ind2 i m (H : sysVal s p i m) : P i m :=
  match H in QHamSpec.sysVal _ _ _ i m return P i m with
  | SysVal _ _ _ i vs ws H1 H2 =>
      IH i vs ws H1
        ((fix go l vs (H : Forall2 (sysVal s p) l vs) : Forall2 P l vs :=
            match H with
            | Forall2_nil _ => Forall2_nil _
            | Forall2_cons x y Hxy Hr => Forall2_cons x y (sysVal_ind2 x y Hxy) (go _ _ Hr)
            end) _ _ H1) H2
  end.
End SysInd.

Lemma below_trans s i x y : below s i x -> below s x y -> below s i y.
Proof. intros H. induction 1; [exact H|eapply B_step; eauto]. Qed.
Lemma below_cons s i x y : In x (subs s i) -> below s x y -> below s i y.
Proof. intros H. apply below_trans. eapply B_step; [apply B_refl|exact H]. Qed.

Lemma Forall2_impl_in {X Y} (R R' : X -> Y -> Prop) l l' :
  (forall x y, In x l -> R x y -> R' x y) -> Forall2 R l l' -> Forall2 R' l l'.
Proof.
  intros H F. induction F; constructor; [apply H; [left; reflexivity|assumption]|].
  apply IHF. intros; apply H; [right; assumption|assumption].
Qed.

Lemma sysVal_frame s p s' p' i m : sysVal s p i m ->
  (forall x, below s i x -> subs s' x = subs s x
     /\ filter (active A p') (terms s' x) = filter (active A p) (terms s x)
     /\ forall t v, In t (terms s x) -> active A p t = true -> termVal p t v -> termVal p' t v) ->
  sysVal s' p' i m.
Proof.
  intros H. revert i m H. refine (sysVal_ind2 s p _ _). intros i vs ws H1 H2 H3 F.
  destruct (F i (B_refl _ _)) as [Fs [Ft Fv]]. apply SysVal; rewrite ?Fs, ?Ft.
  - eapply Forall2_impl_in; [|exact H2]. intros x y Hx Hxy. apply Hxy.
    intros z Hz. apply F. eapply below_cons; eauto.
  - eapply Forall2_impl_in; [|exact H3]. intros t v Ht Hv. apply filter_In in Ht as [Ht Ha].
    apply Fv; assumption.
Qed.

Lemma F2_fun {X Y} (R R' : X -> Y -> Prop) l : forall a b,
  (forall x y z, In x l -> R x y -> R' x z -> y = z) -> Forall2 R l a -> Forall2 R' l b -> a = b.
Proof.
  induction l as [|x l IH]; intros a b H Ha Hb; inversion Ha; inversion Hb; subst; [reflexivity|].
  f_equal; [eapply H; eauto; left; reflexivity|]. apply IH; try assumption.
  intros; eapply H; eauto; right; assumption.
Qed.

Lemma termVal_fun p t v w : termVal p t v -> termVal p t w -> v = w.
Proof.
  intros [q op n f e H1 H2 H3|parts ops ords f es H1 H2 H3] [q' op' n' f' e' K1 K2 K3|parts' ops' ords' f' es' K1 K2 K3];
    rewrite K1 in H1; try discriminate; rewrite K2 in H2; injection H2 as <-; injection H1 as <- <- <-.
  - rewrite K3 in H3; injection H3 as <-; reflexivity.
  - f_equal. f_equal. eapply F2_fun; [|exact H3|exact K3]. cbn. intros x y z _ E1 E2. congruence.
Qed.

Lemma sysVal_fun s p i v : sysVal s p i v -> forall w, sysVal s p i w -> v = w.
Proof.
  revert i v. refine (sysVal_ind2 s p _ _). intros i vs ws H1 H2 H3 w K.
  inversion K as [i' vs' ws' K1 K2]; subst.
  f_equal; f_equal; (eapply F2_fun; [|eassumption|eassumption]); cbn.
  - intros x y z _ G1 G2. apply G1, G2.
  - intros x y z _. apply termVal_fun.
Qed.

Lemma mapR_F2 {X Y} (f : X -> result Y) l es : mapR f l = Ok es <-> Forall2 (fun x e => f x = Ok e) l es.
Proof.
  revert es; induction l as [|x l IH]; intros es; cbn.
  - split; [intros [= <-]; constructor|intros H; inversion H; reflexivity].
  - split.
    + destruct (f x) eqn:E; cbn; [|discriminate]. destruct (mapR f l); cbn; [|discriminate].
      intros [= <-]. constructor; [exact E|apply IH; reflexivity].
    + intros H; inversion H as [|? e ? es' H1 H2]; subst. rewrite H1; cbn. apply IH in H2. rewrite H2. reflexivity.
Qed.

Lemma construct_termVal p t f m : freq p t = Some f -> construct A p t = Ok m -> termVal p t (scale A f m).
Proof.
  unfold construct. intros Hf H. destruct (cont p t) as [q [o|] n|parts ops ords] eqn:E; [|discriminate|].
  - eapply TV_one; eauto.
  - destruct (mapR _ parts) as [es|] eqn:G; cbn in H; [|discriminate]. injection H as <-.
    eapply TV_many; eauto. apply mapR_F2, G.
Qed.
Lemma termVal_construct p t v : termVal p t v ->
  exists f m, freq p t = Some f /\ construct A p t = Ok m /\ v = scale A f m /\ active A p t = true.
Proof.
  intros [q op n f e H1 H2 H3|parts ops ords f es H1 H2 H3]; unfold construct, active; rewrite H1.
  - exists f, e; auto.
  - apply mapR_F2 in H3. exists f, (prod A es). rewrite H3. auto.
Qed.

Lemma construct_ext p p' t : cont p' t = cont p t -> (forall q, In q (facs (cont p t)) -> dims p' q = dims p q) ->
  construct A p' t = construct A p t.
Proof.
  unfold construct. intros -> H. destruct (cont p t) as [q [o|] n|parts ops ords]; [|reflexivity|].
  - rewrite H; [reflexivity|left; reflexivity].
  - f_equal. cbn [facs] in H. revert H.
    generalize (dims p') (dims p). intros d' d H.
    assert (G : forall l, (forall q, In q (map (fun x : nat * opT A * Z => fst (fst x)) l) -> d' q = d q) ->
      mapR (fun x => embed A (d' (fst (fst x))) (snd (fst x)) (snd x)) l
      = mapR (fun x => embed A (d (fst (fst x))) (snd (fst x)) (snd x)) l).
    { induction l as [|x l IH]; intros Hl; cbn; [reflexivity|].
      rewrite Hl by (left; reflexivity). rewrite IH by (intros; apply Hl; right; assumption). reflexivity. }
    apply G, H.
Qed.
Lemma termVal_ext p p' t v : cont p' t = cont p t -> freq p' t = freq p t ->
  (forall q, In q (facs (cont p t)) -> dims p' q = dims p q) -> termVal p t v -> termVal p' t v.
Proof.
  intros Hc Hf Hd H. destruct (termVal_construct _ _ _ H) as [f [m [E1 [E2 [-> _]]]]].
  apply construct_termVal; [congruence|]. rewrite (construct_ext p p'); assumption.
Qed.

(** ** The invariant *)

Definition partsOk (k : content A) : Prop :=
  match k with
  | COne _ _ _ _ => True
  | CMany _ parts ops ords => ops = map (fun x => snd (fst x)) parts /\ ords = map snd parts
  end.

Record SInv (s : struct) (p : params A) : Prop := {
  i_sys : forall x, isSys s x = true -> x < next s;
  i_sub : forall h c, In c (subs s h) -> isSys s c = true /\ isSys s h = true;
  i_bound : forall x y, In y (bound s x) -> isSys s y = true /\ x < next s;
  i_term : forall h t, In t (terms s h) -> isSys s h = true /\ t < next s /\ isSys s t = false;
  i_sup : forall c h, sup s c = Some h -> isSys s h = true;
  i_up : forall h c, In c (subs s h) -> In h (bound s c);
  i_tb : forall h t, In t (terms s h) -> In h (bound s t);
  i_fac : forall h t q, In t (terms s h) -> In q (facs (cont p t)) -> bpath (bound s) q h;
  i_nd : forall h, NoDup (terms s h)
}.
Definition held (s : struct) (t : nat) : Prop := exists h, In t (terms s h).
Definition cmat (st : hst) (t : nat) : Prop := forall m, mat (C_ st) t = Some m -> construct A (P_ st) t = Ok m.
Definition cham (st : hst) (t : nat) : Prop :=
  forall h m, ham (C_ st) t = Some h -> flag (C_ st) t = false -> mat (C_ st) t = Some m ->
    exists f, freq (P_ st) t = Some f /\ h = scale A f m.
Record Inv (st : hst) : Prop := {
  i_S : SInv (S_ st) (P_ st);
  i_par : forall t, partsOk (cont (P_ st) t);
  i_mat : forall t, held (S_ st) t -> cmat st t;
  i_ham : forall t, held (S_ st) t -> cham st t;
  i_val : forall s m, isSys (S_ st) s = true -> flag (C_ st) s = false -> mat (C_ st) s = Some m ->
          sysVal (S_ st) (P_ st) s m;
  i_uni : forall s, flag (C_ st) s = true -> pflag (C_ st) s = true \/ pmat (C_ st) s = false
}.

Lemma below_bpath s p i x : SInv s p -> below s i x -> bpath (bound s) x i.
Proof.
  intros I H. induction H as [|x y H IH Hy]; [apply BP_refl|].
  eapply bpath_cons; [|exact IH]. apply (i_up _ _ I), Hy.
Qed.
Lemma bpath_mono (b b' : nat -> list nat) x y : (forall z, incl (b z) (b' z)) -> bpath b x y -> bpath b' x y.
Proof. intros H. induction 1; [apply BP_refl|eapply BP_step; eauto; apply H; assumption]. Qed.

(** States with the same structure and parameters. *)
Definition same (st st' : hst) : Prop := S_ st' = S_ st /\ P_ st' = P_ st.
Lemma same_refl st : same st st. Proof. split; reflexivity. Qed.
Lemma same_trans a b c : same a b -> same b c -> same a c.
Proof. intros [H1 H2] [H3 H4]; split; congruence. Qed.

(** Flags raised, nothing else. *)
Definition raised (st st' : hst) : Prop :=
  same st st' /\ mat (C_ st') = mat (C_ st) /\ ham (C_ st') = ham (C_ st) /\ pmat (C_ st') = pmat (C_ st)
  /\ forall x, (flag (C_ st') x = flag (C_ st) x /\ pflag (C_ st') x = pflag (C_ st) x)
            \/ (flag (C_ st') x = true /\ pflag (C_ st') x = true).
Lemma raised_refl st : raised st st.
Proof. repeat split; auto. Qed.
Lemma raised_trans a b c : raised a b -> raised b c -> raised a c.
Proof.
  intros [H1 [H2 [H3 [H4 H5]]]] [K1 [K2 [K3 [K4 K5]]]].
  split; [eapply same_trans; eauto|]. repeat split; try congruence.
  intros x. destruct (K5 x) as [[E1 E2]|E]; [rewrite E1, E2; apply H5|right; exact E].
Qed.
Lemma raised_inv st st' : raised st st' -> Inv st -> Inv st'.
Proof.
  intros [[HS HP] [Hm [Hh [Hp Hf]]]] [I1 I2 I3 I4 I5 I6]. split; rewrite ?HS, ?HP; auto.
  - intros t Ht m. rewrite Hm, HP. apply I3, Ht.
  - intros t Ht h m. rewrite Hm, Hh, HP. intros E1 E2 E3. apply (I4 t Ht h m E1); [|exact E3].
    destruct (Hf t) as [[E _]|[E _]]; congruence.
  - intros s m Hs E1 E2. apply I5; [exact Hs| |congruence]. destruct (Hf s) as [[E _]|[E _]]; congruence.
  - intros s E. rewrite Hp. destruct (Hf s) as [[E1 E2]|[_ E2]]; [|left; exact E2].
    rewrite E2. apply I6. congruence.
Qed.

Lemma setUpdated_dec bd f : forall b o fl fl', setUpdated bd f b o fl = Some fl' ->
  forall x, bpath bd o x \/ ~ bpath bd o x.
Proof.
  induction f as [|f IH]; intros b o fl fl' E x; [discriminate|].
  destruct (Nat.eq_dec x o) as [->|Hne]; [left; apply BP_refl|].
  assert (G : (exists y, In y (bd o) /\ bpath bd y x) \/ (forall y, In y (bd o) -> ~ bpath bd y x)).
  { cbn in E. revert E. generalize (put fl o b). generalize (bd o). induction l as [|y l IHl]; intros g E.
    - right; intros y [].
    - destruct (setUpdated bd f b y g) as [g'|] eqn:Ey; [|discriminate].
      destruct (IH _ _ _ _ Ey x) as [H|H]; [left; exists y; split; [left; reflexivity|exact H]|].
      destruct (IHl g' E) as [[z [Hz K]]|K]; [left; exists z; split; [right; exact Hz|exact K]|right].
      intros z [<-|Hz]; [exact H|apply K, Hz]. }
  destruct G as [[y [Hy H]]|H]; [left; eapply bpath_cons; eauto|right].
  intros K. apply bpath_inv in K as [->|[y [Hy K]]]; [tauto|exact (H y Hy K)].
Qed.

Lemma flagUp_spec o st st' r : flagUp A lim o st = Some (st', r) ->
  r = Ok tt /\ raised st st'
  /\ (forall x, bpath (bound (S_ st)) o x -> flag (C_ st') x = true)
  /\ (forall x, ~ bpath (bound (S_ st)) o x -> flag (C_ st') x = flag (C_ st) x).
Proof.
  unfold flagUp. destruct (setUpdated _ _ _ _ (flag _)) as [f|] eqn:E1; [|discriminate].
  destruct (setUpdated _ _ _ _ (pflag _)) as [g|] eqn:E2; [|discriminate].
  intros [= <- <-]. split; [reflexivity|].
  destruct (setUpdated_exact _ _ _ _ _ _ E1) as [F1 F2]. destruct (setUpdated_exact _ _ _ _ _ _ E2) as [G1 G2].
  cbn. split; [|split; assumption]. repeat split; cbn.
  intros x.
  pose proof (setUpdated_dec _ _ _ _ _ _ E1 x) as D.
  destruct D as [D|D]; [right; split; [apply F1, D|apply G1, D]|left; split; [apply F2, D|apply G2, D]].
Qed.

(** ** Deleting matrices *)

(** Links followed by delMatrices. *)
Inductive conn (s : struct) (o : nat) : nat -> Prop :=
| C_refl : conn s o o
| C_step x y : conn s o x -> In y (bound s x) \/ In y (subs s x) \/ (isSys s x = true /\ In y (terms s x)) -> conn s o y.

Lemma conn_reachable s o x : conn s o x <-> reachable (objGraph s) (S o) (S x).
Proof.
  split.
  - induction 1 as [|x y H IH [K|[K|[K1 K2]]]]; [constructor| | |]; (eapply R_step; [exact IH|]).
    + left; left. cbn. apply in_map, K.
    + left; right; left. cbn. apply in_map, K.
    + right; split; cbn; [rewrite K1; reflexivity|apply in_map, K2].
  - intros H. assert (G : forall n, reachable (objGraph s) (S o) n -> match n with O => True | S x => conn s o x end).
    { clear x H. intros n H. induction H as [|p q H IH K]; [constructor|].
      destruct q as [|q]; [exact I|]. destruct p as [|p].
      - destruct K as [[K|[K|[[_ K]|[[K|K] _]]]]|[K _]]; cbn in K; first [contradiction|discriminate].
      - destruct K as [[K|[K|[[_ K]|[_ K]]]]|[K1 K2]]; try discriminate K; cbn in *.
        + apply in_map_iff in K as [z [[= ->] K]]. eapply C_step; [exact IH|tauto].
        + apply in_map_iff in K as [z [[= ->] K]]. eapply C_step; [exact IH|tauto].
        + apply in_map_iff in K2 as [z [[= ->] K2]]. eapply C_step; [exact IH|].
          destruct (isSys s p) eqn:E; [tauto|discriminate]. }
    exact (G _ H).
Qed.

Lemma objGraph_closed s p : SInv s p -> closed_graph (objGraph s) (seq 0 (S (next s))).
Proof.
  intros I. split.
  - intros p0 q Hp K. apply in_seq. destruct q as [|q]; [lia|].
    assert (q < next s); [|lia]. destruct p0 as [|x].
    + destruct K as [[K|[K|[[_ K]|[[K|K] _]]]]|[K _]]; cbn in K; first [contradiction|discriminate].
    + destruct K as [[K|[K|[[_ K]|[_ K]]]]|[_ K]]; try discriminate K; cbn in K;
        apply in_map_iff in K as [z [[= ->] K]].
      * apply (i_sys _ _ I), (i_bound _ _ I x), K.
      * apply (i_sys _ _ I), (proj1 (i_sub _ _ I _ _ K)).
      * exact (proj1 (proj2 (i_term _ _ I _ _ K))).
  - intros p0 q [K1 K2]. destruct p0 as [|x]; [destruct K2|]. cbn in K2.
    apply in_map_iff in K2 as [z [<- K2]]. cbn. destruct (i_term _ _ I _ _ K2) as [_ [_ ->]]. reflexivity.
Qed.

Definition cleared (st st' : hst) : Prop :=
  same st st' /\ ham (C_ st') = ham (C_ st) /\ flag (C_ st') = flag (C_ st) /\ pflag (C_ st') = pflag (C_ st)
  /\ forall x, (mat (C_ st') x = mat (C_ st) x /\ pmat (C_ st') x = pmat (C_ st) x)
            \/ (mat (C_ st') x = None /\ pmat (C_ st') x = false).
Lemma cleared_inv st st' : cleared st st' -> Inv st -> Inv st'.
Proof.
  intros [[HS HP] [Hh [Hf [Hp Hm]]]] [I1 I2 I3 I4 I5 I6]. split; rewrite ?HS, ?HP; auto.
  - intros t Ht m E. rewrite HP. destruct (Hm t) as [[E1 _]|[E1 _]]; [|congruence].
    apply I3; [exact Ht|congruence].
  - intros t Ht h m E1 E2 E3. rewrite HP. destruct (Hm t) as [[E _]|[E _]]; [|congruence].
    apply I4; congruence.
  - intros s m Hs E1 E2. destruct (Hm s) as [[E _]|[E _]]; [|congruence]. apply I5; congruence.
  - intros s E. rewrite Hp. destruct (Hm s) as [[_ ->]|[_ E2]]; [|right; exact E2]. apply I6; congruence.
Qed.

Lemma delM_spec o st st' r : SInv (S_ st) (P_ st) -> o < next (S_ st) -> delM A o st = Some (st', r) ->
  exists ex, r = Ok ex /\ cleared st st'
    /\ (forall x, In x ex <-> conn (S_ st) o x)
    /\ (forall x, conn (S_ st) o x -> mat (C_ st') x = None).
Proof.
  intros I Ho. unfold delM. cbv zeta.
  set (d := DState _ _ _ _ _).
  destruct (delMatrices_exact (objGraph (S_ st)) (seq 0 (S (next (S_ st)))) (2 * S (next (S_ st)) + 2) (S o) d)
    as [d' [E [H1 [H2 [_ [H4 _]]]]]].
  { eapply objGraph_closed, I. } { apply in_seq; lia. } { rewrite seq_length; lia. }
  rewrite E. intros [= <- <-]. eexists; split; [reflexivity|].
  assert (V : forall x, In x (d_ex d') <-> visited (objGraph (S_ st)) [] (S o) x).
  { intros x. rewrite H1. cbn. tauto. }
  assert (V' : forall x, In (S x) (d_ex d') <-> conn (S_ st) o x).
  { intros x. rewrite V, visited_nil, conn_reachable. tauto. }
  split; [|split].
  - repeat split; cbn. intros x. destruct (in_dec Nat.eq_dec (S x) (d_ex d')) as [Hx|Hx].
    + right. split; [apply H2; [apply V, Hx|intros []]|].
      apply andb_false_iff; right. apply negb_false_iff, memb_In, Hx.
    + left. split; [apply (H4 (S x)); right; cbn; rewrite <- V; exact Hx|].
      apply memb_nIn in Hx. rewrite Hx, andb_true_r. reflexivity.
  - intros x. rewrite <- V', in_flat_map. split.
    + intros [[|n] [Hn K]]; [destruct K|]. destruct K as [<-|[]]; exact Hn.
    + intros K. exists (S x); split; [exact K|left; reflexivity].
  - intros x K. cbn. apply (H2 (S x)); [apply V, V', K|intros []].
Qed.

Lemma delM_ok o st : Inv st -> isSys (S_ st) o = true -> exists st' ex, delM A o st = Some (st', Ok ex).
Proof.
  intros I Ho. unfold delM. cbv zeta. set (d := DState _ _ _ _ _).
  destruct (delMatrices_exact (objGraph (S_ st)) (seq 0 (S (next (S_ st)))) (2 * S (next (S_ st)) + 2) (S o) d)
    as [d' [E _]].
  { eapply objGraph_closed, I. }
  { apply in_seq. pose proof (i_sys _ _ (i_S _ I) _ Ho). lia. } { rewrite seq_length; lia. }
  rewrite E. eexists _, _; reflexivity.
Qed.

(** ** Reading *)

Lemma same_inv_eq st st' : same st st' -> forall s m, sysVal (S_ st') (P_ st') s m <-> sysVal (S_ st) (P_ st) s m.
Proof. intros [-> ->] s m; tauto. Qed.

Lemma upd_same {V} o (v : V) f : upd o v f o = v. Proof. apply put_same. Qed.
Lemma upd_other {V} o (v : V) f x : x <> o -> upd o v f x = f x. Proof. apply put_other. Qed.
Lemma upd_cases {V} o (v : V) f x : (x = o /\ upd o v f x = v) \/ (x <> o /\ upd o v f x = f x).
Proof. destruct (Nat.eq_dec x o) as [->|H]; [left; rewrite upd_same|right; rewrite upd_other]; auto. Qed.

Lemma readTerm_spec t st st' r : Inv st -> isSys (S_ st) t = false -> readTerm A t st = Some (st', r) ->
  same st st' /\ Inv st' /\ (held (S_ st) t -> forall v, r = Ok v -> termVal (P_ st) t v)
  /\ (held (S_ st) t -> forall v, termVal (P_ st) t v -> r = Ok v).
Proof.
  intros I Hs. unfold readTerm.
  destruct (freq (P_ st) t) as [f|] eqn:Ef.
  2:{ intros [= <- <-]. split; [apply same_refl|split; [exact I|split; [discriminate|]]].
      intros _ v Hv. apply termVal_construct in Hv as [f [m [E _]]]. congruence. }
  assert (Go : forall m, mat (C_ st) t = m ->
    match (match m with Some m => Ok m | None => construct A (P_ st) t end) with
    | Err e => Some (st, Err e)
    | Ok m => let h := scale A f m in
              Some (upC A (fun c => set_flag A (upd t false (flag c))
                          (set_ham A (upd t (Some h) (ham c))
                          (set_mat A (upd t (Some m) (mat c)) c))) st, Ok h)
    end = Some (st', r) ->
    same st st' /\ Inv st' /\ (held (S_ st) t -> forall v, r = Ok v -> termVal (P_ st) t v)
    /\ (held (S_ st) t -> forall v, termVal (P_ st) t v -> r = Ok v)).
  { intros mo Emo E.
    destruct (match mo with Some m => Ok m | None => construct A (P_ st) t end) as [m|e] eqn:Em.
    2:{ injection E as <- <-. split; [apply same_refl|split; [exact I|split; [discriminate|]]].
        intros Hh v Hv. destruct mo; [discriminate|]. apply termVal_construct in Hv as [f' [m [_ [E _]]]]. congruence. }
    cbv zeta in E. injection E as <- <-.
    assert (Hc : held (S_ st) t -> construct A (P_ st) t = Ok m).
    { intros Hh. destruct mo as [m'|]; [injection Em as <-; apply (i_mat _ I t Hh), Emo|exact Em]. }
    split; [split; reflexivity|]. split; [|split].
    - destruct I as [I1 I2 I3 I4 I5 I6]. split; cbn; auto.
      + intros x Hx m'. unfold cmat; cbn. destruct (upd_cases t (Some m) (mat (C_ st)) x) as [[-> ->]|[_ ->]]; [|apply I3, Hx].
        intros [= <-]. apply Hc, Hx.
      + intros x Hx h m'. cbn.
        destruct (Nat.eq_dec x t) as [->|Hne].
        * rewrite !upd_same. intros [= <-] _ [= <-]. exists f; auto.
        * rewrite !upd_other by exact Hne. apply I4, Hx.
      + intros s m' Hs' E1 E2. destruct (Nat.eq_dec s t) as [->|Hne]; [congruence|].
        rewrite upd_other in E1 by exact Hne. rewrite upd_other in E2 by exact Hne. apply I5; assumption.
      + intros s E. destruct (Nat.eq_dec s t) as [->|Hne]; [rewrite upd_same in E; discriminate|].
        rewrite upd_other in E by exact Hne. apply I6, E.
    - intros Hh v [= <-]. apply construct_termVal; auto.
    - intros Hh v Hv. f_equal. eapply termVal_fun; [|exact Hv]. apply construct_termVal; auto. }
  destruct (ham (C_ st) t) as [h|] eqn:Eh; [|apply Go; reflexivity].
  destruct (flag (C_ st) t) eqn:Efl; [apply Go; reflexivity|].
  destruct (mat (C_ st) t) as [m|] eqn:Em; [|apply (Go None); reflexivity].
  intros [= <- <-]. split; [apply same_refl|split; [exact I|split]].
  - intros Hh v [= <-]. destruct (i_ham _ I t Hh h m Eh Efl Em) as [f' [E1 ->]].
    apply construct_termVal; [exact E1|]. apply (i_mat _ I t Hh), Em.
  - intros Hh v Hv. destruct (i_ham _ I t Hh h m Eh Efl Em) as [f' [E1 ->]]. f_equal.
    eapply termVal_fun; [|exact Hv]. apply construct_termVal; [exact E1|]. apply (i_mat _ I t Hh), Em.
Qed.

Lemma sumM_spec (f : nat -> M A (matT A)) (R : hst -> nat -> matT A -> Prop) (Q : hst -> nat -> Prop) :
  (forall st st' x v, same st st' -> R st' x v -> R st x v) ->
  (forall st st' x, same st st' -> Q st x -> Q st' x) ->
  (forall x st st' r, Inv st -> Q st x -> f x st = Some (st', r) ->
     same st st' /\ Inv st' /\ forall v, r = Ok v -> R st x v) ->
  forall l acc st st' r, Inv st -> (forall x, In x l -> Q st x) -> sumM A f l acc st = Some (st', r) ->
    same st st' /\ Inv st'
    /\ forall v, r = Ok v -> exists vs, Forall2 (R st) l vs /\ v = fold_left (add A) vs acc.
Proof.
  intros HR HQ Hf. induction l as [|x l IH]; intros acc st st' r I Hl E; cbn in E.
  - injection E as <- <-. split; [apply same_refl|split; [exact I|]].
    intros v [= <-]. exists []; split; [constructor|reflexivity].
  - unfold mbind in E. destruct (f x st) as [[st1 [v|e]]|] eqn:E1; [| |discriminate].
    + destruct (Hf _ _ _ _ I (Hl x (or_introl eq_refl)) E1) as [S1 [I1 R1]].
      destruct (IH _ _ _ _ I1 (fun y Hy => HQ _ _ y S1 (Hl y (or_intror Hy))) E) as [S2 [I2 R2]].
      split; [eapply same_trans; eauto|split; [exact I2|]].
      intros w ->. destruct (R2 w eq_refl) as [vs [F ->]]. exists (v :: vs); split; [|reflexivity].
      constructor; [apply R1; reflexivity|]. eapply Forall2_impl_in; [|exact F]. intros; eapply HR; eauto.
    + injection E as <- <-. destruct (Hf _ _ _ _ I (Hl x (or_introl eq_refl)) E1) as [S1 [I1 R1]].
      split; [exact S1|split; [exact I1|discriminate]].
Qed.

Lemma readSys_spec n : forall s st st' r, Inv st -> isSys (S_ st) s = true -> readSys A n s st = Some (st', r) ->
  same st st' /\ Inv st' /\ (forall v, r = Ok v -> sysVal (S_ st) (P_ st) s v)
  /\ (forall v, r = Ok v -> flag (C_ st') s = false /\ mat (C_ st') s = Some v).
Proof.
  induction n as [|n IH]; intros s st st' r I Hs E; [discriminate|]. cbn in E.
  assert (Go : (x <- sumM A (readSys A n) (subs (S_ st) s) (zero A) ;;
           ts <- get A (fun st => filter (active A (P_ st)) (terms (S_ st) s)) ;;
           y <- sumM A (readTerm A) ts (zero A) ;;
           modify A (upC A (fun c => set_flag A (upd s false (flag c)) (set_mat A (upd s (Some (add A x y)) (mat c)) c))) ;;;
           ret A (add A x y)) st = Some (st', r) ->
    same st st' /\ Inv st' /\ (forall v, r = Ok v -> sysVal (S_ st) (P_ st) s v)
    /\ (forall v, r = Ok v -> flag (C_ st') s = false /\ mat (C_ st') s = Some v)).
  { clear E. intros E. unfold mbind at 1 in E.
    destruct (sumM A (readSys A n) (subs (S_ st) s) (zero A) st) as [[st1 r1]|] eqn:E1; [|discriminate].
    destruct (sumM_spec (readSys A n) (fun st x v => sysVal (S_ st) (P_ st) x v) (fun st x => isSys (S_ st) x = true))
      with (4 := I) (6 := E1) as [S1 [I1 R1]].
    { intros a b x v Hab H. apply (same_inv_eq _ _ Hab), H. }
    { intros a b x [-> _]; auto. }
    { intros x a b r0 Ia Hx Ea. destruct (IH _ _ _ _ Ia Hx Ea) as [G1 [G2 [G3 _]]]. auto. }
    { intros x Hx. apply (i_sub _ _ (i_S _ I) _ _ Hx). }
    destruct r1 as [x|e]; [|injection E as <- <-; split; [exact S1|split; [exact I1|split; discriminate]]].
    unfold mbind at 1, get in E. unfold mbind at 1 in E.
    destruct (sumM A (readTerm A) _ (zero A) st1) as [[st2 r2]|] eqn:E2; [|discriminate].
    destruct (sumM_spec (readTerm A) (fun st t v => termVal (P_ st) t v) (fun st t => held (S_ st) t /\ isSys (S_ st) t = false))
      with (4 := I1) (6 := E2) as [S2 [I2 R2]].
    { intros a b t v [_ ->]; auto. }
    { intros a b t [-> _]; auto. }
    { intros t a b r0 Ia [Hh Ht] Ea. destruct (readTerm_spec _ _ _ _ Ia Ht Ea) as [G1 [G2 [G3 _]]]. auto. }
    { intros t Ht. apply filter_In in Ht as [Ht _]. split; [exists s; exact Ht|].
      apply (i_term _ _ (i_S _ I1) _ _ Ht). }
    destruct r2 as [y|e];
      [|injection E as <- <-; split; [eapply same_trans; eauto|split; [exact I2|split; discriminate]]].
    unfold mbind, modify, ret in E. injection E as <- <-.
    assert (S12 : same st st2) by (eapply same_trans; eauto).
    assert (V : sysVal (S_ st) (P_ st) s (add A x y)).
    { destruct (R1 x eq_refl) as [vs [F1 ->]]. destruct (R2 y eq_refl) as [ws [F2 ->]].
      apply (SysVal A _ _ s vs ws); [exact F1|]. destruct S1 as [Q1 Q2]. rewrite Q1, Q2 in F2. exact F2. }
    assert (Hs2 : isSys (S_ st2) s = true) by (destruct S12 as [-> _]; exact Hs).
    split; [|split; [|split]].
    - destruct S12 as [Q1 Q2]. split; assumption.
    - apply (same_inv_eq _ _ S12) in V. destruct I2 as [J1 J2 J3 J4 J5 J6]. split; cbn; auto.
      + intros t Ht m. unfold cmat; cbn. destruct (Nat.eq_dec t s) as [->|Hne].
        * destruct Ht as [h Ht]. destruct (i_term _ _ J1 _ _ Ht) as [_ [_ K]]. congruence.
        * rewrite upd_other by exact Hne. apply J3, Ht.
      + intros t Ht h m. cbn. destruct (Nat.eq_dec t s) as [->|Hne].
        * destruct Ht as [h' Ht]. destruct (i_term _ _ J1 _ _ Ht) as [_ [_ K]]. congruence.
        * rewrite !upd_other by exact Hne. apply J4, Ht.
      + intros z m Hz. destruct (Nat.eq_dec z s) as [->|Hne].
        * rewrite upd_same. intros _. rewrite upd_same. intros [= <-]. exact V.
        * rewrite !upd_other by exact Hne. apply J5, Hz.
      + intros z Ez. destruct (Nat.eq_dec z s) as [->|Hne]; [rewrite upd_same in Ez; discriminate|].
        rewrite upd_other in Ez by exact Hne. apply J6, Ez.
    - intros v [= <-]. exact V.
    - intros v [= <-]. cbn. rewrite !upd_same. auto. }
  destruct (flag (C_ st) s) eqn:Efl; [apply Go, E|].
  destruct (mat (C_ st) s) as [m|] eqn:Em; [|apply Go, E].
  injection E as <- <-. split; [apply same_refl|split; [exact I|split]].
  - intros v [= <-]. apply (i_val _ I); assumption.
  - intros v [= <-]. auto.
Qed.

(** A read that has a value returns it, whatever is cached. *)
Lemma sumM_complete (f : nat -> M A (matT A)) (Q : hst -> nat -> Prop) l : forall vs acc st,
  (forall a b x, same a b -> Q a x -> Q b x) ->
  Forall2 (fun x v => forall a, same st a -> Inv a -> Q a x ->
             exists b, f x a = Some (b, Ok v) /\ same a b /\ Inv b) l vs ->
  Inv st -> (forall x, In x l -> Q st x) ->
  exists st', sumM A f l acc st = Some (st', Ok (fold_left (add A) vs acc)) /\ same st st' /\ Inv st'.
Proof.
  intros vs acc st HQ F. revert acc. 
  assert (G : forall a acc, same st a -> Inv a -> (forall x, In x l -> Q a x) ->
    exists st', sumM A f l acc a = Some (st', Ok (fold_left (add A) vs acc)) /\ same a st' /\ Inv st').
  { induction F as [|x v l vs Hx F IH]; intros a acc Sa Ia Hq; cbn.
    - exists a. split; [reflexivity|split; [apply same_refl|exact Ia]].
    - destruct (Hx a Sa Ia (Hq x (or_introl eq_refl))) as [b [E [Sb Ib]]]. unfold mbind. rewrite E.
      destruct (IH b (add A acc v)) as [c [Ec [Sc Ic]]].
      + eapply same_trans; eauto.
      + exact Ib.
      + intros y Hy. eapply HQ; [exact Sb|]. apply Hq; right; exact Hy.
      + exists c. split; [exact Ec|split; [eapply same_trans; eauto|exact Ic]]. }
  intros acc I Hq. apply G; [apply same_refl|exact I|exact Hq].
Qed.

Lemma readTerm_complete t v st : Inv st -> isSys (S_ st) t = false -> held (S_ st) t -> termVal (P_ st) t v ->
  exists st', readTerm A t st = Some (st', Ok v) /\ same st st' /\ Inv st'.
Proof.
  intros I Ht Hh Hv. destruct (readTerm A t st) as [[st' r]|] eqn:E.
  - destruct (readTerm_spec _ _ _ _ I Ht E) as [H1 [H2 [_ H3]]]. rewrite (H3 Hh v Hv).
    exists st'; auto.
  - exfalso. unfold readTerm in E. destruct (freq _ t); [|discriminate].
    destruct (ham (C_ st) t), (flag (C_ st) t), (mat (C_ st) t); cbn in E; try discriminate; destruct (construct A (P_ st) t); discriminate.
Qed.

Lemma readSys_complete S P s v : sysVal S P s v -> exists n0, forall n, n0 <= n -> forall st,
  S_ st = S -> P_ st = P -> Inv st -> isSys S s = true ->
  exists st', readSys A n s st = Some (st', Ok v) /\ same st st' /\ Inv st'.
Proof.
  intros V. assert (V0 := V). revert s v V V0.
  refine (sysVal_ind2 S P _ _). intros i vs ws H1 H2 H3 V.
  assert (N : exists n0, Forall2 (fun x v => forall n, n0 <= n -> forall st, S_ st = S -> P_ st = P -> Inv st ->
     isSys S x = true -> exists st', readSys A n x st = Some (st', Ok v) /\ same st st' /\ Inv st') (subs S i) vs).
  { clear H3 V. revert H1. induction H2 as [|x v l vs Hx F IH]; intros H1.
    - exists 0. constructor.
    - inversion H1; subst. destruct (Hx ltac:(assumption)) as [n1 K1]. destruct (IH ltac:(assumption)) as [n2 K2].
      exists (max n1 n2). constructor.
      + intros n Hn. apply K1. lia.
      + eapply Forall2_impl_in; [|exact K2]. intros y w _ G n Hn. apply G. lia. }
  destruct N as [n0 N]. exists (Datatypes.S n0). intros n Hn st ES EP I Hs.
  destruct n as [|n]; [lia|]. cbn [readSys].
  assert (Go : exists st', (x <- sumM A (readSys A n) (subs (S_ st) i) (zero A) ;;
           ts <- get A (fun st => filter (active A (P_ st)) (terms (S_ st) i)) ;;
           y <- sumM A (readTerm A) ts (zero A) ;;
           modify A (upC A (fun c => set_flag A (upd i false (flag c)) (set_mat A (upd i (Some (add A x y)) (mat c)) c))) ;;;
           ret A (add A x y)) st = Some (st', Ok (add A (msum A vs) (msum A ws)))).
  { destruct (sumM_complete (readSys A n) (fun st x => isSys (S_ st) x = true) (subs (S_ st) i) vs (zero A) st)
      as [st1 [E1 [S1 I1]]].
    { intros a b x [-> _]; auto. }
    { rewrite ES. eapply Forall2_impl_in; [|exact N]. intros x v _ G a [A1 A2] Ia Hx. apply G; try congruence. lia. }
    { exact I. }
    { intros x Hx. apply (i_sub _ _ (i_S _ I) _ _ Hx). }
    unfold mbind at 1. rewrite E1. unfold mbind at 1, get. cbv beta iota.
    destruct S1 as [Q1 Q2].
    destruct (sumM_complete (readTerm A) (fun st t => held (S_ st) t /\ isSys (S_ st) t = false)
       (filter (active A (P_ st1)) (terms (S_ st1) i)) ws (zero A) st1) as [st2 [E2 [S2 I2]]].
    { intros a b x [-> _]; auto. }
    { rewrite Q1, Q2, ES, EP. eapply Forall2_impl_in; [|exact H3]. intros t v _ G a [A1 A2] Ia [Hh Ht].
      apply readTerm_complete; auto. rewrite A2, Q2, EP. exact G. }
    { exact I1. }
    { intros t Ht. apply filter_In in Ht as [Ht _]. split; [exists i; exact Ht|].
      apply (i_term _ _ (i_S _ I1) _ _ Ht). }
    unfold mbind at 1. rewrite E2. eexists; reflexivity. }
  assert (Fin : exists st', readSys A (Datatypes.S n) i st = Some (st', Ok (add A (msum A vs) (msum A ws)))).
  { cbn [readSys]. destruct (flag (C_ st) i) eqn:Efl; [exact Go|]. destruct (mat (C_ st) i) as [m|] eqn:Em; [|exact Go].
    exists st. f_equal. f_equal. f_equal. eapply sysVal_fun; [|exact V].
    rewrite <- ES, <- EP. apply (i_val _ I); [rewrite ES; exact Hs|exact Efl|exact Em]. }
  destruct Fin as [st' E]. exists st'. split; [exact E|].
  destruct (readSys_spec (Datatypes.S n) i st st' _ I ltac:(rewrite ES; exact Hs) E) as [G1 [G2 _]]. auto.
Qed.

(** ** Changing caches *)
Definition uni (st : hst) (s : nat) : Prop :=
  flag (C_ st) s = true -> pflag (C_ st) s = true \/ pmat (C_ st) s = false.
Definition cok (st st' : hst) : Prop :=
  (forall x h, ham (C_ st') x = Some h -> ham (C_ st) x = Some h)
  /\ (forall x, flag (C_ st') x = false -> flag (C_ st) x = false)
  /\ (forall x m, mat (C_ st') x = Some m -> mat (C_ st) x = Some m)
  /\ ((forall s, uni st s) -> forall s, uni st' s).
Lemma cok_eq st st' : C_ st' = C_ st -> cok st st'.
Proof. intros H. unfold cok, uni. rewrite H. auto. Qed.
Lemma cok_trans a b c : cok a b -> cok b c -> cok a c.
Proof. intros [H1 [H2 [H3 H4]]] [K1 [K2 [K3 K4]]]. unfold cok. repeat split; auto. Qed.
Lemma raised_cok st st' : raised st st' -> cok st st'.
Proof.
  intros [_ [Hm [Hh [Hp Hf]]]]. unfold cok, uni. rewrite Hm, Hh, Hp. split; [auto|split; [|split; [auto|]]].
  - intros x. destruct (Hf x) as [[-> _]|[-> _]]; auto. discriminate.
  - intros H s. destruct (Hf s) as [[-> ->]|[-> ->]]; auto.
Qed.
Lemma cleared_cok st st' : cleared st st' -> cok st st'.
Proof.
  intros [_ [Hh [Hf [Hp Hm]]]]. unfold cok, uni. rewrite Hf, Hh, Hp. split; [auto|split; [auto|split]].
  - intros x m. destruct (Hm x) as [[-> _]|[-> _]]; auto. discriminate.
  - intros H s. destruct (Hm s) as [[_ ->]|[_ ->]]; auto.
Qed.

Definition clean (st st' : hst) (x : nat) : Prop :=
  subs (S_ st') x = subs (S_ st) x
  /\ filter (active A (P_ st')) (terms (S_ st') x) = filter (active A (P_ st)) (terms (S_ st) x)
  /\ forall t v, In t (terms (S_ st) x) -> active A (P_ st) t = true -> termVal (P_ st) t v -> termVal (P_ st') t v.
Lemma val_step st st' : Inv st -> cok st st' ->
  (forall s m, isSys (S_ st') s = true -> flag (C_ st') s = false -> mat (C_ st') s = Some m ->
     isSys (S_ st) s = true /\ forall x, below (S_ st) s x -> clean st st' x) ->
  forall s m, isSys (S_ st') s = true -> flag (C_ st') s = false -> mat (C_ st') s = Some m ->
    sysVal (S_ st') (P_ st') s m.
Proof.
  intros I [K1 [K2 [K3 K4]]] H s m Hs Ef Em. destruct (H s m Hs Ef Em) as [Hs0 F].
  eapply sysVal_frame; [apply (i_val _ I s m); auto|]. intros x Hx. apply F, Hx.
Qed.

Lemma filter_ext_in' (f g : nat -> bool) l : (forall x, In x l -> f x = g x) -> filter f l = filter g l.
Proof. apply filter_ext_in. Qed.

(** Changing the parameters of one term. *)
Lemma inv_param st st' t : Inv st -> S_ st' = S_ st -> dims (P_ st') = dims (P_ st) ->
  (forall x, x <> t -> cont (P_ st') x = cont (P_ st) x /\ freq (P_ st') x = freq (P_ st) x) ->
  partsOk (cont (P_ st') t) ->
  (held (S_ st) t -> incl (facs (cont (P_ st') t)) (facs (cont (P_ st) t))) ->
  cok st st' ->
  (held (S_ st) t -> forall x, bpath (bound (S_ st)) t x -> flag (C_ st') x = true) ->
  (held (S_ st) t -> cmat st' t) -> Inv st'.
Proof.
  intros I HS Hd Ho Hp Hf K Hfl Hm. assert (I' := I). destruct I as [I1 I2 I3 I4 I5 I6].
  assert (TE : forall x, x <> t -> construct A (P_ st') x = construct A (P_ st) x).
  { intros x Hx. apply construct_ext; [apply Ho, Hx|]. intros; rewrite Hd; reflexivity. }
  split; rewrite ?HS.
  - destruct I1 as [J1 J2 J3 J4 J5 J6 J7 J8 J9]. split; auto.
    intros h x q Hx Hq. destruct (Nat.eq_dec x t) as [->|Hne].
    + apply (J8 h t); [exact Hx|]. apply Hf; [exists h; exact Hx|exact Hq].
    + apply (J8 h x); [exact Hx|]. destruct (Ho x Hne) as [<- _]. exact Hq.
  - intros x. destruct (Nat.eq_dec x t) as [->|Hne]; [exact Hp|]. destruct (Ho x Hne) as [-> _]. apply I2.
  - intros x Hx. destruct (Nat.eq_dec x t) as [->|Hne]; [apply Hm, Hx|].
    intros m E. rewrite TE by exact Hne. apply (I3 x Hx), K, E.
  - intros x Hx h m E1 E2 E3. destruct (Nat.eq_dec x t) as [->|Hne].
    + rewrite (Hfl Hx t (BP_refl _ _)) in E2. discriminate.
    + destruct (Ho x Hne) as [_ ->]. apply (I4 x Hx); apply K; assumption.
  - rewrite <- HS. apply (val_step st st' I' K). rewrite HS. intros s m Hs Ef Em. split; [exact Hs|].
    intros x Hx.
    assert (Hn : ~ In t (terms (S_ st) x)).
    { intros Ht. assert (Hh : held (S_ st) t) by (exists x; exact Ht).
      rewrite (Hfl Hh s) in Ef; [discriminate|]. eapply bpath_cons; [apply (i_tb _ _ I1), Ht|].
      eapply below_bpath; eauto. }
    unfold clean. rewrite HS. split; [reflexivity|split].
    + apply filter_ext_in'. intros y Hy. unfold active. destruct (Ho y) as [-> _]; [|reflexivity].
      intros ->; tauto.
    + intros y v Hy _ Hv. assert (y <> t) by (intros ->; tauto). destruct (Ho y) as [E1 E2]; [assumption|].
      eapply termVal_ext; [| | |exact Hv]; auto. intros; rewrite Hd; reflexivity.
  - exact (proj2 (proj2 (proj2 K)) I6).
Qed.

(** Changing the sub-systems or the terms of one system. *)
Lemma inv_struct st st' h : Inv st -> P_ st' = P_ st -> SInv (S_ st') (P_ st) ->
  isSys (S_ st') = isSys (S_ st) ->
  (forall x, x <> h -> subs (S_ st') x = subs (S_ st) x /\ terms (S_ st') x = terms (S_ st) x) ->
  (forall t, In t (terms (S_ st') h) -> In t (terms (S_ st) h) \/ (cmat st t /\ cham st t)) ->
  cok st st' ->
  (forall x, bpath (bound (S_ st)) h x -> flag (C_ st') x = true \/ mat (C_ st') x = None) -> Inv st'.
Proof.
  intros I HP HS Hi Ho Ht K Hb. assert (I' := I). destruct I as [I1 I2 I3 I4 I5 I6].
  assert (CT : forall t, held (S_ st') t -> cmat st t /\ cham st t).
  { intros t [x Hx]. destruct (Nat.eq_dec x h) as [->|Hne].
    - destruct (Ht t Hx) as [G|G]; [|exact G]. split; [apply I3|apply I4]; exists h; exact G.
    - destruct (Ho x Hne) as [_ E]. rewrite E in Hx. split; [apply I3|apply I4]; exists x; exact Hx. }
  split; rewrite ?HP; auto.
  - intros t Hh m E. rewrite HP. apply (CT t Hh), K, E.
  - intros t Hh x m E1 E2 E3. rewrite HP. apply (CT t Hh); apply K; assumption.
  - rewrite <- HP. apply (val_step st st' I' K). rewrite Hi. intros s m Hs Ef Em. split; [exact Hs|].
    intros x Hx. destruct (Nat.eq_dec x h) as [->|Hne].
    + exfalso. destruct (Hb s) as [E|E]; [eapply below_bpath; eauto|congruence|congruence].
    + unfold clean. destruct (Ho x Hne) as [-> ->]. rewrite HP. auto.
  - exact (proj2 (proj2 (proj2 K)) I6).
Qed.

(** Changing dimensions. *)
Lemma inv_rebook st d (chg : nat -> Prop) : Inv st ->
  (forall x, d x = dims (P_ st) x \/ chg x) ->
  (forall x y, chg x -> In y (bound (S_ st) x) -> chg y) ->
  (forall x t, chg x -> In t (terms (S_ st) x) -> chg t) ->
  (forall x, chg x -> mat (C_ st) x = None) ->
  Inv (upP A (set_dims A d) st).
Proof.
  intros I Hd Cb Ct Hm. assert (I' := I). destruct I as [I1 I2 I3 I4 I5 I6].
  assert (Cp : forall x y, chg x -> bpath (bound (S_ st)) x y -> chg y).
  { intros x y Hx H. induction H; [exact Hx|eapply Cb; eauto]. }
  assert (Fq : forall h t q, In t (terms (S_ st) h) -> In q (facs (cont (P_ st) t)) -> ~ chg h -> d q = dims (P_ st) q).
  { intros h t q Ht Hq Hn. destruct (Hd q) as [E|E]; [exact E|]. exfalso; apply Hn.
    eapply Cp; [exact E|]. eapply (i_fac _ _ I1); eauto. }
  split; cbn; auto.
  - destruct I1; split; auto.
  - intros t Hh m E. cbn in *. rewrite <- (I3 t Hh m E). destruct Hh as [h Hh].
    apply construct_ext; [reflexivity|]. intros q Hq. cbn. apply (Fq h t q); auto.
    intros C. pose proof (Ct _ _ C Hh) as C'. rewrite (Hm _ C') in E. discriminate.
  - intros s m Hs Ef Em. apply (val_step st (upP A (set_dims A d) st) I'); [apply cok_eq; reflexivity| |exact Hs|exact Ef|exact Em].
    cbn. intros s' m' Hs' Ef' Em'. split; [exact Hs'|]. intros x Hx. unfold clean; cbn.
    split; [reflexivity|split; [reflexivity|]]. intros t v Ht _ Hv.
    eapply termVal_ext; [| | |exact Hv]; auto. cbn. intros q Hq. apply (Fq x t q); auto.
    intros C. rewrite (Hm s') in Em'; [discriminate|]. eapply Cp; [exact C|]. eapply below_bpath; eauto.
Qed.

(** ** Creating objects *)
Lemma newObj_inv isS b k st st' r : Inv st -> (forall x, In x b -> isSys (S_ st) x = true) -> partsOk k ->
  newObj A isS b k st = Some (st', r) ->
  r = Ok (next (S_ st)) /\ Inv st' /\ ~ held (S_ st') (next (S_ st))
  /\ isSys (S_ st') (next (S_ st)) = isS /\ next (S_ st') = S (next (S_ st))
  /\ bound (S_ st') (next (S_ st)) = b
  /\ (forall x, x < next (S_ st) -> isSys (S_ st') x = isSys (S_ st) x)
  /\ (forall x, x < next (S_ st) -> bound (S_ st') x = bound (S_ st) x)
  /\ (forall x, x < next (S_ st) -> terms (S_ st') x = terms (S_ st) x)
  /\ cont (P_ st') (next (S_ st)) = k /\ mat (C_ st') (next (S_ st)) = None.
Proof.
  intros I Hb Hk. unfold newObj, mbind, get, modify, ret. intros [= <- <-].
  set (n := next (S_ st)). assert (I' := I). destruct I as [I1 I2 I3 I4 I5 I6].
  assert (B0 : bound (S_ st) n = []).
  { destruct (bound (S_ st) n) as [|y l] eqn:E; [reflexivity|]. 
    destruct (i_bound _ _ I1 n y) as [_ H]; [rewrite E; left; reflexivity|]. unfold n in H; lia. }
  assert (Lt : forall x, isSys (S_ st) x = true -> x <> n) by (intros x Hx E; apply (i_sys _ _ I1) in Hx; unfold n in E; lia).
  assert (Fq : forall h t q, In t (terms (S_ st) h) -> In q (facs (cont (P_ st) t)) -> q <> n).
  { intros h t q Ht Hq ->. pose proof (i_fac _ _ I1 h t n Ht Hq) as Hp.
    apply bpath_inv in Hp as [->|[y [Hy _]]]; [|rewrite B0 in Hy; destruct Hy].
    pose proof (i_term _ _ I1 _ _ Ht) as [Hn _]. apply (Lt n Hn); reflexivity. }
  assert (Tn : forall h t, In t (terms (S_ st) h) -> t <> n /\ h <> n).
  { intros h t Ht. destruct (i_term _ _ I1 _ _ Ht) as [H1 [H2 _]]. split; [unfold n; lia|apply Lt, H1]. }
  split; [reflexivity|]. split; [|cbn; repeat split].
  - match goal with |- Inv ?z => pose proof (val_step st z I') as VS end.
    split; cbn; auto.
    + split; cbn.
      * intros x Hx. destruct (upd_cases n isS (isSys (S_ st)) x) as [[-> E]|[_ E]]; rewrite E in Hx; [unfold n; lia|].
        apply (i_sys _ _ I1) in Hx. lia.
      * intros h c. destruct (upd_cases n [] (subs (S_ st)) h) as [[-> ->]|[Hn ->]]; [intros []|].
        intros Hc. destruct (i_sub _ _ I1 h c Hc) as [H1 H2]. rewrite !upd_other by auto. auto.
      * intros x y. destruct (upd_cases n b (bound (S_ st)) x) as [[-> ->]|[Hn ->]].
        -- intros Hy. apply Hb in Hy. rewrite upd_other by auto. split; [exact Hy|unfold n; lia].
        -- intros Hy. destruct (i_bound _ _ I1 x y Hy) as [H1 H2]. rewrite upd_other by auto. split; [exact H1|lia].
      * intros h t. destruct (upd_cases n [] (terms (S_ st)) h) as [[-> ->]|[Hn ->]]; [intros []|].
        intros Ht. destruct (i_term _ _ I1 h t Ht) as [H1 [H2 H3]]. rewrite !upd_other by (first [apply Lt; assumption|unfold n; lia]).
        repeat split; auto; lia.
      * intros c h. destruct (upd_cases n None (sup (S_ st)) c) as [[-> ->]|[Hn ->]]; [discriminate|].
        intros E. apply (i_sup _ _ I1) in E. rewrite upd_other; auto.
      * intros h c. destruct (upd_cases n [] (subs (S_ st)) h) as [[-> ->]|[Hn ->]]; [intros []|].
        intros Hc. rewrite upd_other; [apply (i_up _ _ I1), Hc|]. apply Lt, (i_sub _ _ I1 h c Hc).
      * intros h t. destruct (upd_cases n [] (terms (S_ st)) h) as [[-> ->]|[Hn ->]]; [intros []|].
        intros Ht. rewrite upd_other; [apply (i_tb _ _ I1), Ht|]. pose proof (i_term _ _ I1 h t Ht); unfold n; lia.
      * intros h t q. destruct (upd_cases n [] (terms (S_ st)) h) as [[-> ->]|[Hn ->]]; [intros []|].
        intros Ht. rewrite upd_other by (pose proof (i_term _ _ I1 h t Ht); unfold n; lia).
        intros Hq. apply (bpath_mono (bound (S_ st))); [|eapply (i_fac _ _ I1); eauto].
        intros z. destruct (upd_cases n b (bound (S_ st)) z) as [[-> ->]|[_ ->]]; [rewrite B0; intros ? []|apply incl_refl].
      * intros h. destruct (upd_cases n [] (terms (S_ st)) h) as [[-> ->]|[Hn ->]]; [constructor|apply (i_nd _ _ I1)].
    + intros t. destruct (upd_cases n k (cont (P_ st)) t) as [[-> ->]|[_ ->]]; [exact Hk|apply I2].
    + intros t Hh m E. cbn in *. destruct (Nat.eq_dec t n) as [->|Hne]; [rewrite upd_same in E; discriminate|].
      rewrite upd_other in E by exact Hne.
      assert (Hh' : held (S_ st) t).
      { destruct Hh as [h Hh]. cbn in Hh. destruct (upd_cases n [] (terms (S_ st)) h) as [[-> Eh]|[_ Eh]]; rewrite Eh in Hh;
          [destruct Hh|exists h; exact Hh]. }
      rewrite <- (I3 t Hh' m E). apply construct_ext; cbn; [apply upd_other, Hne|].
      intros q Hq. apply upd_other. destruct Hh' as [h Hh']. exact (Fq h t q Hh' Hq).
    + intros t Hh h m. cbn. destruct (Nat.eq_dec t n) as [->|Hne]; [rewrite upd_same; discriminate|].
      rewrite !upd_other by exact Hne. apply I4.
      destruct Hh as [x Hh]. cbn in Hh. destruct (upd_cases n [] (terms (S_ st)) x) as [[-> Eh]|[_ Eh]]; rewrite Eh in Hh;
          [destruct Hh|exists x; exact Hh].
    + apply VS; clear VS; cbn.
      * unfold cok, uni; cbn. split; [|split; [|split; [|intros _]]]; intros x;
          (destruct (Nat.eq_dec x n) as [->|Hne]; [rewrite ?upd_same; first [discriminate|auto]|rewrite ?upd_other by exact Hne; auto]).
      * intros s m Hs Ef Em. destruct (Nat.eq_dec s n) as [->|Hne]; [rewrite upd_same in Em; discriminate|].
        rewrite upd_other in Hs by exact Hne. split; [exact Hs|]. intros x Hx.
        assert (Hxn : x <> n).
        { apply Lt. clear - Hs Hx I1. induction Hx; [exact Hs|]. apply (i_sub _ _ I1 _ _ H). }
        unfold clean; cbn. rewrite !upd_other by exact Hxn. split; [reflexivity|split].
        -- apply filter_ext_in'. intros t Ht. unfold active; cbn. rewrite upd_other by (exact (proj1 (Tn _ _ Ht))). reflexivity.
        -- intros t v Ht _ Hv. destruct (Tn _ _ Ht) as [Htn _].
           eapply termVal_ext; [| | |exact Hv]; cbn; try (apply upd_other, Htn).
           intros q Hq. apply upd_other. eapply Fq; eauto.
    + intros s. destruct (Nat.eq_dec s n) as [->|Hne]; [rewrite !upd_same; auto|]. rewrite !upd_other by exact Hne. apply I6.
  - intros [h Hh]. cbn in Hh. destruct (upd_cases n [] (terms (S_ st)) h) as [[-> Eh]|[_ Eh]]; rewrite Eh in Hh; [destruct Hh|].
    pose proof (i_term _ _ I1 h _ Hh). unfold n in *; lia.
  - apply upd_same.
  - apply upd_same.
  - intros x Hx. apply upd_other. unfold n; lia.
  - intros x Hx. apply upd_other. unfold n; lia.
  - intros x Hx. apply upd_other. unfold n; lia.
  - apply upd_same.
  - apply upd_same.
Qed.

Lemma mbind_inv {X Y} (m : M A X) (f : X -> M A Y) st st' r : mbind A m f st = Some (st', r) ->
  (exists st1 x, m st = Some (st1, Ok x) /\ f x st1 = Some (st', r)) \/ (exists e, m st = Some (st', Err e) /\ r = Err e).
Proof.
  unfold mbind. destruct (m st) as [[st1 [x|e]]|]; [|intros [= <- <-]|discriminate]; eauto 6.
Qed.
Lemma needSys_inv s st st' r : needSys A s st = Some (st', r) ->
  st' = st /\ ((isSys (S_ st) s = true /\ r = Ok tt) \/ exists e, r = Err e).
Proof. unfold needSys, sys. destruct (isSys _ s) eqn:E; intros [= <- <-]; split; eauto. Qed.
Lemma needTrm_inv t st st' r : needTrm A t st = Some (st', r) ->
  st' = st /\ ((t < next (S_ st) /\ isSys (S_ st) t = false /\ r = Ok tt) \/ exists e, r = Err e).
Proof.
  unfold needTrm, trm. destruct (_ && _) eqn:E; intros [= <- <-]; split; eauto. left.
  apply andb_true_iff in E as [E1 E2]. apply Nat.ltb_lt in E1. apply negb_true_iff in E2. auto.
Qed.

(** ** Attaching a term *)
Definition grows (st st' : hst) : Prop :=
  isSys (S_ st') = isSys (S_ st) /\ next (S_ st') = next (S_ st) /\ subs (S_ st') = subs (S_ st)
  /\ sup (S_ st') = sup (S_ st) /\ forall z, incl (bound (S_ st) z) (bound (S_ st') z).

Lemma insert_In h l y : In y (if memb h l then l else l ++ [h]) <-> In y l \/ y = h.
Proof.
  destruct (memb h l) eqn:E; [apply memb_In in E|rewrite in_app_iff; cbn]; split; auto; intros H; intuition; subst; auto.
Qed.
Lemma NoDup_snoc (h : nat) l : NoDup l -> ~ In h l -> NoDup (l ++ [h]).
Proof.
  induction l as [|x l IH]; cbn; intros H Hn; [constructor; auto|]. inversion H; subst. constructor.
  - rewrite in_app_iff. cbn. intuition.
  - apply IH; [assumption|tauto].
Qed.
Lemma insert_NoDup h l : NoDup l -> NoDup (if memb h l then l else l ++ [h]).
Proof. intros H. destruct (memb h l) eqn:E; [exact H|]. apply NoDup_snoc; [exact H|apply memb_nIn, E]. Qed.
Lemma addTerms_spec h t st st' r : Inv st -> isSys (S_ st) h = true -> t < next (S_ st) -> isSys (S_ st) t = false ->
  (forall q, In q (facs (cont (P_ st) t)) -> bpath (bound (S_ st)) q h) ->
  addTerms A lim h t st = Some (st', r) ->
  r = Ok tt /\ P_ st' = P_ st /\ grows st st' /\ SInv (S_ st') (P_ st) /\ cok st st' /\ mat (C_ st') = mat (C_ st)
  /\ ham (C_ st') = ham (C_ st)
  /\ (forall x, bpath (bound (S_ st)) h x -> flag (C_ st') x = true)
  /\ (forall x, x <> h -> terms (S_ st') x = terms (S_ st) x)
  /\ (terms (S_ st') h = if memb t (terms (S_ st) h) then terms (S_ st) h else terms (S_ st) h ++ [t]).
Proof.
  intros I Hh Ht1 Ht2 Hf. unfold addTerms.
  intros E. apply mbind_inv in E as [[st1 [[] [E1 E]]]|[e [E1 _]]]; [|discriminate]. injection E1 as <-.
  apply mbind_inv in E as [[st2 [[] [E2 E]]]|[e [E1 _]]]; [|discriminate]. injection E2 as <-.
  set (st0 := if Nat.eqb _ _ then _ else st) in E.
  assert (S0 : P_ st0 = P_ st /\ C_ st0 = C_ st /\ isSys (S_ st0) = isSys (S_ st) /\ next (S_ st0) = next (S_ st)
     /\ subs (S_ st0) = subs (S_ st) /\ sup (S_ st0) = sup (S_ st) /\ bound (S_ st0) = bound (S_ st) /\ terms (S_ st0) = terms (S_ st)).
  { unfold st0. destruct (Nat.eqb _ _); cbn; auto 10. }
  destruct S0 as [Z1 [Z2 [Z3 [Z4 [Z5 [Z6 [Z7 Z8]]]]]]]. clearbody st0.
  apply mbind_inv in E as [[st3 [[] [E3 E]]]|[e [E1 _]]];
    [|destruct (flagUp_spec _ _ _ _ E1) as [K _]; discriminate].
  destruct (flagUp_spec _ _ _ _ E3) as [_ [R [Fl _]]]. injection E as <- <-. cbn in Fl.
  pose proof (raised_cok _ _ R) as K. destruct R as [[RS RP] [Rm [Rh [_ Rf]]]]. cbn in RP, Rm, Rh, Rf. cbn. rewrite RP, RS, Z1. cbn.
  assert (M1 : forall z, incl (bound (S_ st) z) (upd t (if memb h (bound (S_ st0) t) then bound (S_ st0) t else bound (S_ st0) t ++ [h]) (bound (S_ st0)) z)).
  { intros z. rewrite Z7. destruct (upd_cases t (if memb h (bound (S_ st) t) then bound (S_ st) t else bound (S_ st) t ++ [h]) (bound (S_ st)) z) as [[-> ->]|[_ ->]]; [|apply incl_refl].
    intros y Hy. apply insert_In; auto. }
  assert (M2 : In h (upd t (if memb h (bound (S_ st0) t) then bound (S_ st0) t else bound (S_ st0) t ++ [h]) (bound (S_ st0)) t)).
  { rewrite upd_same. apply insert_In; auto. }
  assert (T : forall x y, In y (upd h (if memb t (terms (S_ st0) h) then terms (S_ st0) h else terms (S_ st0) h ++ [t]) (terms (S_ st0)) x) ->
     In y (terms (S_ st) x) \/ (x = h /\ y = t)).
  { intros x y. rewrite Z8. destruct (upd_cases h (if memb t (terms (S_ st) h) then terms (S_ st) h else terms (S_ st) h ++ [t]) (terms (S_ st)) x) as [[-> ->]|[_ ->]]; [|auto].
    rewrite insert_In. intuition. }
  destruct (i_S _ I) as [J1 J2 J3 J4 J5 J6 J7 J8 J9].
  split; [reflexivity|split; [reflexivity|]]. split; [|split; [|split; [|split; [|split; [|split; [|split]]]]]].
  - unfold grows; cbn. rewrite RS; cbn. rewrite Z3, Z4, Z5, Z6. auto.
  - split; cbn; rewrite ?Z3, ?Z4, ?Z5, ?Z6; auto.
    + intros x y Hy. rewrite Z7 in Hy. destruct (Nat.eq_dec x t) as [->|Hne].
      * rewrite upd_same in Hy. apply insert_In in Hy as [Hy| ->]; [apply J3, Hy|auto].
      * rewrite upd_other in Hy by exact Hne. apply J3, Hy.
    + intros x y Hy. destruct (T _ _ Hy) as [G|[-> ->]]; [apply J4, G|auto].
    + intros x y Hy. apply M1, J6, Hy.
    + intros x y Hy. destruct (T _ _ Hy) as [G|[-> ->]]; [apply M1, J7, G|exact M2].
    + intros x y q Hy Hq. destruct (T _ _ Hy) as [G|[-> ->]].
      * eapply bpath_mono; [exact M1|eapply J8; eauto].
      * eapply bpath_mono; [exact M1|apply Hf, Hq].
    + intros x. rewrite Z8. destruct (Nat.eq_dec x h) as [->|Hx]; [rewrite upd_same; apply insert_NoDup, J9|rewrite upd_other by exact Hx; apply J9].
  - eapply cok_trans; [|eapply cok_trans; [exact K|apply cok_eq; reflexivity]]. apply cok_eq. cbn. exact Z2.
  - rewrite Rm, Z2. reflexivity.
  - rewrite Rh, Z2. reflexivity.
  - rewrite Z7 in Fl. exact Fl.
  - intros x Hx. rewrite Z8. apply upd_other, Hx.
  - rewrite Z8. apply upd_same.
Qed.

Lemma addTerms_inv h t st st' r : Inv st -> isSys (S_ st) h = true -> t < next (S_ st) -> isSys (S_ st) t = false ->
  (forall q, In q (facs (cont (P_ st) t)) -> bpath (bound (S_ st)) q h) ->
  In t (terms (S_ st) h) \/ (cmat st t /\ cham st t) ->
  addTerms A lim h t st = Some (st', r) -> r = Ok tt /\ Inv st'.
Proof.
  intros I Hh H1 H2 H3 H4 E. destruct (addTerms_spec _ _ _ _ _ I Hh H1 H2 H3 E) as [-> [EP [G [K1 [K2 [K3 [K4 [K5 [K6 K7]]]]]]]]].
  split; [reflexivity|]. apply (inv_struct st st' h); auto.
  - apply G.
  - intros x Hx. split; [destruct G as [_ [_ [-> _]]]; reflexivity|apply K6, Hx].
  - intros x. rewrite K7, insert_In. intros [Hx| ->]; auto.
Qed.

(** ** Creating terms *)
Ltac step E st1 x E1 := let e := fresh "ex" in let H := fresh "Hex" in apply mbind_inv in E as [[st1 [x [E1 E]]]|[e [E1 H]]].

Lemma flag_inv o st st' r : Inv st -> flagUp A lim o st = Some (st', r) -> r = Ok tt /\ Inv st' /\ raised st st'.
Proof.
  intros I E. destruct (flagUp_spec _ _ _ _ E) as [H1 [H2 _]]. split; [exact H1|split; [eapply raised_inv; eauto|exact H2]].
Qed.

Lemma for_flag l : forall st st' r, Inv st -> for_ A l (fun x => flagUp A lim x) st = Some (st', r) ->
  r = Ok tt /\ Inv st' /\ raised st st'.
Proof.
  induction l as [|x l IH]; cbn [for_]; intros st st' r I E.
  - injection E as <- <-. split; [reflexivity|split; [exact I|apply raised_refl]].
  - step E st1 u E1; [|apply (flag_inv _ _ _ _ I) in E1 as [K _]; discriminate].
    apply (flag_inv _ _ _ _ I) in E1 as [_ [I1 R1]]. destruct (IH _ _ _ I1 E) as [H1 [H2 H3]].
    split; [exact H1|split; [exact H2|exact (raised_trans _ _ _ R1 H3)]].
Qed.

(** Parameters of a term no system holds *)
Lemma inv_unheld st t k f : Inv st -> ~ held (S_ st) t -> partsOk k ->
  Inv (upP A (fun p => set_cont A (upd t k (cont p)) (set_freq A (upd t f (freq p)) p)) st).
Proof.
  intros I Ht Hk. apply (inv_param st _ t); cbn; auto; try tauto.
  - intros x Hx. rewrite !upd_other by exact Hx. auto.
  - rewrite upd_same. exact Hk.
  - apply cok_eq; reflexivity.
Qed.

Lemma firstTerm_inv s st st' r : Inv st -> firstTerm A lim s st = Some (st', r) -> Inv st'.
Proof.
  intros I. unfold firstTerm. intros E. step E st1 u E1; apply needSys_inv in E1 as [-> E1]; [|auto].
  destruct E1 as [[Hs _]|[e K]]; [|discriminate]. step E st2 o E2; [injection E2 as <- <-|discriminate].
  destruct (first (S_ st) s) as [t|]; [injection E as <- <-; exact I|].
  step E st3 n E3; [|apply newObj_inv in E3 as [K _]; [discriminate|auto| |exact Logic.I]; intros x [<-|[]]; exact Hs].
  apply newObj_inv in E3 as [K [I3 [N1 [N2 [N3 [N4 [N5 [N6 [N7 [N8 N9]]]]]]]]]]; [|auto| |exact Logic.I];
    [|intros x [<-|[]]; exact Hs].
  injection K as ->. step E st4 u4 E4; apply (flag_inv _ _ _ _ I3) in E4 as [K [I4 R4]]; [|discriminate].
  assert (R4' := R4). destruct R4 as [[RS RP] [Rm [Rh _]]].
  assert (Hn : s < next (S_ st)) by (apply (i_sys _ _ (i_S _ I)), Hs).
  assert (G : forall st5 r5, addTerms A lim s (next (S_ st)) st4 = Some (st5, r5) -> r5 = Ok tt /\ Inv st5).
  { intros st5 r5. apply addTerms_inv; auto; rewrite ?RS, ?RP.
    - rewrite N5; auto.
    - lia.
    - exact N2.
    - rewrite N8. intros q [<-|[]]. apply BP_refl.
    - right. split; intros m; rewrite Rm; intros; congruence. }
  step E st5 u5 E5; apply G in E5 as [K5 I5]; [|discriminate]. injection E as <- <-. exact I5.
Qed.

Lemma createOne_inv h q op n f st st' r : Inv st -> createOne A lim h q op n f st = Some (st', r) -> Inv st'.
Proof.
  intros I. unfold createOne. intros E. step E st1 u E1; apply needSys_inv in E1 as [-> E1]; [|auto].
  destruct E1 as [[Hh _]|[e K]]; [|discriminate]. step E st1 u1 E1; apply needSys_inv in E1 as [-> E1]; [|auto].
  destruct E1 as [[Hq _]|[e K]]; [|discriminate].
  assert (Hb : forall x, In x [h; q] -> isSys (S_ st) x = true) by (intros x [<-|[<-|[]]]; assumption).
  step E st3 t E3; [|apply newObj_inv in E3 as [K _]; [discriminate|auto|exact Hb|exact Logic.I]].
  apply newObj_inv in E3 as [K [I3 [N1 [N2 [N3 [N4 [N5 [N6 [N7 [N8 N9]]]]]]]]]]; [|auto|exact Hb|exact Logic.I].
  injection K as ->. step E st4 u4 E4; apply (flag_inv _ _ _ _ I3) in E4 as [K [I4 R4]]; [|discriminate].
  assert (R4' := R4). destruct R4 as [[RS RP] [Rm [Rh _]]].
  step E st5 ok E5; [injection E5 as <- <-|discriminate].
  destruct (negb _); [injection E as <- <-; exact I4|].
  step E st6 u6 E6; [injection E6 as <-|discriminate].
  match type of E with context [upP A ?g st4] => set (st6 := upP A g st4) in E end.
  assert (I6 : Inv st6). { apply inv_unheld; [exact I4|rewrite RS; exact N1|exact Logic.I]. }
  assert (Hn : q < next (S_ st)) by (apply (i_sys _ _ (i_S _ I)), Hq).
  step E st7 u7 E7; apply (flag_inv _ _ _ _ I6) in E7 as [K7 [I7 R7]]; [|discriminate].
  destruct R7 as [[QS QP] [Qm [Qh _]]]. 
  assert (G : forall st8 r8, addTerms A lim q (next (S_ st)) st7 = Some (st8, r8) -> r8 = Ok tt /\ Inv st8).
  { intros st8 r8. apply addTerms_inv; auto; rewrite ?QS, ?QP; cbn; rewrite ?RS.
    - rewrite N5; auto.
    - lia.
    - exact N2.
    - rewrite upd_same. cbn. intros x [<-|[]]. apply BP_refl.
    - right. split; intros m; rewrite Qm; cbn; rewrite Rm; intros; congruence. }
  step E st8 u8 E8; apply G in E8 as [K8 I8]; [|discriminate]. injection E as <- <-. exact I8.
Qed.

Lemma hasIn_below n : forall st i o, hasIn A n st i o = Some true -> below (S_ st) i o.
Proof.
  induction n as [|n IH]; intros st i o; cbn [hasIn]; [discriminate|].
  destruct (memb o (subs (S_ st) i)) eqn:E.
  - intros _. eapply B_step; [apply B_refl|apply memb_In, E].
  - assert (G : forall l, incl l (subs (S_ st) i) -> (fix any (l : list nat) : option bool :=
                         match l with
                         | [] => Some false
                         | q :: l' => match hasIn A n st q o with
                                      | None => None
                                      | Some true => Some true
                                      | Some false => any l'
                                      end
                         end) l = Some true -> below (S_ st) i o).
    { induction l as [|q l IHl]; intros Hl; [discriminate|].
      destruct (hasIn A n st q o) as [[|]|] eqn:Eq; [|apply IHl; intros z Hz; apply Hl; right; exact Hz|discriminate].
      intros _. eapply below_cons; [apply Hl; left; reflexivity|apply IH, Eq]. }
    apply G, incl_refl.
Qed.

Lemma createMany_inv h parts f st st' r : Inv st -> createMany A lim h parts f st = Some (st', r) -> Inv st'.
Proof.
  intros I. unfold createMany. intros E. step E st1 u E1; apply needSys_inv in E1 as [-> E1]; [|auto].
  destruct E1 as [[Hh _]|[e K]]; [|discriminate].
  match type of E with mbind A (for_ A parts ?bd) _ _ = _ => set (body := bd) in E end.
  assert (G0 : forall l st0 r0, for_ A l body st = Some (st0, r0) ->
     st0 = st /\ (r0 = Ok tt -> forall x, In x l -> below (S_ st) h (fst (fst x)))).
  { induction l as [|x l IH]; intros st0 r0 E0; cbn [for_] in E0.
    - injection E0 as <- <-. split; [reflexivity|intros _ x []].
    - step E0 st2 u2 E2.
      + unfold body in E2. step E2 st3 u3 E3; [|discriminate]. apply needSys_inv in E3 as [-> _].
        destruct (hasIn A lim st h _) as [[|]|] eqn:Eh; [injection E2 as <- <-|discriminate|discriminate].
        destruct (IH _ _ E0) as [-> Hx]. split; [reflexivity|]. intros Hr y [<-|Hy]; [eapply hasIn_below, Eh|apply Hx; auto].
      + split; [|congruence]. unfold body in E2. step E2 st3 u3 E3; apply needSys_inv in E3 as [-> _]; [|reflexivity].
        destruct (hasIn A lim st h _) as [[|]|]; congruence. }
  step E st2 u2 E2; apply G0 in E2 as [-> Hin]; [|exact I]. specialize (Hin ltac:(destruct u2; reflexivity)).
  assert (Hb : forall x, In x [h] -> isSys (S_ st) x = true) by (intros x [<-|[]]; assumption).
  assert (Hk : partsOk (CMany A parts (map (fun x => snd (fst x)) parts) (map snd parts))) by (split; reflexivity).
  step E st3 t E3; [|apply newObj_inv in E3 as [K _]; [discriminate|auto|exact Hb|exact Hk]].
  apply newObj_inv in E3 as [K [I3 [N1 [N2 [N3 [N4 [N5 [N6 [N7 [N8 N9]]]]]]]]]]; [|auto|exact Hb|exact Hk].
  injection K as ->. step E st4 u4 E4; apply (flag_inv _ _ _ _ I3) in E4 as [K [I4 R4]]; [|discriminate].
  assert (FF : forall a b c, Inv a -> for_ A parts (fun x => flagUp A lim (fst (fst x))) a = Some (b, c) ->
     c = Ok tt /\ Inv b /\ raised a b).
  { clear. induction parts as [|x l IH]; cbn [for_]; intros a b c I E.
    - injection E as <- <-. split; [reflexivity|split; [exact I|apply raised_refl]].
    - step E st1 u E1; [|apply (flag_inv _ _ _ _ I) in E1 as [K _]; discriminate].
      apply (flag_inv _ _ _ _ I) in E1 as [_ [I1 R1]]. destruct (IH _ _ _ I1 E) as [H1 [H2 H3]].
      split; [exact H1|split; [exact H2|exact (raised_trans _ _ _ R1 H3)]]. }
  step E st5 u5 E5; apply (FF _ _ _ I4) in E5 as [K5 [I5 R5]]; [|discriminate].
  assert (R := raised_trans _ _ _ R4 R5).
  destruct R as [[RS RP] [Rm [Rh _]]].
  step E st6 ok E6; [injection E6 as <- <-|discriminate].
  destruct (negb _); [injection E as <- <-; exact I5|].
  step E st7 u7 E7; [injection E7 as <-|discriminate].
  match type of E with context [upP A ?g st5] => set (st6 := upP A g st5) in E end.
  assert (I6 : Inv st6).
  { apply (inv_param st5 _ (next (S_ st))); cbn; auto; rewrite ?RS; try tauto.
    - intros x Hx. rewrite !upd_other by exact Hx. auto.
    - rewrite RP, N8. exact Hk.
    - apply cok_eq; reflexivity. }
  assert (Hn : h < next (S_ st)) by (apply (i_sys _ _ (i_S _ I)), Hh).
  assert (B0 : forall z, incl (bound (S_ st) z) (bound (S_ st3) z)).
  { intros z y Hy. rewrite N6; [exact Hy|]. apply (i_bound _ _ (i_S _ I) z y Hy). }
  assert (G : forall st8 r8, addTerms A lim h (next (S_ st)) st6 = Some (st8, r8) -> r8 = Ok tt /\ Inv st8).
  { intros st8 r8. apply addTerms_inv; auto; cbn; rewrite ?RS, ?RP.
    - rewrite N5; auto.
    - lia.
    - exact N2.
    - rewrite N8. cbn. intros x Hx. apply in_map_iff in Hx as [y [<- Hy]].
      eapply bpath_mono; [exact B0|]. eapply below_bpath; [apply (i_S _ I)|apply Hin, Hy].
    - right. split; intros m; cbn; rewrite Rm; intros; congruence. }
  step E st8 u8 E8; apply G in E8 as [K8 I8]; [|discriminate]. injection E as <- <-. exact I8.
Qed.

(** ** Changing terms *)
Lemma inv_peq st st' : Inv st -> S_ st' = S_ st -> dims (P_ st') = dims (P_ st) ->
  (forall x, cont (P_ st') x = cont (P_ st) x /\ freq (P_ st') x = freq (P_ st) x) -> cok st st' -> Inv st'.
Proof.
  intros I HS Hd Ho K. assert (I' := I). destruct I as [I1 I2 I3 I4 I5 I6].
  assert (TE : forall x, construct A (P_ st') x = construct A (P_ st) x).
  { intros x. apply construct_ext; [apply Ho|]. intros; rewrite Hd; reflexivity. }
  split; rewrite ?HS.
  - destruct I1 as [J1 J2 J3 J4 J5 J6 J7 J8 J9]. split; auto.
    intros h x q Hx Hq. apply (J8 h x); [exact Hx|]. destruct (Ho x) as [<- _]. exact Hq.
  - intros x. destruct (Ho x) as [-> _]. apply I2.
  - intros x Hx m E. rewrite TE. apply (I3 x Hx), K, E.
  - intros x Hx h m E1 E2 E3. destruct (Ho x) as [_ ->]. apply (I4 x Hx); apply K; assumption.
  - rewrite <- HS. apply (val_step st st' I' K). rewrite HS. intros s m Hs Ef Em. split; [exact Hs|].
    intros x Hx. unfold clean. rewrite HS. split; [reflexivity|split].
    + apply filter_ext_in'. intros y Hy. unfold active. destruct (Ho y) as [-> _]; reflexivity.
    + intros y v Hy _ Hv. destruct (Ho y) as [E1 E2].
      eapply termVal_ext; [| | |exact Hv]; auto. intros; rewrite Hd; reflexivity.
  - exact (proj2 (proj2 (proj2 K)) I6).
Qed.
Lemma drop_spec t st st' r : dropIfFlagged A t st = Some (st', r) ->
  r = Ok tt /\ same st st' /\ cok st st' /\ (flag (C_ st) t = true -> mat (C_ st') t = None)
  /\ flag (C_ st') = flag (C_ st).
Proof.
  unfold dropIfFlagged, modify. intros [= <- <-]. split; [reflexivity|].
  destruct (flag (C_ st) t) eqn:E; cbn; (split; [split; reflexivity|]); (split; [|split]); auto; try discriminate.
  - unfold cok, uni; cbn. repeat split; auto. intros x m. destruct (upd_cases t None (mat (C_ st)) x) as [[-> ->]|[_ ->]]; [discriminate|auto].
  - intros _. apply upd_same.
  - apply cok_eq; reflexivity.
Qed.

Lemma optEqb_eq {X} (e : X -> X -> bool) a b : (forall x y, e x y = true -> x = y) -> optEqb e a b = true -> a = b.
Proof. intros H. destruct a, b; cbn; try discriminate; auto. intros E; f_equal; auto. Qed.
Lemma listEqb_eq {X} (e : X -> X -> bool) a : forall b, (forall x y, e x y = true -> x = y) -> listEqb e a b = true -> a = b.
Proof.
  induction a as [|x a IH]; intros [|y b] H; cbn; try discriminate; auto.
  intros E. apply andb_true_iff in E as [E1 E2]. f_equal; auto.
Qed.

Lemma setFreq_inv t f st st' r : Inv st -> setFreq A lim t f st = Some (st', r) -> Inv st'.
Proof.
  intros I. unfold setFreq. intros E. step E st1 u E1; apply needTrm_inv in E1 as [-> _]; [|exact I].
  step E st2 b E2; [injection E2 as <- <-|discriminate].
  destruct (optEqb _ _ _); [injection E as <- <-; exact I|].
  step E st3 u3 E3; [injection E3 as <-|discriminate].
  assert (G : forall st4 r4, flagUp A lim t (upP A (fun p => set_freq A (upd t f (freq p)) p) st) = Some (st4, r4) -> r4 = Ok tt /\ Inv st4).
  { intros st4 r4 E4. destruct (flagUp_spec _ _ _ _ E4) as [-> [R [Fl _]]]. split; [reflexivity|].
    assert (K : cok st st4) by (eapply cok_trans; [|apply raised_cok, R]; apply cok_eq; reflexivity).
    destruct R as [[RS RP] [Rm _]]. cbn in RS, RP, Rm, Fl.
    apply (inv_param st st4 t); rewrite ?RP; cbn; auto.
    - intros x Hx. rewrite upd_other by exact Hx. auto.
    - apply (i_par _ I).
    - intros _. apply incl_refl.
    - intros Hh m. rewrite Rm, RP. intros Em. rewrite <- (i_mat _ I t Hh m Em).
      apply construct_ext; reflexivity. }
  step E st4 u4 E4; apply G in E4 as [K I4]; [|discriminate].
  step E st5 qs E5; [injection E5 as <- <-|discriminate].
  eapply for_flag; eauto.
Qed.

Lemma setOp_inv t op st st' r : eqbs A -> Inv st -> setOp A lim t op st = Some (st', r) -> Inv st'.
Proof.
  intros Q I. unfold setOp. intros E. step E st1 u E1; apply needTrm_inv in E1 as [-> _]; [|exact I].
  step E st2 k E2; [injection E2 as <- <-|discriminate].
  destruct (cont (P_ st) t) as [q old n|] eqn:Ek; [|injection E as <- <-; exact I].
  step E st3 b E3; [injection E3 as <- <-|discriminate].
  destruct (negb _); [injection E as <- <-; exact I|].
  destruct (optEqb _ _ _).
  - step E st4 u4 E4; [injection E4 as <-|discriminate]. apply drop_spec in E as [_ [[ES EP] [K _]]].
    apply (inv_peq st); auto; rewrite EP; auto.
  - step E st4 u4 E4.
    + step E4 st5 u5 E5; [injection E5 as <-|discriminate].
      destruct (flagUp_spec _ _ _ _ E4) as [_ [R [Fl _]]]. apply drop_spec in E as [_ [[ES EP] [K [Em Ef]]]].
      assert (K' : cok st st') by (eapply cok_trans; [|exact K]; eapply cok_trans; [|apply raised_cok, R]; apply cok_eq; reflexivity).
      destruct R as [[RS RP] _]. cbn in RS, RP, Fl.
      apply (inv_param st st' t); rewrite ?EP, ?RP; cbn; auto; try congruence.
      * intros x Hx. rewrite upd_other by exact Hx. auto.
      * rewrite upd_same. exact Logic.I.
      * intros _. rewrite upd_same, Ek. apply incl_refl.
      * rewrite Ef. auto.
      * intros _ m. rewrite Em; [discriminate|]. apply Fl, BP_refl.
    + step E4 st5 u5 E5; [injection E5 as <-|discriminate]. destruct (flagUp_spec _ _ _ _ E4) as [K _]. discriminate.
Qed.

Lemma setOrd_inv t n st st' r : Inv st -> setOrd A lim t n st = Some (st', r) -> Inv st'.
Proof.
  intros I. unfold setOrd. intros E. step E st1 u E1; apply needTrm_inv in E1 as [-> _]; [|exact I].
  step E st2 k E2; [injection E2 as <- <-|discriminate].
  destruct (cont (P_ st) t) as [q op old|] eqn:Ek; [|injection E as <- <-; exact I].
  destruct (Z.eqb _ _).
  - step E st4 u4 E4; [injection E4 as <-|discriminate]. apply drop_spec in E as [_ [[ES EP] [K _]]].
    apply (inv_peq st); auto; rewrite EP; auto.
  - step E st4 u4 E4.
    + step E4 st5 u5 E5; [injection E5 as <-|discriminate].
      destruct (flagUp_spec _ _ _ _ E4) as [_ [R [Fl _]]]. apply drop_spec in E as [_ [[ES EP] [K [Em Ef]]]].
      assert (K' : cok st st') by (eapply cok_trans; [|exact K]; eapply cok_trans; [|apply raised_cok, R]; apply cok_eq; reflexivity).
      destruct R as [[RS RP] _]. cbn in RS, RP, Fl.
      apply (inv_param st st' t); rewrite ?EP, ?RP; cbn; auto; try congruence.
      * intros x Hx. rewrite upd_other by exact Hx. auto.
      * rewrite upd_same. exact Logic.I.
      * intros _. rewrite upd_same, Ek. apply incl_refl.
      * rewrite Ef. auto.
      * intros _ m. rewrite Em; [discriminate|]. apply Fl, BP_refl.
    + step E4 st5 u5 E5; [injection E5 as <-|discriminate]. destruct (flagUp_spec _ _ _ _ E4) as [K _]. discriminate.
Qed.

Lemma newOps_spec parts : forall ops, List.length ops = List.length parts ->
  map (fun x => snd (fst x)) (newOps A parts ops) = ops
  /\ map snd (newOps A parts ops) = map snd parts
  /\ map (fun x => fst (fst x)) (newOps A parts ops) = map (fun x => fst (fst x)) parts.
Proof.
  induction parts as [|[[q o] n] parts IH]; intros [|o' ops]; cbn; try discriminate; auto.
  intros [= E]. destruct (IH ops E) as [H1 [H2 H3]]. rewrite H1, H2, H3. auto.
Qed.
Lemma newOrds_spec parts : forall ns, List.length ns = List.length parts ->
  map snd (newOrds A parts ns) = ns
  /\ map (fun x => snd (fst x)) (newOrds A parts ns) = map (fun x => snd (fst x)) parts
  /\ map (fun x => fst (fst x)) (newOrds A parts ns) = map (fun x => fst (fst x)) parts.
Proof.
  induction parts as [|[[q o] n] parts IH]; intros [|o' ops]; cbn; try discriminate; auto.
  intros [= E]. destruct (IH ops E) as [H1 [H2 H3]]. rewrite H1, H2, H3. auto.
Qed.
Lemma newOps_id parts : newOps A parts (map (fun x => snd (fst x)) parts) = parts.
Proof. induction parts as [|[[q o] n] parts IH]; cbn; [reflexivity|]. rewrite IH. reflexivity. Qed.
Lemma newOrds_id parts : newOrds A parts (map snd parts) = parts.
Proof. induction parts as [|[[q o] n] parts IH]; cbn; [reflexivity|]. rewrite IH. reflexivity. Qed.

Lemma flagParts_raised same0 old new st st' r : flagParts A lim same0 old new st = Some (st', r) ->
  r = Ok tt /\ raised st st'.
Proof.
  unfold flagParts. revert st. induction (combine old new) as [|x l IH]; intros st; cbn [for_].
  - intros [= <- <-]. split; [reflexivity|apply raised_refl].
  - intros E. step E st1 u E1.
    + assert (raised st st1).
      { destruct (same0 _ _); [injection E1 as <-; apply raised_refl|]. apply flagUp_spec in E1. apply E1. }
      destruct (IH _ E) as [H1 H2]. split; [exact H1|eapply raised_trans; eauto].
    + destruct (same0 _ _); [discriminate|]. apply flagUp_spec in E1 as [K _]. discriminate.
Qed.

(** A coupling gets new sub-terms; [sm] says whether the list assigned is the one stored. *)
Lemma coupling_inv t k k' kmid (sm : bool) (mid : M A unit) st st' r :
  Inv st -> cont (P_ st) t = k -> facs k' = facs k -> partsOk k' -> (sm = true -> kmid = k) ->
  (forall a b c, mid a = Some (b, c) -> raised a b) ->
  mbind A (setCont A t kmid) (fun _ => mbind A mid (fun _ =>
    mbind A (if sm then ret A tt else mbind A (setCont A t k') (fun _ => flagUp A lim t)) (fun _ => dropIfFlagged A t))) st
   = Some (st', r) -> r = Ok tt -> Inv st'.
Proof.
  intros I Ek Hf Hp Hsm Hmid E Hr. step E st1 u E1; [injection E1 as <-|discriminate].
  step E st2 u2 E2; [|congruence]. apply Hmid in E2.
  assert (K2 : cok st st2) by (eapply cok_trans; [|apply raised_cok, E2]; apply cok_eq; reflexivity).
  destruct E2 as [[RS RP] [Rm _]]. cbn in RS, RP, Rm.
  destruct sm.
  - step E st4 u4 E4; [injection E4 as <-|discriminate]. apply drop_spec in E as [_ [[ES EP] [K _]]].
    apply (inv_peq st); rewrite ?EP, ?RP; cbn; try congruence.
    + intros x. split; [|reflexivity]. destruct (upd_cases t kmid (cont (P_ st)) x) as [[-> ->]|[_ ->]]; [|reflexivity].
      rewrite Hsm; auto.
    + eapply cok_trans; eauto.
  - step E st4 u4 E4; [|congruence].
    step E4 st5 u5 E5; [injection E5 as <-|discriminate].
    destruct (flagUp_spec _ _ _ _ E4) as [_ [R [Fl _]]]. apply drop_spec in E as [_ [[ES EP] [K [Em Ef]]]].
    assert (K' : cok st st').
    { eapply cok_trans; [exact K2|]. eapply cok_trans; [|exact K]. eapply cok_trans; [|apply raised_cok, R]; apply cok_eq; reflexivity. }
    destruct R as [[QS QP] _]. cbn in QS, QP, Fl. rewrite RS in Fl.
    apply (inv_param st st' t); rewrite ?EP, ?QP; cbn; rewrite ?RP; cbn; auto; try congruence.
    + intros x Hx. rewrite !upd_other by exact Hx. auto.
    + rewrite upd_same. exact Hp.
    + intros _. rewrite upd_same, Hf, Ek. apply incl_refl.
    + rewrite Ef. auto.
    + intros _ m. rewrite Em; [discriminate|]. apply Fl, BP_refl.
Qed.

Lemma setOps_inv t ops st st' r : eqbs A -> Inv st -> setOps A lim t ops st = Some (st', r) -> r = Ok tt -> Inv st'.
Proof.
  intros Q I. unfold setOps. intros E Hr. step E st1 u E1; apply needTrm_inv in E1 as [-> _]; [|exact I].
  step E st2 k E2; [injection E2 as <- <-|discriminate].
  destruct (cont (P_ st) t) as [q op old|parts oldOps ords] eqn:Ek; [injection E as <- <-; exact I|].
  destruct (Nat.eqb _ _) eqn:El; [|injection E as <- <-; exact I]. cbn [negb] in E. apply Nat.eqb_eq in El.
  destruct (newOps_spec parts ops El) as [N1 [N2 N3]].
  pose proof (i_par _ I t) as Hp. rewrite Ek in Hp. destruct Hp as [P1 P2].
  eapply (coupling_inv t _ (CMany A (newOps A parts ops) ops ords) (CMany A (newOps A parts ops) oldOps ords)
    (listEqb (opEqb A) ops oldOps)
    (mbind A (flagParts A lim (fun x y => opEqb A (snd (fst x)) (snd (fst y))) parts (newOps A parts ops)) (fun _ =>
       mbind A (get A (fun st => forallb (fun x => okOp A (P_ st) (fst (fst x)) (Some (snd (fst x)))) (newOps A parts ops)))
         (fun ok => if negb ok then raise A ValueError else ret A tt))) st st' r I Ek); auto.
  - cbn. split; congruence.
  - intros Es. apply listEqb_eq in Es; [|apply Q]. subst oldOps. rewrite Es, newOps_id. reflexivity.
  - intros a b c Ea. step Ea b1 u1 Eb; [|apply flagParts_raised in Eb; apply Eb].
    apply flagParts_raised in Eb as [_ Eb]. step Ea b2 ok Ec; [injection Ec as <- <-|discriminate].
    destruct (negb _); injection Ea as <- <-; exact Eb.
  - rewrite <- E. unfold mbind, get, raise, ret, setCont, modify.
    destruct (flagParts _ _ _ _ _ _) as [[b [x|e]]|]; try reflexivity. destruct (negb _); reflexivity.
Qed.

Lemma setOrds_inv t ns st st' r : Inv st -> setOrds A lim t ns st = Some (st', r) -> Inv st'.
Proof.
  intros I. unfold setOrds. intros E. step E st1 u E1; apply needTrm_inv in E1 as [-> _]; [|exact I].
  step E st2 k E2; [injection E2 as <- <-|discriminate].
  destruct (cont (P_ st) t) as [q op old|parts ops oldNs] eqn:Ek; [injection E as <- <-; exact I|].
  destruct (Nat.eqb _ _) eqn:El; [|injection E as <- <-; exact I]. cbn [negb] in E. apply Nat.eqb_eq in El.
  destruct (newOrds_spec parts ns El) as [N1 [N2 N3]].
  pose proof (i_par _ I t) as Hp. rewrite Ek in Hp. destruct Hp as [P1 P2].
  assert (Hr : r = Ok tt).
  { cbv zeta in E. step E a u1 Ea; [|discriminate]. step E b u2 Eb; [|apply flagParts_raised in Eb as [K _]; discriminate].
    step E c u3 Ec; [apply drop_spec in E; apply E|]. destruct (listEqb _ _ _); [discriminate|].
    step Ec d u4 Ed; [|discriminate]. apply flagUp_spec in Ec as [K _]. discriminate. }
  eapply (coupling_inv t _ (CMany A (newOrds A parts ns) ops ns) (CMany A (newOrds A parts ns) ops oldNs)
    (listEqb Z.eqb ns oldNs)
    (flagParts A lim (fun x y => Z.eqb (snd x) (snd y)) parts (newOrds A parts ns)) st st' r I Ek); auto.
  - cbn. split; congruence.
  - intros Es. apply listEqb_eq in Es; [|apply Z.eqb_eq]. subst oldNs. rewrite Es, newOrds_id. reflexivity.
  - intros a b c Ea. apply flagParts_raised in Ea. apply Ea.
Qed.

(** ** Removing terms *)
Lemma SInv_shrink s s' p : SInv s p -> isSys s' = isSys s -> next s' = next s -> bound s' = bound s ->
  (forall x, incl (subs s' x) (subs s x)) -> (forall x, incl (terms s' x) (terms s x) /\ NoDup (terms s' x)) ->
  (forall x y, sup s' x = Some y -> sup s x = Some y) -> SInv s' p.
Proof.
  intros [J1 J2 J3 J4 J5 J6 J7 J8 J9] H1 H2 H3 H4 H5 H6. split; rewrite ?H1, ?H2, ?H3; auto.
  - intros h c Hc. apply J2, H4, Hc.
  - intros h t Ht. apply J4, (proj1 (H5 _)), Ht.
  - intros c h E. eapply J5, H6, E.
  - intros h c Hc. apply J6, H4, Hc.
  - intros h t Ht. apply J7, (proj1 (H5 _)), Ht.
  - intros h t q Ht Hq. eapply J8; [apply (proj1 (H5 _)), Ht|exact Hq].
  - intros h. apply H5.
Qed.
Lemma bpath_conn s x y : bpath (bound s) x y -> conn s x y.
Proof. induction 1; [apply C_refl|eapply C_step; eauto]. Qed.
Lemma conn_trans s x y z : conn s x y -> conn s y z -> conn s x z.
Proof. intros H. induction 1; [exact H|eapply C_step; eauto]. Qed.

(** Taking terms or sub-systems away from h and deleting the matrices of h, or
    of an object bound to it. *)
Lemma cut_inv st st1 st2 r h o : Inv st -> isSys (S_ st) h = true -> P_ st1 = P_ st -> C_ st1 = C_ st ->
  isSys (S_ st1) = isSys (S_ st) -> next (S_ st1) = next (S_ st) -> bound (S_ st1) = bound (S_ st) ->
  (forall x y, sup (S_ st1) x = Some y -> sup (S_ st) x = Some y) ->
  (forall x, x <> h -> subs (S_ st1) x = subs (S_ st) x /\ terms (S_ st1) x = terms (S_ st) x) ->
  incl (subs (S_ st1) h) (subs (S_ st) h) -> incl (terms (S_ st1) h) (terms (S_ st) h) /\ NoDup (terms (S_ st1) h) ->
  isSys (S_ st) o = true -> o = h \/ In h (bound (S_ st) o) ->
  delM A o st1 = Some (st2, r) ->
  exists ex, r = Ok ex /\ Inv st2 /\ S_ st2 = S_ st1 /\ P_ st2 = P_ st
    /\ (forall x, In x ex <-> conn (S_ st1) o x) /\ (forall x, In x ex -> mat (C_ st2) x = None).
Proof.
  intros I Hh EP EC H1 H2 H3 H4 H5 H6 H7 Ho Hb E.
  assert (J : SInv (S_ st1) (P_ st1)).
  { rewrite EP. apply (SInv_shrink (S_ st)); auto; [apply I| |]; intros x; destruct (Nat.eq_dec x h) as [->|Hne]; auto;
      destruct (H5 x Hne) as [E1 E2]; rewrite ?E1, ?E2; [apply incl_refl|split; [apply incl_refl|apply I]]. }
  assert (Hlt : o < next (S_ st1)) by (rewrite H2; apply (i_sys _ _ (i_S _ I)), Ho).
  destruct (delM_spec o st1 st2 r J Hlt E) as [ex [-> [K [K1 K2]]]]. exists ex.
  assert (K' := cleared_cok _ _ K). destruct K as [[QS QP] _].
  split; [reflexivity|split; [|split; [exact QS|split; [congruence|split; [exact K1|intros x Hx; apply K2, K1, Hx]]]]].
  apply (inv_struct st st2 h); auto.
  - congruence.
  - rewrite QS, <- EP. exact J.
  - congruence.
  - rewrite QS. exact H5.
  - rewrite QS. intros t Ht. left. apply H7, Ht.
  - eapply cok_trans; [|exact K']. apply cok_eq, EC.
  - intros x Hx. right. apply K2. rewrite <- H3 in Hx. destruct Hb as [->|Hb].
    + apply bpath_conn, Hx.
    + apply bpath_conn. eapply bpath_cons; [|exact Hx]. rewrite H3. exact Hb.
Qed.

Lemma del_flag_inv (X : Type) s (v : X) st st' r : Inv st -> isSys (S_ st) s = true ->
  mbind A (delM A s) (fun _ => mbind A (flagUp A lim s) (fun _ => ret A v)) st = Some (st', r) ->
  r = Ok v /\ Inv st' /\ same st st'.
Proof.
  intros I Hs E.
  assert (Hlt : s < next (S_ st)) by (apply (i_sys _ _ (i_S _ I)), Hs).
  step E st1 exl E1; destruct (delM_spec s st _ _ (i_S _ I) Hlt E1) as [ex' [Ee [K _]]]; [|discriminate].
  pose proof (cleared_inv _ _ K I) as I1.
  step E st2 u E2; apply (flag_inv _ _ _ _ I1) in E2 as [Eu [I2 R]]; [|discriminate].
  injection E as <- <-. split; [reflexivity|split; [exact I2|]]. eapply same_trans; [apply K|apply R].
Qed.

Definition rmPost (t s : nat) (exc : list nat) (st st' : hst) (r : result (list nat)) : Prop :=
  exists exc', r = Ok exc' /\ Inv st' /\ P_ st' = P_ st /\ incl exc exc'
   /\ ((In t exc' /\ exists h, linked (S_ st) s h /\ In t (terms (S_ st) h) /\ S_ st' = without t h (S_ st))
       \/ (~ In t exc' /\ S_ st' = S_ st /\ In s exc' /\ (forall x, In x exc' -> ~ In t (terms (S_ st) x))
           /\ forall x, In x exc' -> ~ In x exc ->
                incl (subs (S_ st) x) exc' /\ forall p, sup (S_ st) x = Some p -> In p exc')).

Lemma linked_trans s x y z : linked s x y -> linked s y z -> linked s x z.
Proof. intros H. induction 1; [exact H|eapply L_step; eauto]. Qed.

Lemma rmTerm_spec n : forall s t exc st st' r, Inv st -> isSys (S_ st) s = true -> isSys (S_ st) t = false ->
  ~ In t exc -> (forall x, In x exc -> ~ In t (terms (S_ st) x)) ->
  rmTerm A lim n s t exc st = Some (st', r) -> rmPost t s exc st st' r.
Proof.
  induction n as [|n IH]; intros s t exc st st' r I Hs Ht Hn Hx E; [discriminate|].
  cbn [rmTerm] in E.
  assert (Hlt : s < next (S_ st)) by (apply (i_sys _ _ (i_S _ I)), Hs).
  destruct (memb t (terms (S_ st) s)) eqn:Em.
  - apply memb_In in Em. 
    step E st1 e E1; [|discriminate]. injection E1 as <- <-.
    match type of E with _ (upS A ?g st) = _ => set (st1 := upS A g st) in E end.
    assert (ES : S_ st1 = without t s (S_ st)) by reflexivity.
    step E st2 exl E2.
    + destruct (cut_inv st st1 st2 (Ok exl) s s) as [ex' [_ [I2 [S2 [P2 _]]]]]; auto.
      { rewrite ES. intros x Hx'. split; [reflexivity|]. cbn. apply upd_other, Hx'. }
      { rewrite ES. apply incl_refl. }
      { rewrite ES. cbn. rewrite upd_same. split; [intros x Hx'; apply filter_In in Hx'; apply Hx'|apply NoDup_filter, (i_nd _ _ (i_S _ I))]. }
      step E st3 u E3; apply (flag_inv _ _ _ _ I2) in E3 as [Eu [I3 [[R1 R2] _]]]; [|discriminate].
      injection E as <- <-. exists (exc ++ [s; t]). split; [reflexivity|split; [exact I3|]].
      split; [congruence|split; [apply incl_appl, incl_refl|]]. left.
      split; [apply in_or_app; right; right; left; reflexivity|]. exists s. split; [apply L_refl|].
      split; [exact Em|congruence].
    + exfalso. destruct (cut_inv st st1 st' (Err ex) s s) as [ex' [K _]]; auto; [| | |discriminate].
      { rewrite ES. intros x Hx'. split; [reflexivity|]. cbn. apply upd_other, Hx'. }
      { rewrite ES. apply incl_refl. }
      { rewrite ES. cbn. rewrite upd_same. split; [intros x Hx'; apply filter_In in Hx'; apply Hx'|apply NoDup_filter, (i_nd _ _ (i_S _ I))]. }
  - apply memb_nIn in Em. destruct (memb s exc) eqn:Ex.
    + apply memb_In in Ex. step E st1 e E1; [|discriminate]. injection E1 as <- <-.
      apply del_flag_inv in E as [-> [I1 [S1 P1]]]; auto. exists exc.
      split; [reflexivity|split; [exact I1|split; [exact P1|split; [apply incl_refl|]]]].
      right. split; [exact Hn|split; [exact S1|split; [exact Ex|split; [exact Hx|]]]]. intros x H1 H2. tauto.
    + apply memb_nIn in Ex.
      match type of E with context [mbind A (?F (subs (S_ st) s) (exc ++ [s])) _] => set (each := F) in E end.
      assert (Each : forall l exc0 st0 st1 r1, incl l (subs (S_ st) s) -> Inv st0 -> S_ st0 = S_ st ->
        ~ In t exc0 -> (forall x, In x exc0 -> ~ In t (terms (S_ st) x)) ->
        each l exc0 st0 = Some (st1, r1) ->
        exists exc1 b, r1 = Ok (exc1, b) /\ Inv st1 /\ P_ st1 = P_ st0 /\ incl exc0 exc1
         /\ ((b = true /\ In t exc1 /\ exists h, linked (S_ st) s h /\ In t (terms (S_ st) h) /\ S_ st1 = without t h (S_ st))
            \/ (b = false /\ ~ In t exc1 /\ S_ st1 = S_ st /\ incl l exc1 /\ (forall x, In x exc1 -> ~ In t (terms (S_ st) x))
               /\ forall x, In x exc1 -> ~ In x exc0 ->
                    incl (subs (S_ st) x) exc1 /\ forall p, sup (S_ st) x = Some p -> In p exc1))).
      { induction l as [|q l IHl]; intros exc0 st0 st1 r1 Hl I0 S0 Hn0 Hx0 E0; cbn in E0.
        - injection E0 as <- <-. exists exc0, false. split; [reflexivity|split; [exact I0|split; [reflexivity|split; [apply incl_refl|]]]].
          right. repeat split; auto; try (intros z []); tauto.
        - assert (Hq : In q (subs (S_ st) s)) by (apply Hl; left; reflexivity).
          assert (Sq : isSys (S_ st) q = true) by (apply (i_sub _ _ (i_S _ I) _ _ Hq)).
          assert (C : forall a b, rmTerm A lim n q t exc0 st0 = Some (a, b) -> rmPost t q exc0 st0 a b).
          { intros a b. apply IH; rewrite ?S0; auto. }
          step E0 st2 e E2; apply C in E2 as [e' [Ee [I2 [P2 [Inc D]]]]]; [|discriminate].
          injection Ee as <-. rewrite S0 in D. destruct D as [[D1 [h [D2 [D3 D4]]]]|[D1 [D2 [D3 [D4 D5]]]]].
          + destruct (memb t e) eqn:Emt; [|apply memb_nIn in Emt; tauto]. injection E0 as <- <-.
            exists e, true. split; [reflexivity|split; [exact I2|split; [exact P2|split; [exact Inc|]]]].
            left. split; [reflexivity|split; [exact D1|]]. exists h. split; [|auto].
            eapply linked_trans; [|exact D2]. eapply L_step; [apply L_refl|left; exact Hq].
          + destruct (memb t e) eqn:Emt; [apply memb_In in Emt; tauto|].
            destruct (IHl e st2 st1 r1) as [e1 [b [-> [I1 [P1 [Inc1 Dd]]]]]]; auto.
            { intros z Hz. apply Hl; right; exact Hz. }
            exists e1, b. split; [reflexivity|split; [exact I1|split; [congruence|split; [eapply incl_tran; eauto|]]]].
            destruct Dd as [Dd|[F1 [F2 [F3 [F4 [F5 F6]]]]]]; [left; exact Dd|right].
            split; [exact F1|split; [exact F2|split; [exact F3|split; [|split; [exact F5|]]]]].
            * intros z [<-|Hz]; [apply Inc1, D3|apply F4, Hz].
            * intros x Hx1 Hx2. destruct (in_dec Nat.eq_dec x e) as [Hxe|Hxe]; [|apply F6; auto].
              destruct (D5 x Hxe Hx2) as [G1 G2]. split; [eapply incl_tran; eauto|].
              intros p Hp. apply Inc1, (G2 p Hp). }
      assert (Main : forall st1 r1, (mbind A (each (subs (S_ st) s) (exc ++ [s])) (fun r =>
            if snd r : bool then ret A (fst r)
            else mbind A (get A (fun st => sup (S_ st) s)) (fun g =>
                 match g with None => ret A (fst r) | Some p => rmTerm A lim n p t (fst r) end))) st = Some (st1, r1) ->
         rmPost t s exc st st1 r1).
      { intros st1 r1 E1.
        assert (Hn' : ~ In t (exc ++ [s])).
        { rewrite in_app_iff. intros [K|[K|[]]]; [tauto|]. subst t. congruence. }
        assert (Hx' : forall x, In x (exc ++ [s]) -> ~ In t (terms (S_ st) x)).
        { intros x. rewrite in_app_iff. intros [K|[<-|[]]]; [apply Hx, K|exact Em]. }
        step E1 st2 e E2; apply Each in E2 as [e1 [b [Ee [I2 [P2 [Inc D]]]]]]; auto; try apply incl_refl; [|discriminate].
        injection Ee as ->. cbn [fst snd] in E1.
        assert (Inc0 : incl exc e1) by (intros z Hz; apply Inc, in_or_app; left; exact Hz).
        destruct D as [[-> [D1 D2]]|[-> [D1 [D2 [D3 [D4 D5]]]]]].
        - injection E1 as <- <-. exists e1. split; [reflexivity|split; [exact I2|split; [exact P2|split; [exact Inc0|left; auto]]]].
        - step E1 st3 g E3; [injection E3 as <- <-|discriminate]. rewrite D2 in E1.
          assert (Cl : forall exc', incl e1 exc' -> (forall p, sup (S_ st) s = Some p -> In p exc') ->
            (forall x, In x exc' -> ~ In x e1 -> incl (subs (S_ st) x) exc' /\ forall p, sup (S_ st) x = Some p -> In p exc') ->
            forall x, In x exc' -> ~ In x exc -> incl (subs (S_ st) x) exc' /\ forall p, sup (S_ st) x = Some p -> In p exc').
          { intros exc' H1 H2 H3 x Hxa Hxb. destruct (in_dec Nat.eq_dec x e1) as [Hxe|Hxe]; [|apply H3; auto].
            destruct (Nat.eq_dec x s) as [->|Hne].
            - split; [eapply incl_tran; eauto|exact H2].
            - destruct (D5 x Hxe) as [G1 G2]; [rewrite in_app_iff; cbn; intuition|].
              split; [eapply incl_tran; eauto|intros p Hp; apply H1, (G2 p Hp)]. }
          assert (Hse : In s e1) by (apply Inc, in_or_app; right; left; reflexivity).
          destruct (sup (S_ st) s) as [p|] eqn:Esup.
          + assert (C : rmPost t p e1 st2 st1 r1).
            { apply IH; rewrite ?D2; auto. apply (i_sup _ _ (i_S _ I) _ _ Esup). }
            destruct C as [exc' [-> [I1 [P1 [Inc1 D]]]]]. rewrite D2 in D. exists exc'.
            split; [reflexivity|split; [exact I1|split; [congruence|split; [eapply incl_tran; eauto|]]]].
            destruct D as [[F1 [h [F2 F3]]]|[F1 [F2 [F3 [F4 F5]]]]].
            * left. split; [exact F1|]. exists h. split; [|exact F3]. eapply linked_trans; [|exact F2].
              eapply L_step; [apply L_refl|right; exact Esup].
            * right. split; [exact F1|split; [exact F2|split; [apply Inc1, Hse|split; [exact F4|]]]].
              apply Cl; auto. intros p' [= <-]. exact F3.
          + injection E1 as <- <-. exists e1. split; [reflexivity|split; [exact I2|split; [exact P2|split; [exact Inc0|]]]].
            right. split; [exact D1|split; [exact D2|split; [exact Hse|split; [exact D4|]]]].
            apply Cl; [apply incl_refl|discriminate|tauto]. }
      step E st1 e E1; apply Main in E1 as [e1 [Ee [I1 [P1 [Inc D]]]]]; [|discriminate]. injection Ee as <-.
      assert (Hs1 : isSys (S_ st1) s = true).
      { destruct D as [[_ [h [_ [_ ->]]]]|[_ [-> _]]]; exact Hs. }
      apply del_flag_inv in E as [-> [I2 [S2 P2]]]; auto. exists e. rewrite S2.
      split; [reflexivity|split; [exact I2|split; [congruence|split; [exact Inc|exact D]]]].
Qed.

Lemma linked_ind_closed s i (l : list nat) : In i l ->
  (forall x, In x l -> incl (subs s x) l /\ forall p, sup s x = Some p -> In p l) ->
  forall y, linked s i y -> In y l.
Proof. intros Hi Hc y H. induction H as [|x y H IH [K|K]]; [exact Hi|exact (proj1 (Hc x IH) _ K)|exact (proj2 (Hc x IH) _ K)]. Qed.

Lemma removeTerm_spec s t st st' r : Inv st -> removeTerm A lim s t st = Some (st', r) ->
  Inv st' /\ P_ st' = P_ st
  /\ (r = Ok tt -> isSys (S_ st) s = true /\ isSys (S_ st) t = false
      /\ ((exists h, linked (S_ st) s h /\ In t (terms (S_ st) h) /\ S_ st' = without t h (S_ st))
        \/ (S_ st' = S_ st /\ forall h, linked (S_ st) s h -> ~ In t (terms (S_ st) h)))).
Proof.
  intros I. unfold removeTerm. intros E. step E st1 u E1; apply needSys_inv in E1 as [-> E1];
    [|split; [exact I|split; [reflexivity|congruence]]].
  destruct E1 as [[Hs _]|[e K]]; [|discriminate].
  step E st1 u1 E1; apply needTrm_inv in E1 as [-> E1]; [|split; [exact I|split; [reflexivity|congruence]]].
  destruct E1 as [[Hl [Ht _]]|[e K]]; [|discriminate].
  step E st2 e E2; apply rmTerm_spec in E2; auto; destruct E2 as [e' [Ee [I2 [P2 [_ D]]]]]; [|discriminate].
  injection Ee as <-. injection E as <- <-. split; [exact I2|split; [exact P2|intros _]].
  split; [exact Hs|split; [exact Ht|]]. destruct D as [[_ D]|[D1 [D2 [D3 [D4 D5]]]]]; [left; exact D|right].
  split; [exact D2|]. intros h Hh. apply D4. eapply linked_ind_closed; eauto.
Qed.

(** ** Terms setter *)
Definition ready (st : hst) (s t : nat) : Prop :=
  t < next (S_ st) /\ isSys (S_ st) t = false
  /\ (forall q, In q (facs (cont (P_ st) t)) -> bpath (bound (S_ st)) q s) /\ cmat st t /\ cham st t.
Lemma ready_mono st st' s t : P_ st' = P_ st -> grows st st' -> cok st st' -> ready st s t -> ready st' s t.
Proof.
  intros EP [G1 [G2 [_ [_ G5]]]] K [H1 [H2 [H3 [H4 H5]]]]. unfold ready, cmat, cham. rewrite EP, G1, G2. repeat split; auto.
  - intros q Hq. eapply bpath_mono; [exact G5|apply H3, Hq].
  - intros m E. apply H4, K, E.
  - intros h m E1 E2 E3. apply H5; apply K; assumption.
Qed.
Lemma addList_inv s ts : forall st st' r, Inv st -> isSys (S_ st) s = true -> (forall t, In t ts -> ready st s t) ->
  for_ A ts (fun t => mbind A (needTrm A t) (fun _ => addTerms A lim s t)) st = Some (st', r) -> Inv st'.
Proof.
  induction ts as [|t ts IH]; cbn [for_]; intros st st' r I Hs Hr E; [injection E as <- <-; exact I|].
  assert (Rt : ready st s t) by (apply Hr; left; reflexivity). assert (Rt' := Rt). destruct Rt as [T1 [T2 [T3 [T4 T5]]]].
  step E st1 u E1.
  - step E1 st2 u2 E2; [|apply needTrm_inv in E2 as [-> _]; discriminate]. apply needTrm_inv in E2 as [-> _].
    destruct (addTerms_spec _ _ _ _ _ I Hs T1 T2 T3 E1) as [_ [EP [G [_ [K _]]]]].
    apply addTerms_inv in E1 as [_ I1]; auto. eapply (IH st1); eauto.
    + destruct G as [-> _]; exact Hs.
    + intros x Hx. eapply ready_mono; eauto. apply Hr; right; exact Hx.
  - step E1 st2 u2 E2; [|apply needTrm_inv in E2 as [-> _]; exact I]. apply needTrm_inv in E2 as [-> _].
    apply addTerms_inv in E1 as [K _]; auto. discriminate.
Qed.

Lemma setTerms_inv s ts st st' r : Inv st -> ts <> [] -> incl ts (terms (S_ st) s) ->
  setTerms A lim s ts st = Some (st', r) -> Inv st'.
Proof.
  intros I Hne Hin. unfold setTerms. intros E. step E st1 u E1.
  2:{ unfold resetTerms in E1. step E1 st2 u2 E2; [discriminate|apply needSys_inv in E2 as [-> _]; exact I]. }
  unfold resetTerms in E1. step E1 st2 u2 E2; [|discriminate]. apply needSys_inv in E2 as [-> [[Hs _]|[e K]]]; [|discriminate].
  injection E1 as <- _. 
  match type of E with _ (upS A ?g st) = _ => set (st1 := upS A g st) in E end.
  destruct ts as [|t ts]; [tauto|]. cbn [for_] in E.
  assert (RD : forall x, In x (t :: ts) -> ready st s x).
  { intros x Hx. apply Hin in Hx. destruct (i_term _ _ (i_S _ I) _ _ Hx) as [_ [H2 H3]].
    split; [exact H2|split; [exact H3|split; [|split]]].
    - intros q Hq. eapply (i_fac _ _ (i_S _ I)); eauto.
    - apply (i_mat _ I). exists s; exact Hx.
    - apply (i_ham _ I). exists s; exact Hx. }
  assert (RT : ready st s t) by (apply RD; left; reflexivity). destruct RT as [T1 [T2 [T3 [T4 T5]]]].
  assert (G : forall st2 r2, mbind A (needTrm A t) (fun _ => addTerms A lim s t) st1 = Some (st2, r2) ->
     r2 = Ok tt /\ Inv st2 /\ P_ st2 = P_ st /\ grows st st2 /\ cok st st2).
  { intros st2 r2 E2. step E2 st3 u3 E3.
    2:{ exfalso. assert (Hb : trm A st1 t = true)
        by (unfold trm; apply andb_true_iff; split; [apply Nat.ltb_lt; exact T1|apply negb_true_iff; exact T2]).
      unfold needTrm in E3. rewrite Hb in E3. discriminate. }
    apply needTrm_inv in E3 as [-> _].
    (* the structure after resetting is a valid one, the caches are not *)
    assert (J1 : SInv (S_ st1) (P_ st1)).
    { apply (SInv_shrink (S_ st)); auto; [apply I| |]; intros x; cbn; [apply incl_refl|].
      destruct (upd_cases s [] (terms (S_ st)) x) as [[-> ->]|[_ ->]]; [split; [intros ? []|constructor]|split; [apply incl_refl|apply I]]. }
    unfold addTerms in E2.
    step E2 st4 u4 E4; [injection E4 as <-|discriminate]. step E2 st5 u5 E5; [injection E5 as <-|discriminate].
    match type of E2 with mbind A (flagUp A lim s) _ (upS A _ ?g) = _ => set (st0 := g) in E2 end.
    assert (S0 : P_ st0 = P_ st /\ C_ st0 = C_ st /\ isSys (S_ st0) = isSys (S_ st) /\ next (S_ st0) = next (S_ st)
       /\ subs (S_ st0) = subs (S_ st) /\ sup (S_ st0) = sup (S_ st) /\ bound (S_ st0) = bound (S_ st) /\ terms (S_ st0) = upd s [] (terms (S_ st))).
    { unfold st0. destruct (Nat.eqb _ _); cbn; auto 10. }
    destruct S0 as [Z1 [Z2 [Z3 [Z4 [Z5 [Z6 [Z7 Z8]]]]]]]. clearbody st0.
    step E2 st6 u6 E6; destruct (flagUp_spec _ _ _ _ E6) as [K [R [Fl _]]]; [|discriminate].
    injection E2 as <- <-. cbn in Fl. rewrite Z7 in Fl.
    pose proof (raised_cok _ _ R) as Kr. destruct R as [[RS RP] [Rm [Rh [_ Rf]]]]. cbn in RP.
    assert (Kc : cok st st6).
    { eapply cok_trans; [|exact Kr]. apply cok_eq. exact Z2. }
    assert (TS : terms (S_ st6) = upd s [t] (upd s [] (terms (S_ st)))).
    { rewrite RS. cbn. rewrite Z8, upd_same. reflexivity. }
    assert (TB : bound (S_ st6) = bound (S_ st)) by (rewrite RS; exact Z7).
    assert (Ht : In s (bound (S_ st) t)) by (apply (i_tb _ _ (i_S _ I)), Hin; left; reflexivity).
    assert (M0 : memb s (bound (S_ st6) t) = true) by (rewrite TB; apply memb_In, Ht).
    assert (BE : forall z, bound (S_ (upS A (fun s0 => set_bound (upd t (if memb s (bound s0 t) then bound s0 t else bound s0 t ++ [s]) (bound s0)) s0) st6)) z = bound (S_ st) z).
    { intros z. cbn. rewrite M0, TB. destruct (upd_cases t (bound (S_ st) t) (bound (S_ st)) z) as [[-> ->]|[_ ->]]; reflexivity. }
    match goal with |- _ /\ Inv ?z /\ _ => set (st7 := z) in * end.
    assert (E1' : isSys (S_ st7) = isSys (S_ st)) by (cbn; rewrite RS; exact Z3).
    assert (E2' : next (S_ st7) = next (S_ st)) by (cbn; rewrite RS; exact Z4).
    assert (E3' : subs (S_ st7) = subs (S_ st)) by (cbn; rewrite RS; exact Z5).
    assert (E4' : sup (S_ st7) = sup (S_ st)) by (cbn; rewrite RS; exact Z6).
    assert (E5' : terms (S_ st7) = upd s [t] (upd s [] (terms (S_ st)))) by (cbn; exact TS).
    assert (TI : forall x y, In y (terms (S_ st7) x) -> In y (terms (S_ st) x)).
    { intros x y. rewrite E5'. destruct (Nat.eq_dec x s) as [->|Hx]; [rewrite upd_same|rewrite !upd_other by exact Hx; auto].
      intros [<-|[]]. apply Hin; left; reflexivity. }
    assert (EP : P_ st7 = P_ st) by (cbn; rewrite RP; exact Z1).
    assert (EC : C_ st7 = C_ st6) by reflexivity.
    split; [reflexivity|split; [|split; [exact EP|split]]].
    - apply (inv_struct st st7 s); auto.
      + destruct (i_S _ I) as [Q1 Q2 Q3 Q4 Q5 Q6 Q7 Q8 Q9]. split; rewrite ?E1', ?E2', ?E3', ?E4'; auto.
        * intros x y. rewrite BE. apply Q3.
        * intros x y Hy. rewrite BE. auto.
        * intros x y Hy. rewrite BE. auto.
        * intros x y q Hy Hq. apply (bpath_mono (bound (S_ st))); [intros z; rewrite BE; apply incl_refl|]. eapply Q8; eauto.
        * intros x. rewrite E5'. destruct (Nat.eq_dec x s) as [->|Hx]; [rewrite upd_same; repeat constructor; auto|rewrite !upd_other by exact Hx; apply Q9].
      + intros x Hx. rewrite E3', E5', !upd_other by exact Hx. auto.
    - unfold grows. rewrite E1', E2', E3', E4'. repeat split; auto. intros z. rewrite BE. apply incl_refl.
    - eapply cok_trans; [exact Kc|]. apply cok_eq, EC. }
  step E st2 u3 E2; apply G in E2 as [K [I2 [P2 [G2 K2]]]]; [|discriminate].
  eapply (addList_inv s ts st2); eauto.
  - destruct G2 as [-> _]; exact Hs.
  - intros x Hx. eapply ready_mono; eauto. apply RD; right; exact Hx.
Qed.

(** ** Structure and dimensions *)
Lemma rebook_inv st st' r d ex o : Inv st -> (forall x, In x ex <-> conn (S_ st) o x) -> (forall x, In x ex -> mat (C_ st) x = None) ->
  rebook A d ex st = Some (st', r) -> r = Ok tt /\ Inv st' /\ S_ st' = S_ st /\ C_ st' = C_ st.
Proof.
  intros I Hx Hm. unfold rebook, modify. intros [= <- <-]. split; [reflexivity|split; [|split; reflexivity]].
  apply (inv_rebook st (fun x => if memb x ex then d x else dims (P_ st) x) (fun x => In x ex) I); auto.
  - intros x. destruct (memb x ex) eqn:E; [right; apply memb_In, E|left; reflexivity].
  - intros x y H1 H2. rewrite Hx in *. eapply C_step; eauto.
  - intros x t H1 H2. rewrite Hx in *. eapply C_step; [exact H1|]. right; right. split; [|exact H2].
    apply (i_term _ _ (i_S _ I) _ _ H2).
Qed.

Lemma delM_inv o st st' r : Inv st -> isSys (S_ st) o = true -> delM A o st = Some (st', r) ->
  exists ex, r = Ok ex /\ Inv st' /\ same st st' /\ (forall x, In x ex <-> conn (S_ st') o x) /\ (forall x, In x ex -> mat (C_ st') x = None).
Proof.
  intros I Ho E. assert (Hl : o < next (S_ st)) by (apply (i_sys _ _ (i_S _ I)), Ho).
  destruct (delM_spec o st st' r (i_S _ I) Hl E) as [ex [-> [K [K1 K2]]]]. exists ex.
  split; [reflexivity|split; [eapply cleared_inv; eauto|split; [apply K|]]]. destruct K as [[-> _] _].
  split; [exact K1|]. intros x Hx. apply K2, K1, Hx.
Qed.

Lemma setDim_inv s d st st' r : Inv st -> setDim A lim s d st = Some (st', r) -> Inv st'.
Proof.
  intros I. unfold setDim. intros E. step E st1 u E1; apply needSys_inv in E1 as [-> E1]; [|exact I].
  destruct E1 as [[Hs _]|[e K]]; [|discriminate].
  step E st1 u1 E1; apply (flag_inv _ _ _ _ I) in E1 as [Eu [I1 [[R1 R2] _]]]; [|discriminate].
  step E st2 exl E2; apply delM_inv in E2 as [e' [Ee [I2 [S2 [K1 K2]]]]]; auto; try (rewrite R1; exact Hs).
  injection Ee as ->. eapply rebook_inv in E; eauto. apply E.
Qed.

Lemma addSub_inv p c d st st' r : Inv st -> addSub A lim p c d st = Some (st', r) -> Inv st'.
Proof.
  intros I. unfold addSub. intros E. step E st1 u E1; apply needSys_inv in E1 as [-> E1]; [|exact I].
  destruct E1 as [[Hp _]|[e K]]; [|discriminate].
  step E st1 u1 E1; apply needSys_inv in E1 as [-> E1]; [|exact I].
  destruct E1 as [[Hc _]|[e K]]; [|discriminate].
  step E st1 l E1; [injection E1 as <- <-|discriminate].
  destruct (memb p _); [injection E as <- <-; exact I|].
  step E st1 u2 E1; [injection E1 as <-|discriminate].
  match type of E with _ (upS A ?g st) = _ => set (st1 := upS A g st) in E end.
  assert (I1 : Inv st1).
  { destruct I as [J I2 I3 I4 I5 I6]. split; cbn; auto.
    - destruct J; split; cbn; auto.
      intros x h. destruct (upd_cases c (Some p) (sup (S_ st)) x) as [[-> ->]|[_ ->]]; eauto.
      intros [= <-]; exact Hp.
    - intros s m Hs Ef Em. eapply sysVal_frame; [apply (I5 s m Hs Ef Em)|]. intros x Hx. split; [reflexivity|split; [reflexivity|]]. auto. }
  step E st2 u3 E2; [|apply (flag_inv _ _ _ _ I1) in E2 as [K _]; discriminate].
  destruct (flagUp_spec _ _ _ _ E2) as [_ [R [Fl _]]]. apply (flag_inv _ _ _ _ I1) in E2 as [_ [I2 _]].
  destruct R as [[RS RP] _].
  step E st3 u4 E3; [injection E3 as <-|discriminate]. step E st4 u5 E4; [injection E4 as <-|discriminate].
  match type of E with _ ?g = _ => set (st4 := g) in E end.
  assert (Hp2 : isSys (S_ st2) p = true) by (rewrite RS; exact Hp).
  assert (Hc2 : isSys (S_ st2) c = true) by (rewrite RS; exact Hc).
  assert (I4 : Inv st4).
  { assert (MB : forall z, incl (bound (S_ st2) z) (bound (S_ st4) z)).
    { intros z y Hy. cbn. destruct (Nat.eq_dec z c) as [->|Hz]; [rewrite upd_same; apply insert_In; auto|rewrite upd_other by exact Hz; exact Hy]. }
    assert (MS : forall h x, In x (subs (S_ st4) h) -> In x (subs (S_ st2) h) \/ (h = p /\ x = c)).
    { intros h x. cbn. destruct (Nat.eq_dec h p) as [->|Hz]; [rewrite upd_same, insert_In; intuition|rewrite upd_other by exact Hz; auto]. }
    apply (inv_struct st2 st4 p); auto; try reflexivity.
    - destruct (i_S _ I2) as [Q1 Q2 Q3 Q4 Q5 Q6 Q7 Q8 Q9]. split; auto.
      + intros h x Hx. destruct (MS _ _ Hx) as [K|[-> ->]]; [apply Q2, K|auto].
      + intros x y. cbn. destruct (Nat.eq_dec x c) as [->|Hx]; [rewrite upd_same, insert_In|rewrite upd_other by exact Hx; apply Q3].
        intros [K| ->]; [apply Q3, K|]. split; [exact Hp2|]. apply Q1, Hc2.
      + intros h x Hx. destruct (MS _ _ Hx) as [K|[-> ->]]; [apply MB, Q6, K|]. cbn. rewrite upd_same. apply insert_In; auto.
      + intros h t Ht. apply MB, Q7, Ht.
      + intros h t q Ht Hq. eapply bpath_mono; [exact MB|eapply Q8; eauto].
    - intros x Hx. split; [cbn; apply upd_other, Hx|reflexivity].
    - apply cok_eq; reflexivity.
    - intros x Hx. left. cbn. apply Fl. rewrite RS in Hx. exact Hx. }
  step E st5 exl E5; apply delM_inv in E5 as [e' [Ee [I5 [S5 [K1 K2]]]]]; auto.
  injection Ee as ->. eapply rebook_inv in E; eauto. apply E.
Qed.

Lemma removeSub_inv p c d st st' r : Inv st -> removeSub A lim p c d st = Some (st', r) -> Inv st'.
Proof.
  intros I. unfold removeSub. intros E. step E st1 u E1; apply needSys_inv in E1 as [-> E1]; [|exact I].
  destruct E1 as [[Hp _]|[e K]]; [|discriminate].
  step E st1 u1 E1; apply needSys_inv in E1 as [-> E1]; [|exact I].
  destruct E1 as [[Hc _]|[e K]]; [|discriminate].
  step E st1 l E1; [injection E1 as <- <-|discriminate].
  destruct (memb c _) eqn:Em; [|injection E as <- <-; exact I]. cbn [negb] in E. apply memb_In in Em.
  step E st1 u2 E1; [injection E1 as <-|discriminate].
  match type of E with _ (upS A ?g st) = _ => set (st1 := upS A g st) in E end.
  assert (Cut : forall st2 r2, delM A c st1 = Some (st2, r2) -> exists ex, r2 = Ok ex /\ Inv st2 /\ S_ st2 = S_ st1 /\ P_ st2 = P_ st
    /\ (forall x, In x ex <-> conn (S_ st1) c x) /\ (forall x, In x ex -> mat (C_ st2) x = None)).
  { intros st2 r2. apply (cut_inv st st1 st2 r2 p c); auto.
    - intros x y. cbn. destruct (upd_cases c None (sup (S_ st)) x) as [[-> ->]|[_ ->]]; auto; discriminate.
    - intros x Hx. cbn. rewrite upd_other by exact Hx. auto.
    - cbn. rewrite upd_same. intros x Hx. apply filter_In in Hx. apply Hx.
    - split; [apply incl_refl|apply I].
    - right. apply (i_up _ _ (i_S _ I)), Em. }
  step E st2 exl E2; apply Cut in E2 as [e' [Ee [I2 [S2 [P2 [K1 K2]]]]]]; [|discriminate]. injection Ee as ->.
  rewrite <- S2 in K1. step E st3 u3 E3; eapply rebook_inv in E3 as [Er [I3 [S3 C3]]]; eauto.
  step E st4 u4 E4; [injection E4 as <-|discriminate].
  match type of E with _ (upS A ?g st3) = _ => set (st4 := upS A g st3) in E end.
  assert (Hp3 : isSys (S_ st3) p = true) by (rewrite S3, S2; exact Hp).
  assert (Cut2 : forall st5 r5, delM A p st4 = Some (st5, r5) -> exists ex, r5 = Ok ex /\ Inv st5 /\ S_ st5 = S_ st4 /\ P_ st5 = P_ st3
    /\ (forall x, In x ex <-> conn (S_ st4) p x) /\ (forall x, In x ex -> mat (C_ st5) x = None)).
  { intros st5 r5. apply (cut_inv st3 st4 st5 r5 p p); auto.
    - intros x Hx. cbn. rewrite upd_other by exact Hx. auto.
    - apply incl_refl.
    - cbn. rewrite upd_same. split; [intros x Hx; apply filter_In in Hx; apply Hx|apply NoDup_filter, (i_nd _ _ (i_S _ I3))]. }
  step E st5 exl2 E5; apply Cut2 in E5 as [e2 [Ee [I5 [S5 [P5 [L1 L2]]]]]]; [|discriminate]. injection Ee as ->.
  rewrite <- S5 in L1. step E st6 u6 E6; eapply rebook_inv in E6 as [Er6 [I6 [S6 C6]]]; eauto.
  apply (flag_inv _ _ _ _ I6) in E. apply E.
Qed.

(** ** Free evolution *)
Lemma inv_clear st s : Inv st -> flag (C_ st) s = false -> Inv (upC A (fun c => set_flag A (upd s false (flag c)) c) st).
Proof.
  intros I Hf. apply (inv_peq st); auto. unfold cok, uni; cbn. repeat split; auto.
  - intros x. destruct (upd_cases s false (flag (C_ st)) x) as [[-> ->]|[_ ->]]; auto.
  - intros H x. destruct (upd_cases s false (flag (C_ st)) x) as [[-> ->]|[_ ->]]; [discriminate|apply H].
Qed.
Lemma unitary_inv s st st' r : Inv st -> isSys (S_ st) s = true -> unitary A lim false s st = Some (st', r) -> Inv st'.
Proof.
  intros I Hs. unfold unitary. intros E.
  step E st1 pf E1; [injection E1 as <- <-|discriminate]. step E st1 pm E1; [injection E1 as <- <-|discriminate].
  assert (C : forall st1 r1, mbind A (readSys A lim s) (fun _ => modify A (upC A (fun c => set_pflag A (upd s false (pflag c)) (set_pmat A (upd s true (pmat c)) c)))) st
     = Some (st1, r1) -> Inv st1 /\ (r1 = Ok tt -> flag (C_ st1) s = false)).
  { intros st1 r1 E1. step E1 st2 v E2.
    - destruct (readSys_spec _ _ _ _ _ I Hs E2) as [_ [I2 [_ F]]]. injection E1 as <- <-.
      destruct (F v eq_refl) as [Ff Fm]. split; [|intros _; exact Ff].
      destruct I2 as [J1 J2 J3 J4 J5 J6]. split; cbn; auto.
      intros x Hx. destruct (Nat.eq_dec x s) as [->|Hne]; [congruence|]. rewrite !upd_other by exact Hne. auto.
    - split; [|congruence]. destruct (readSys_spec _ _ _ _ _ I Hs E2) as [_ [I2 _]]. exact I2. }
  assert (D : forall st1 r1, (if pflag (C_ st) s then mbind A (readSys A lim s) (fun _ => modify A (upC A (fun c => set_pflag A (upd s false (pflag c)) (set_pmat A (upd s true (pmat c)) c))))
     else if pmat (C_ st) s then ret A tt else mbind A (readSys A lim s) (fun _ => modify A (upC A (fun c => set_pflag A (upd s false (pflag c)) (set_pmat A (upd s true (pmat c)) c))))) st
     = Some (st1, r1) -> Inv st1 /\ (r1 = Ok tt -> flag (C_ st1) s = false)).
  { intros st1 r1. destruct (pflag (C_ st) s) eqn:Ep; [apply C|]. destruct (pmat (C_ st) s) eqn:Eq; [|apply C].
    intros [= <- <-]. split; [exact I|]. intros _. destruct (flag (C_ st) s) eqn:Ef; [|reflexivity].
    destruct (i_uni _ I s Ef); congruence. }
  step E st1 u E1; apply D in E1 as [I1 F1]; [|exact I1].
  injection E as <- <-. apply inv_clear; [exact I1|apply F1; destruct u; reflexivity].
Qed.

(** ** Histories *)
Lemma start_inv : Inv (start A).
Proof.
  split; cbn; intros; first [discriminate|exact Logic.I|left; reflexivity|idtac].
  - split; cbn; intros; first [discriminate|contradiction|constructor].
Qed.

Lemma void_inv {X} (m : M A X) st st' r : void A m st = Some (st', r) -> exists r', m st = Some (st', r').
Proof. intros E. step E st1 x E1; [injection E as <- <-|]; eauto. Qed.

Lemma exec_inv o st st' r : eqbs A -> Inv st -> good A st o -> exec A lim o st = Some (st', r) ->
  (forall t os, o = OOps A t os -> r = Ok tt) -> Inv st'.
Proof.
  intros Q I G E Hr. destruct o; cbn [exec] in E; cbn [good] in G; try tauto.
  - apply void_inv in E as [r' E]. destruct (newObj_inv true [] (COne A 0 None 1) _ _ _ I (fun x (h : In x []) => match h with end) Logic.I E) as [_ [I1 _]]. exact I1.
  - apply void_inv in E as [r' E]. eapply createOne_inv; eauto.
  - apply void_inv in E as [r' E]. eapply createMany_inv; eauto.
  - eapply setFreq_inv; eauto.
  - eapply setOp_inv; eauto.
  - eapply setOrd_inv; eauto.
  - eapply setOps_inv; eauto.
  - eapply setOrds_inv; eauto.
  - step E st1 t E1; apply firstTerm_inv in E1; auto. eapply setFreq_inv; eauto.
  - step E st1 t E1; apply firstTerm_inv in E1; auto. eapply setOp_inv; eauto.
  - step E st1 t E1; apply firstTerm_inv in E1; auto. eapply setOrd_inv; eauto.
  - step E st1 u E1; apply needSys_inv in E1 as [-> E1]; [|exact I]. destruct E1 as [[Hs _]|[e K]]; [|discriminate].
    apply void_inv in E as [r' E]. eapply readSys_spec; eauto.
  - step E st1 u E1; apply needTrm_inv in E1 as [-> E1]; [|exact I]. destruct E1 as [[Hl [Ht _]]|[e K]]; [|discriminate].
    apply void_inv in E as [r' E]. eapply readTerm_spec; eauto.
  - step E st1 u E1; apply needSys_inv in E1 as [-> E1]; [|exact I]. destruct E1 as [[Hs _]|[e K]]; [|discriminate].
    subst fixed. eapply unitary_inv; eauto.
  - eapply removeTerm_spec; eauto.
  - destruct G. eapply setTerms_inv; eauto.
  - eapply setDim_inv; eauto.
  - eapply addSub_inv; eauto.
  - eapply removeSub_inv; eauto.
Qed.

Theorem reach_inv st : eqbs A -> reach A lim st -> Inv st.
Proof.
  intros Q H. induction H as [|st o st' r H IH G E Hr]; [apply start_inv|]. eapply exec_inv; eauto.
Qed.

(** ** Sums over trees *)
Lemma fold_add (Ad : additive A) l a : fold_left (add A) l a = add A a (msum A l).
Proof.
  destruct Ad as [As [Co Z]]. unfold msum. revert a.
  induction l as [|x l IH]; intros a; cbn [fold_left].
  - rewrite Co, Z. reflexivity.
  - rewrite (IH (add A a x)), (IH (add A (zero A) x)), Z, As. reflexivity.
Qed.
Lemma msum_app (Ad : additive A) l l' : msum A (l ++ l') = add A (msum A l) (msum A l').
Proof. unfold msum at 1. rewrite fold_left_app. rewrite fold_add by exact Ad. reflexivity. Qed.
Lemma msum_perm (Ad : additive A) l l' : Permutation l l' -> msum A l = msum A l'.
Proof.
  intros H. unfold msum. generalize (zero A). induction H as [|x l l' H IH|x y l|l l' l'' H1 IH1 H2 IH2]; intros a; cbn [fold_left]; auto.
  - f_equal. destruct Ad as [As [Co Z]]. rewrite <- As, (Co y x), As. reflexivity.
  - congruence.
Qed.
Lemma msum_concat (Ad : additive A) ls : msum A (List.concat ls) = msum A (map (msum A) ls).
Proof.
  induction ls as [|l ls IH]; cbn [List.concat map]; [reflexivity|].
  rewrite (msum_app Ad), IH. change (msum A (msum A l :: map (msum A) ls)) with (fold_left (add A) (map (msum A) ls) (add A (zero A) (msum A l))).
  rewrite (fold_add Ad).
  destruct Ad as [As [Co Z]]. rewrite Z. reflexivity.
Qed.

Lemma sysVal_sum (Ad : additive A) s p i m : sysVal s p i m -> forall L, allTerms A s p i L ->
  exists vs, Forall2 (termVal p) L vs /\ m = msum A vs.
Proof.
  intros H. revert i m H. refine (sysVal_ind2 s p _ _). intros i vs ws _ H2 H3 L HL.
  inversion HL as [j ls HF]; subst.
  assert (G : exists vss, Forall2 (fun l v => Forall2 (termVal p) l v) ls vss /\ vs = map (msum A) vss).
  { clear - H2 HF. revert ls HF. induction H2 as [|x v l vs Hx F IH]; intros ls HF; inversion HF; subst.
    - exists []. split; constructor.
    - destruct (Hx _ ltac:(eassumption)) as [v1 [V1 ->]]. destruct (IH _ ltac:(eassumption)) as [vss [V2 ->]].
      exists (v1 :: vss). split; [constructor; auto|reflexivity]. }
  destruct G as [vss [G1 ->]]. exists (List.concat vss ++ ws). split.
  - apply Forall2_app; [|exact H3]. clear - G1. induction G1; cbn; [constructor|apply Forall2_app; auto].
  - rewrite (msum_app Ad), (msum_concat Ad). reflexivity.
Qed.
Lemma sum_sysVal (Ad : additive A) s p i L : allTerms A s p i L -> forall vs, Forall2 (termVal p) L vs ->
  sysVal s p i (msum A vs).
Proof.
  revert i L. fix IH 3. intros i L H. destruct H as [i ls HF]. intros vs HV.
  apply Forall2_app_inv_l in HV as [v1 [v2 [H1 [H2 ->]]]].
  assert (G : exists vss, v1 = List.concat vss /\ Forall2 (sysVal s p) (subs s i) (map (msum A) vss)).
  { clear H2 v2. revert v1 H1. induction HF as [|x l xs ls Hx F IHF]; intros v1 H1; cbn in H1.
    - inversion H1; subst. exists []. split; [reflexivity|constructor].
    - apply Forall2_app_inv_l in H1 as [w1 [w2 [G1 [G2 ->]]]]. destruct (IHF _ G2) as [vss [-> Fv]].
      exists (w1 :: vss). split; [reflexivity|]. constructor; [|exact Fv]. exact (IH _ _ Hx _ G1). }
  destruct G as [vss [-> F]]. rewrite (msum_app Ad), (msum_concat Ad). constructor; assumption.
Qed.
Lemma allTerms_In s p i L : allTerms A s p i L -> forall t,
  In t L <-> exists x, below s i x /\ In t (terms s x) /\ active A p t = true.
Proof.
  revert i L. fix IH 3. intros i L H. destruct H as [i ls HF]. intros t.
  rewrite in_app_iff, filter_In.
  assert (G : In t (List.concat ls) <-> exists q x, In q (subs s i) /\ below s q x /\ In t (terms s x) /\ active A p t = true).
  { induction HF as [|q l qs ls Hq F IHF]; cbn; [split; [intros []|intros [q [x [[] _]]]]|].
    rewrite in_app_iff, (IH _ _ Hq t), IHF. split.
    - intros [[x K]|[q' [x [K1 K2]]]]; [exists q, x; tauto|exists q', x; tauto].
    - intros [q' [x [[<-|K1] K2]]]; [left; exists x; exact K2|right; exists q', x; tauto]. }
  rewrite G. split.
  - intros [[q [x [K1 [K2 K3]]]]|[K1 K2]]; [exists x|exists i]; (split; [|tauto]); [eapply below_cons; eauto|apply B_refl].
  - intros [x [K1 K2]]. assert (D : x = i \/ exists q, In q (subs s i) /\ below s q x).
    { clear - K1. induction K1 as [|x y K IHK Hy]; [left; reflexivity|right].
      destruct IHK as [->|[q [Q1 Q2]]]; [exists y; split; [exact Hy|apply B_refl]|exists q; split; [exact Q1|eapply B_step; eauto]]. }
    destruct D as [->|[q [Q1 Q2]]]; [right; exact K2|left; exists q, x; tauto].
Qed.
Lemma sysVal_allTerms s p i m : sysVal s p i m -> exists L, allTerms A s p i L.
Proof.
  revert i m. refine (sysVal_ind2 s p _ _). intros i vs ws _ H2 _.
  assert (G : exists ls, Forall2 (allTerms A s p) (subs s i) ls).
  { induction H2 as [|x v l vs [L HL] F [ls IH]]; [exists []; constructor|exists (L :: ls); constructor; assumption]. }
  destruct G as [ls G]. eexists. constructor. exact G.
Qed.

Lemma filter_out t l : NoDup l -> In t l -> exists a b, l = a ++ t :: b /\ filter (fun x => negb (Nat.eqb x t)) l = a ++ b.
Proof.
  intros N H. apply in_split in H as [a [b ->]]. exists a, b. split; [reflexivity|].
  apply NoDup_remove_2 in N. rewrite in_app_iff in N. rewrite filter_app. cbn. rewrite Nat.eqb_refl. cbn.
  assert (G : forall l, ~ In t l -> filter (fun x => negb (Nat.eqb x t)) l = l).
  { induction l as [|x l IH]; cbn; intros Hn; [reflexivity|].
    destruct (Nat.eqb x t) eqn:E; [apply Nat.eqb_eq in E; tauto|]. cbn. rewrite IH by tauto. reflexivity. }
  rewrite !G by tauto. reflexivity.
Qed.

Lemma sysVal_acyclic s p i m : sysVal s p i m -> forall x, In x (subs s i) -> ~ below s x i.
Proof.
  intros H. assert (W : Acc (fun c q => In c (subs s q)) i).
  { revert i m H. refine (sysVal_ind2 s p _ _). intros i vs ws _ H2 _. constructor. intros c Hc.
    clear - H2 Hc. induction H2 as [|x v l vs Hx F IH]; [destruct Hc|]. destruct Hc as [<-|Hc]; auto. }
  clear m H. assert (P : forall x y, below s x y -> Acc (fun c q => In c (subs s q)) x -> Acc (fun c q => In c (subs s q)) y).
  { intros x y B. induction B as [|x' y B IH Hy]; auto. intros Ax. destruct (IH Ax) as [Wx]. apply Wx, Hy. }
  induction W as [i W IH]. intros x Hx B. 
  assert (G : forall x y, below s x y -> x = y \/ exists z, In z (subs s x) /\ below s z y).
  { clear. intros x y B. induction B as [|a b B [->|[z [Z1 Z2]]] Hb]; [left; reflexivity|right; exists b; split; [exact Hb|apply B_refl]|].
    right. exists z. split; [exact Z1|eapply B_step; eauto]. }
  destruct (G _ _ B) as [->|[z [Z1 Z2]]].
  - exact (IH i Hx i Hx (B_refl _ _)).
  - apply (IH x Hx z Z1). eapply B_step; [exact Z2|exact Hx].
Qed.

(** The Hamiltonian of the system a term was taken from. *)
Lemma without_val (Ad : additive A) s p h t m v : NoDup (terms s h) -> In t (terms s h) -> active A p t = true ->
  termVal p t v -> sysVal s p h m -> exists m', sysVal (without t h s) p h m' /\ m = add A m' v.
Proof.
  intros Hn Ht Ha Hv H. pose proof (sysVal_acyclic _ _ _ _ H) as Hb. inversion H as [i vs ws F1 F2]; subst.
  destruct (filter_out t _ Hn Ht) as [a [b [E1 E2]]].
  rewrite E1, filter_app in F2. cbn in F2. rewrite Ha in F2.
  apply Forall2_app_inv_l in F2 as [w1 [w2 [G1 [G2 ->]]]]. inversion G2 as [|? v' ? w2' Hv' G3]; subst.
  assert (v' = v) by (eapply termVal_fun; eauto). subst v'.
  exists (add A (msum A vs) (msum A (w1 ++ w2'))). split.
  - constructor; cbn.
    + eapply Forall2_impl_in; [|exact F1]. intros x w Hx K.
      eapply sysVal_frame; [exact K|]. intros y Hy. cbn. split; [reflexivity|split; [|auto]].
      rewrite upd_other; [reflexivity|]. intros ->. exact (Hb x Hx Hy).
    + rewrite upd_same, E2, filter_app. apply Forall2_app; assumption.
  - rewrite (msum_perm Ad (w1 ++ v :: w2') ((w1 ++ w2') ++ [v])).
    + rewrite (msum_app Ad (w1 ++ w2') [v]). assert (E3 : msum A [v] = v) by (unfold msum; cbn; apply Ad). destruct Ad as [As _]. rewrite E3, As. reflexivity.
    + rewrite <- app_assoc. apply Permutation_app_head. apply (Permutation_cons_append w2' v).
Qed.
(** Computing the value. *)
Fixpoint mapO {X Y} (f : X -> option Y) (l : list X) : option (list Y) :=
  match l with
  | [] => Some []
  | x :: l' => match f x, mapO f l' with Some y, Some r => Some (y :: r) | _, _ => None end
  end.
Lemma mapO_F2 {X Y} (f : X -> option Y) l : forall vs, mapO f l = Some vs -> Forall2 (fun x v => f x = Some v) l vs.
Proof.
  induction l as [|x l IH]; cbn; intros vs; [intros [= <-]; constructor|].
  destruct (f x) eqn:E; [|discriminate]. destruct (mapO f l); [|discriminate]. intros [= <-]. constructor; auto.
Qed.
Definition tvalue (p : params A) (t : nat) : option (matT A) :=
  match freq p t, construct A p t with Some f, Ok m => Some (scale A f m) | _, _ => None end.
Fixpoint value (n : nat) (s : struct) (p : params A) (i : nat) : option (matT A) :=
  match n with
  | O => None
  | S n' => match mapO (value n' s p) (subs s i), mapO (tvalue p) (filter (active A p) (terms s i)) with
            | Some vs, Some ws => Some (add A (msum A vs) (msum A ws))
            | _, _ => None
            end
  end.
Lemma value_sound n : forall s p i m, value n s p i = Some m -> sysVal s p i m.
Proof.
  induction n as [|n IH]; cbn; intros s p i m; [discriminate|].
  destruct (mapO (value n s p) (subs s i)) as [vs|] eqn:E1; [|discriminate].
  destruct (mapO (tvalue p) _) as [ws|] eqn:E2; [|discriminate]. intros [= <-].
  apply mapO_F2 in E1, E2. constructor.
  - eapply Forall2_impl_in; [|exact E1]. intros x v _ H. apply IH, H.
  - eapply Forall2_impl_in; [|exact E2]. intros t v _. unfold tvalue.
    destruct (freq p t) eqn:Ef; [|discriminate]. destruct (construct A p t) eqn:Ec; [|discriminate].
    intros [= <-]. apply construct_termVal; assumption.
Qed.
End Proofs.
