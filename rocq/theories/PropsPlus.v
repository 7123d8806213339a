(** C90: composites built with + and taken apart with -. *)
From Verif Require Import Py QDimModel QDimSpec QDimProofs PropsQDim PlusModel PlusSpec PlusProofs.
#[local] Open Scope Z_scope.
#[local] Arguments OSetDim _%nat_scope _%Z_scope.
#[local] Arguments OAdd (_ _)%nat_scope.
#[local] Arguments ORemove (_ _)%nat_scope.
#[local] Arguments sum _%nat_scope.
#[local] Arguments plus (_ _ _ _ _)%nat_scope.
#[local] Arguments eval _%nat_scope.

#[local] Notation after lim ks os := (run lim os (init ks)).

(** C90: s1 + s2 + ... + sn (n >= 2) of single systems that stand alone, after
    any fine history.  The result is one new system; its sub-systems are
    s1, ..., sn in this order, all on the same level; its dimension is the
    product of theirs; sk has the product of the dimensions of the systems left
    of it before it and of those right of it after it; nothing about the
    dimensions changes; and the evaluation is a fine history again (so C25
    speaks about everything that follows). *)
Theorem C90_chain : forall lim ks os s1 s2 new cp rest, (4 <= lim)%nat -> allFine lim os (init ks) ->
  let h := after lim ks os in
  let all := s1 :: s2 :: map snd rest in
  untouched h new -> (forall s, In s all -> single h s) -> NoDup (new :: all) ->
  prod (map (fun s => dim (h s)) all) < 2 ^ 53 ->
  exists h', eval lim (sum s1 ((new, cp, s2) :: rest)) h = (h', Ok new) /\
    h' = after lim ks (os ++ map (OAdd new) all) /\ allFine lim (os ++ map (OAdd new) all) (init ks) /\
    subs (h' new) = all /\ root h' new /\
    dimension lim h' new = Ok (prod (map (fun s => dim (h s)) all)) /\
    (forall k s, nth_error all k = Some s ->
       dimension lim h' s = Ok (dim (h s)) /\
       dB (h' s) = prod (map (fun s => dim (h s)) (firstn k all)) /\
       dA (h' s) = prod (map (fun s => dim (h s)) (skipn (S k) all))).
Proof.
  intros lim ks os s1 s2 new cp rest Hl Hf h all U Hs ND Hbig.
  assert (W : WF lim h) by (apply run_WF; [apply init_WF; lia|assumption]).
  destruct (Hs s1) as [S1 R1]; [now left|]. destruct (Hs s2) as [S2 R2]; [right; now left|].
  assert (Pos : forall l, (forall s, In s l -> single h s) -> 0 < prod (map (fun s => dim (h s)) l)).
  { induction l as [|x l IHl]; intros K; [cbn; lia|]. cbn [map prod fold_right]. fold (prod (map (fun s => dim (h s)) l)).
    assert (0 < dim (h x)) by (apply (WF_positive lim h x); [assumption|apply single_dim; apply K; now left]).
    assert (0 < prod (map (fun s => dim (h s)) l)) by (apply IHl; intros; apply K; now right). nia. }
  assert (P1 : 0 < dim (h s1)) by (apply (WF_positive lim h s1); [assumption|now apply single_dim]).
  assert (P2 : 0 < dim (h s2)) by (apply (WF_positive lim h s2); [assumption|now apply single_dim]).
  assert (P3 : 0 < prod (map (fun s => dim (h s)) (map snd rest))) by (apply Pos; intros s H; apply Hs; right; now right).
  unfold all in Hbig. cbn [map prod fold_right] in Hbig. fold (prod (map (fun s => dim (h s)) (map snd rest))) in Hbig.
  assert (ND' : NoDup [new; s1; s2]).
  { unfold all in ND. inversion ND as [|? ? K1 K2]; subst. inversion K2 as [|? ? K3 K4]; subst. cbn [In] in *. repeat constructor; cbn; intuition. }
  destruct (pair_ok lim h new s1 s2 (dim (h s1)) (dim (h s2)) W U R1 R2 ND') as (h1 & E1 & Er & F1 & C1 & C2 & C3 & C4 & C5 & C6 & C7 & C8 & C9).
  { now apply single_dim. } { now apply single_dim. } { nia. }
  { exists 1%nat. split; [now apply single_nested|lia]. } { exists 1%nat. split; [now apply single_nested|lia]. }
  assert (W1 : WF lim h1) by (rewrite Er; now apply run_WF).
  assert (Ee : eval lim (EPlus new cp (ESys s1) (ESys s2)) h = (h1, Ok new)).
  { cbn [eval]. rewrite !ret_step. unfold plus. rewrite !get_step, S1, S2. cbn [openEnded truth isNone sameFlag andb negb Bool.eqb].
    destruct (Nat.eqb_spec s2 s1) as [e|_]. { exfalso. inversion ND' as [|? ? _ K]; subst. inversion K as [|? ? K' _]; subst. apply K'. now left. }
    now rewrite (mbind_ok _ _ _ _ _ _ _ E1). }
  assert (Nn : forall s, In s all -> s <> new). { intros s Hin ->. inversion ND; subst. contradiction. }
  assert (D1 : has_dims h1 (subs (h1 new)) (dim (h s1) * dim (h s2))).
  { destruct (WF_dimension lim h1 new W1) as (d & Ed & Hd & _). rewrite C6 in Ed. injection Ed as <-. inversion Hd; [|assumption]. subst. unfold isComp in *. rewrite C1 in *. discriminate. }
  assert (Ed : map (fun s => dim (h1 s)) (map snd rest) = map (fun s => dim (h s)) (map snd rest)).
  { apply map_ext_in. intros x Hx. apply C7. apply Nn. right. now right. }
  destruct (chain_ok lim rest new h1 (dim (h s1) * dim (h s2)) (EPlus new cp (ESys s1) (ESys s2)) h Hl W1 Ee) as (h' & B1 & B2 & B3 & B4 & B5 & B6 & B7 & B8).
  { split; assumption. }
  { intros s Hin. assert (Ha : In s all) by (right; now right). destruct (Hs s Ha) as [X1 X2]. destruct (C7 s (Nn s Ha)) as (_ & X3 & _). split; [congruence|].
    unfold root. rewrite C8; [exact X2| |now apply Nn]. exists s, 1, 1. split; [assumption|].
    unfold all in ND. inversion ND as [|? ? K1 K2]; subst. inversion K2 as [|? ? K3 K4]; subst. inversion K4 as [|? ? K5 K6]; subst.
    split; [intros ->; apply K3; now right|]. split; [intros ->; contradiction|]. constructor. }
  { unfold all in ND. inversion ND as [|? ? K1 K2]; subst. inversion K2 as [|? ? K3 K4]; subst. inversion K4 as [|? ? K5 K6]; subst. constructor; [|assumption].
    intros H. apply K1. right. now right. }
  { assumption. }
  { rewrite Ed. lia. }
  exists h'. split; [exact B1|].
  assert (Eh : h' = after lim ks (os ++ map (OAdd new) all)).
  { rewrite run_app. fold h. unfold all. cbn [map]. rewrite B2, Er. reflexivity. }
  split; [exact Eh|].
  assert (Fa : allFine lim (os ++ map (OAdd new) all) (init ks)).
  { apply allFine_app; [assumption|]. fold h. unfold all. cbn [map]. change (OAdd new s1 :: OAdd new s2 :: map (OAdd new) (map snd rest)) with ([OAdd new s1; OAdd new s2] ++ map (OAdd new) (map snd rest)).
    apply allFine_app; [exact F1|]. rewrite <- Er. exact B3. }
  split; [exact Fa|].
  assert (Esub : subs (h' new) = all) by (rewrite B6, C2; reflexivity).
  split; [exact Esub|]. destruct B5 as [B5 B5']. split; [exact B5'|].
  assert (Hd : forall s, In s all -> has_dim h' s (dim (h s))).
  { intros s Hin. destruct (B8 s (Nn s Hin)) as (X1 & X2 & _). destruct (C7 s (Nn s Hin)) as (X3 & X4 & _). rewrite <- X3, <- X1. constructor.
    unfold isComp. rewrite X2, X4. destruct (Hs s Hin) as [-> _]. reflexivity. }
  assert (Hds : forall l, (forall s, In s l -> In s all) -> has_dims h' l (prod (map (fun s => dim (h s)) l))).
  { induction l as [|x l IHl]; intros K; [constructor|]. cbn [map prod fold_right]. constructor; [apply Hd; apply K; now left|apply IHl; intros; apply K; now right]. }
  split.
  { destruct (WF_dimension lim h' new B4) as (d & Edd & _ & _ & Ud). rewrite Edd. f_equal. symmetry. apply Ud. apply HD_comp; [unfold isComp; now rewrite B5|].
    rewrite Esub. apply Hds. auto. }
  intros k s Hk. assert (Hin : In s all) by (eapply nth_error_In; exact Hk). split.
  { destruct (WF_dimension lim h' s B4) as (d & Edd & _ & _ & Ud). rewrite Edd. f_equal. symmetry. apply Ud. now apply Hd. }
  pose proof (nth_error_split _ _ Hk) as (l & l' & El & Ekl).
  assert (E1' : firstn k all = l). { rewrite El, <- Ekl. rewrite firstn_app, Nat.sub_diag, firstn_all. cbn. apply app_nil_r. }
  assert (E2' : skipn (S k) all = l'). { rewrite El, <- Ekl. replace (S (List.length l)) with (List.length (l ++ [s])) by (rewrite app_length; cbn; lia). change (l ++ s :: l') with (l ++ [s] ++ l'). rewrite app_assoc, skipn_app, skipn_all, Nat.sub_diag. reflexivity. }
  rewrite E1', E2'.
  destruct (C25_nested_bookkeeping lim ks _ ltac:(lia) Fa new) as [_ Q]. { rewrite <- Eh. exact B5'. }
  rewrite <- Eh in Q. destruct (Q s (1 * prod (map (fun s => dim (h s)) l)) (1 * prod (map (fun s => dim (h s)) l'))) as (Q1 & Q2 & _).
  - eapply P_sub with (p := new); [apply P_root|unfold isComp; now rewrite B5|rewrite Esub; exact El| |]; apply Hds; intros x Hx; rewrite El; apply in_or_app; [now left|right; now right].
  - rewrite Q1, Q2. split; ring.
Qed.

(** C90: + with an open-ended left operand (a composite, or a plain
    QuantumSystem that has not been used yet) and a right operand that is not
    composite adds the right one to the left one, at the end, and returns the
    left one itself. *)
Theorem C90_append : forall lim ks os a b new cp dl db, (2 <= lim)%nat -> allFine lim os (init ks) ->
  let h := after lim ks os in
  comp (h a) <> Some false -> root h a -> comp (h b) <> Some true -> root h b -> a <> b -> fits lim h a b ->
  has_dims h (subs (h a)) dl -> has_dim h b db ->
  exists h', plus lim new cp a b h = (h', Ok a) /\
    h' = after lim ks (os ++ [OAdd a b]) /\ allFine lim (os ++ [OAdd a b]) (init ks) /\
    subs (h' a) = subs (h a) ++ [b] /\ sup (h' b) = Some a /\ dimension lim h' a = Ok (dl * db) /\
    (forall j, apart h a b j -> h' j = h j).
Proof.
  intros lim ks os a b new cp dl db Hl Hf h Ca Ra Cb Rb N Fi Dl Db.
  assert (W : WF lim h) by (apply run_WF; [now apply init_WF|assumption]).
  destruct (add_ok lim h a b db dl W Ra Rb N Ca Fi Db Dl) as (h1 & S1 & F1 & A1 & A2 & A3 & A4 & A5 & A6 & A7 & A8 & A9).
  exists h1. rewrite plus_append; [|destruct (comp (h a)) as [[]|]; [reflexivity|congruence|reflexivity]|assumption|congruence].
  rewrite (mbind_ok _ _ _ _ _ _ _ S1). split; [reflexivity|]. split. { rewrite run_app. fold h. cbn [run exec]. now rewrite S1. }
  split. { apply allFine_app; [assumption|]. fold h. cbn [allFine]. auto. }
  auto.
Qed.

(** C90: + between two single systems, or between two composites, makes a new
    system with the two operands as its sub-systems, in the order of the
    operands.  The composites stay as they are, one level deeper.  When the two
    operands are the same object the right one is replaced by its copy. *)
Theorem C90_pair : forall lim ks os a b new cp c da db, (2 <= lim)%nat -> allFine lim os (init ks) ->
  let h := after lim ks os in
  let o := if Nat.eqb b a then cp else b in
  comp (h a) = Some c -> comp (h b) = Some c -> root h a -> root h o -> untouched h new -> NoDup [new; a; o] ->
  has_dim h a da -> has_dim h o db -> da * db < 2 ^ 53 ->
  (exists n, nested h a n /\ (2 * (n + 1) <= lim)%nat) -> (exists n, nested h o n /\ (2 * (n + 1) <= lim)%nat) ->
  exists h', plus lim new cp a b h = (h', Ok new) /\
    h' = after lim ks (os ++ [OAdd new a; OAdd new o]) /\ allFine lim (os ++ [OAdd new a; OAdd new o]) (init ks) /\
    subs (h' new) = [a; o] /\ root h' new /\ sup (h' a) = Some new /\ sup (h' o) = Some new /\
    dimension lim h' new = Ok (da * db) /\
    subs (h' a) = subs (h a) /\ subs (h' o) = subs (h o) /\
    (forall j, apart h a o j -> j <> new -> h' j = h j).
Proof.
  intros lim ks os a b new cp c da db Hl Hf h o Ca Cb Ra Ro U ND Da Db Hbig Na No.
  assert (W : WF lim h) by (apply run_WF; [now apply init_WF|assumption]).
  destruct (pair_ok lim h new a o da db W U Ra Ro ND Da Db Hbig Na No) as (h1 & E1 & Er & F1 & C1 & C2 & C3 & C4 & C5 & C6 & C7 & C8 & C9).
  exists h1. split.
  { unfold plus. rewrite !get_step. fold o. rewrite Ca, Cb. transitivity ((addAll lim new [a; o] ;;; ret new) h); [destruct c; reflexivity|now rewrite (mbind_ok _ _ _ _ _ _ _ E1)]. }
  split. { rewrite run_app. fold h. exact Er. }
  split. { apply allFine_app; [assumption|]. exact F1. }
  inversion ND as [|? ? K1 K2]; subst. repeat split; auto; apply C7; intros Hx; apply K1; rewrite <- Hx; [now left|right; now left].
Qed.

(** C90: a single system + a composite puts the single system LAST in the
    composite and returns the composite itself. *)
Theorem C90_last : forall lim ks os a b new cp da dl, (2 <= lim)%nat -> allFine lim os (init ks) ->
  let h := after lim ks os in
  single h a -> composite h b -> fits lim h b a -> has_dims h (subs (h b)) dl -> has_dim h a da ->
  exists h', plus lim new cp a b h = (h', Ok b) /\
    h' = after lim ks (os ++ [OAdd b a]) /\ allFine lim (os ++ [OAdd b a]) (init ks) /\
    subs (h' b) = subs (h b) ++ [a] /\ sup (h' a) = Some b /\ dimension lim h' b = Ok (dl * da) /\
    (forall j, apart h b a j -> h' j = h j).
Proof.
  intros lim ks os a b new cp da dl Hl Hf h [Ca Ra] [Cb Rb] Fi Dl Da.
  assert (W : WF lim h) by (apply run_WF; [now apply init_WF|assumption]).
  assert (N : b <> a) by (intros ->; congruence).
  destruct (add_ok lim h b a da dl W Rb Ra N ltac:(rewrite Cb; discriminate) Fi Da Dl) as (h1 & S1 & F1 & A1 & A2 & A3 & A4 & A5 & A6 & A7 & A8 & A9).
  exists h1. split. { unfold plus. rewrite !get_step, Ca, Cb. cbn [openEnded truth isNone sameFlag andb negb Bool.eqb]. now rewrite (mbind_ok _ _ _ _ _ _ _ S1). }
  split. { rewrite run_app. fold h. cbn [run exec]. now rewrite S1. }
  split. { apply allFine_app; [assumption|]. fold h. cbn [allFine]. auto. }
  auto.
Qed.

(** C90: a plain QuantumSystem that has not been used yet + a composite is the
    composite: nothing is changed and the left operand is dropped. *)
Theorem C90_dropped : forall lim h a b new cp, comp (h a) = None -> comp (h b) = Some true ->
  plus lim new cp a b h = (h, Ok b).
Proof. intros lim h a b new cp Ca Cb. unfold plus. rewrite !get_step, Ca, Cb. reflexivity. Qed.

(** C90: a single system + a plain QuantumSystem that has not been used yet
    raises UnboundLocalError and changes nothing, while the two in the other
    order give a composite. *)
Theorem C90_ambiguous_refuted : forall lim ks os a b new cp da, (4 <= lim)%nat -> allFine lim os (init ks) ->
  let h := after lim ks os in
  single h a -> untouched h b -> has_dim h a da -> da < 2 ^ 53 ->
  plus lim new cp a b h = (h, Err UnboundLocalError) /\
  exists h', plus lim new cp b a h = (h', Ok b) /\ subs (h' b) = [a] /\ dimension lim h' b = Ok da.
Proof.
  intros lim ks os a b new cp da Hl Hf h [Ca Ra] (U1 & U2 & U3 & U4) Da Hbig. split. { unfold plus. rewrite !get_step, Ca, U1. reflexivity. }
  assert (W : WF lim h) by (apply run_WF; [apply init_WF; lia|assumption]).
  destruct (C90_append lim ks os b a new cp 1 da ltac:(lia) Hf) as (h' & E & _ & _ & E2 & _ & E3 & _); fold h; try assumption.
  - rewrite U1. discriminate.
  - rewrite Ca. discriminate.
  - intros ->. congruence.
  - split; [|exists 1%nat; split; [now apply single_nested|lia]]. intros dp dc Hp Hc.
    assert (Cb : isComp (h b) = false) by (unfold isComp; now rewrite U1).
    destruct (WF_dimension lim h b W) as (d & _ & _ & _ & Ub). rewrite (Ub _ Hp), <- (Ub _ (HD_single h b Cb)), U4.
    destruct (WF_dimension lim h a W) as (d' & _ & _ & _ & Ua). rewrite (Ua _ Hc), <- (Ua _ Da). lia.
  - rewrite U2. constructor.
  - exists h'. fold h in E, E2. rewrite U2 in E2. rewrite Z.mul_1_l in E3. auto.
Qed.

(** C90: + is not associative: (a + b) + c has the sub-systems a, b, c in this
    order, a + (b + c) has b, c, a. *)
Theorem C90_assoc_refuted : forall lim ks os a b c new new' cp cp', (4 <= lim)%nat -> allFine lim os (init ks) ->
  let h := after lim ks os in
  untouched h new -> (forall s, In s [a; b; c] -> single h s) -> NoDup [new; a; b; c] ->
  dim (h a) * dim (h b) * dim (h c) < 2 ^ 53 ->
  (exists h', eval lim (EPlus new' cp' (EPlus new cp (ESys a) (ESys b)) (ESys c)) h = (h', Ok new) /\ subs (h' new) = [a; b; c]) /\
  (exists h', eval lim (EPlus new' cp' (ESys a) (EPlus new cp (ESys b) (ESys c))) h = (h', Ok new) /\ subs (h' new) = [b; c; a]).
Proof.
  intros lim ks os a b c new new' cp cp' Hl Hf h U Hs ND Hbig.
  assert (W : WF lim h) by (apply run_WF; [apply init_WF; lia|assumption]).
  destruct (Hs a) as [Sa Ra]; [cbn; auto|]. destruct (Hs b) as [Sb Rb]; [cbn; auto|]. destruct (Hs c) as [Sc Rc]; [cbn; auto|].
  assert (Pa : 0 < dim (h a)) by (apply (WF_positive lim h a); [assumption|now apply single_dim]).
  assert (Pb : 0 < dim (h b)) by (apply (WF_positive lim h b); [assumption|now apply single_dim]).
  assert (Pc : 0 < dim (h c)) by (apply (WF_positive lim h c); [assumption|now apply single_dim]).
  assert (Q : new <> a /\ new <> b /\ new <> c /\ a <> b /\ a <> c /\ b <> c).
  { inversion ND as [|? ? K1 K2]; subst. inversion K2 as [|? ? K3 K4]; subst. inversion K4 as [|? ? K5 K6]; subst. cbn in *. intuition. }
  destruct Q as (Q1 & Q2 & Q3 & Q4 & Q5 & Q6). split.
  - destruct (C90_chain lim ks os a b new cp [(new', cp', c)] Hl Hf) as (h' & E & _ & _ & Es & _); fold h; auto.
    + cbn [map snd prod fold_right]. lia.
    + exists h'. auto.
  - destruct (C90_pair lim ks os b c new cp false (dim (h b)) (dim (h c)) ltac:(lia) Hf) as (h1 & E & Eh & F1 & Es & R1 & _ & _ & Ed & _ & _ & Ka); fold h; try assumption.
    all: try (destruct (Nat.eqb_spec c b); [congruence|]); try assumption.
    + repeat constructor; cbn; intuition.
    + now apply single_dim.
    + now apply single_dim.
    + nia.
    + exists 1%nat. split; [now apply single_nested|lia].
    + exists 1%nat. split; [now apply single_nested|lia].
    + fold h in E. cbn [eval]. rewrite ret_step.
      assert (E' : (b0 <- (a0 <- ret b;; b0 <- ret c;; plus lim new cp a0 b0) ;; plus lim new' cp' a b0) h = plus lim new' cp' a new h1).
      { rewrite (mbind_ok _ _ _ (fun b0 => plus lim new' cp' a b0) h h1 new); [reflexivity|]. rewrite !ret_step. exact E. }
      rewrite E'.
      assert (W1 : WF lim h1) by (rewrite Eh; apply run_WF; [apply init_WF; lia|assumption]).
      assert (Ea : h1 a = h a). { apply Ka; [|congruence]. exists a, 1, 1. fold h. split; [assumption|]. split; [congruence|]. split; [congruence|]. constructor. }
      assert (Da : has_dim h1 a (dim (h a))). { rewrite <- Ea. apply single_dim. now rewrite Ea. }
      assert (Dn : has_dim h1 new (dim (h b) * dim (h c))). { destruct (WF_dimension lim h1 new W1) as (d & Ed' & Hd & _). congruence. }
      destruct (WF_dims lim h1 (subs (h1 new)) W1) as (dl & Hdl).
      assert (Cn : comp (h1 new) = Some true).
      { assert (Hin : In b (subs (h1 new))) by (rewrite Es; now left). clear - W1 Hin. destruct W1 as (own & F & I).
        destruct (Inv_child _ _ _ _ _ _ I Hin) as (cx & ls & u & rs & b0 & a0 & _ & _ & _ & Rc & _). rewrite repc_cons in Rc. destruct Rc as (_ & Rc & _).
        unfold isComp in Rc. destruct (comp (h1 new)) as [[]|]; congruence. }
      destruct (C90_last lim ks _ a new new' cp' (dim (h a)) dl ltac:(lia) F1) as (h2 & G & _ & _ & Gs & _); try rewrite <- Eh.
      * split; [rewrite Ea; assumption|]. unfold root. rewrite Ea. assumption.
      * split; assumption.
      * split; [|exists 1%nat; split; [apply single_nested; now rewrite Ea|lia]]. intros dp dc Hp Hc.
        destruct (WF_dimension lim _ new W1) as (d & _ & _ & _ & Ud). rewrite (Ud _ Hp), <- (Ud _ Dn).
        destruct (WF_dimension lim _ a W1) as (d' & _ & _ & _ & Ud'). rewrite (Ud' _ Hc), <- (Ud' _ Da). nia.
      * assumption.
      * assumption.
      * rewrite <- Eh in G, Gs. exists h2. split; [exact G|]. rewrite Gs, Es. reflexivity.
Qed.

(** C90: - is removeSubSys and returns its left operand; adding a single
    system to a composite and subtracting it again gives the composite its old
    sub-systems back, but leaves the single system with dimension 1. *)
Theorem C90_minus : forall lim ks os p c, (2 <= lim)%nat -> allFine lim os (init ks) ->
  let h := after lim ks os in
  In c (subs (h p)) -> isComp (h c) = false ->
  exists h', minus lim p c h = (h', Ok p) /\ exec lim (ORemove p c) h = (h', Ok tt) /\
    allFine lim (os ++ [ORemove p c]) (init ks) /\ root h' c /\ dimension lim h' c = Ok 1 /\
    exists l l', subs (h p) = l ++ c :: l' /\ subs (h' p) = l ++ l' /\ ~ In c (l ++ l').
Proof.
  intros lim ks os p c Hl Hf h Hin Hc.
  destruct (C27_remove_single lim ks os p c Hl Hf Hin Hc) as (h' & E & (R & _ & _) & Sp & _). fold h in E, Sp.
  destruct (C27_removed_loses_dimension_refuted lim ks os p c Hl Hf Hin Hc) as (h2 & E2 & D). fold h in E2. rewrite E in E2. injection E2 as <-.
  exists h'. split.
  { cbn [exec] in E. unfold removeSub in E. unfold minus, mbind in *. destruct (rmSub lim p c [] h) as [h3 [x|e]]; cbn in E; [|discriminate]. injection E as <-. reflexivity. }
  split; [exact E|]. split. { apply allFine_app; [assumption|]. fold h. cbn [allFine fine]. auto. }
  auto.
Qed.
Theorem C90_plusMinus_refuted : forall lim ks os p c new cp, (4 <= lim)%nat -> allFine lim os (init ks) ->
  let h := after lim ks os in
  composite h p -> single h c -> fits lim h p c ->
  exists h', eval lim (EMinus (EPlus new cp (ESys p) (ESys c)) (ESys c)) h = (h', Ok p) /\
    subs (h' p) = subs (h p) /\ root h' c /\ dimension lim h c = Ok (dim (h c)) /\ dimension lim h' c = Ok 1.
Proof.
  intros lim ks os p c new cp Hl Hf h [Cp Rp] [Cc Rc] Fi.
  assert (W : WF lim h) by (apply run_WF; [apply init_WF; lia|assumption]).
  destruct (WF_dims lim h (subs (h p)) W) as (dl & Hdl). assert (N : p <> c) by (intros ->; congruence).
  destruct (C90_append lim ks os p c new cp dl (dim (h c)) ltac:(lia) Hf) as (h1 & E & Eh & F1 & Es & Esup & _); fold h; auto.
  { rewrite Cp. discriminate. } { rewrite Cc. discriminate. } { now apply single_dim. }
  fold h in E, Es.
  assert (Nc : ~ In c (subs (h p))).
  { intros Hin. destruct W as (own & F & I). destruct (Inv_child _ _ _ _ _ _ I Hin) as (cx & ls & u & rs & b0 & a0 & _ & Eu & _ & _ & Ru).
    pose proof (rep_root _ _ _ _ _ Ru) as (_ & _ & Q & _). rewrite Eu in Q. unfold root in Rc. congruence. }
  assert (Cc1 : isComp (h1 c) = false).
  { assert (T : tame p c h h1). { pose proof (tame_add lim p c h h) as K. rewrite plus_append in E; [|now rewrite Cp|now rewrite Cc|congruence].
      unfold mbind in E. destruct (addSub lim p c h) as [h3 [x|e]]; cbn in E; [|discriminate]. injection E as <-. apply K. intros k. auto. }
    destruct (T c) as (_ & T2 & _). destruct (T2 ltac:(congruence)) as [T3 _]. unfold isComp. now rewrite T3, Cc. }
  destruct (C90_minus lim ks (os ++ [OAdd p c]) p c ltac:(lia) F1) as (h2 & G & _ & _ & Gr & Gd & l & l' & Gl & Gs & Gn).
  { rewrite <- Eh, Es. apply in_or_app. right. now left. } { now rewrite <- Eh. }
  rewrite <- Eh in G, Gl. exists h2. split.
  { cbn [eval]. rewrite (mbind_ok _ _ _ _ h h1 p); [|rewrite !ret_step; exact E]. rewrite ret_step. exact G. }
  split.
  { rewrite Gs. rewrite Es in Gl. assert (Q : l = subs (h p) /\ l' = []).
    { clear - Gl Nc Gn. revert Gl Nc Gn. generalize (subs (h p)). induction l as [|x l IH]; intros [|y m] Gl Nc Gn; cbn in *.
      - injection Gl as <-. auto.
      - injection Gl as -> _. exfalso. apply Nc. now left.
      - injection Gl as <- Q. destruct l; discriminate.
      - injection Gl as <- Gl. destruct (IH m Gl) as [-> ->]; [tauto|tauto|]. auto. }
    destruct Q as [-> ->]. apply app_nil_r. }
  split; [exact Gr|]. split; [|exact Gd]. destruct lim; [lia|]. cbn [dimension]. unfold isComp. now rewrite Cc.
Qed.

(** A system with three qubits and one cavity, and a sum of all of them. *)
Definition ksP (i : oid) : kind := if Nat.ltb i 3 then KSystem else if Nat.ltb i 6 then KQubit else KCavity.
Example C90_ex_hyp : allFine 10 [OSetDim 6 5] (init ksP) /\ let h := run 10 [OSetDim 6 5] (init ksP) in
  untouched h 0%nat /\ (forall s, In s [3; 6; 4]%nat -> single h s) /\ NoDup [0; 3; 6; 4]%nat /\
  prod (map (fun s => dim (h s)) [3; 6; 4]%nat) = 20.
Proof.
  split; [apply allFineb_sound; [lia|apply init_WF; lia|]; vm_compute; reflexivity|]. cbv zeta.
  split; [vm_compute; auto|]. split; [|split; [|reflexivity]].
  - intros s [<-|[<-|[<-|[]]]]; vm_compute; auto.
  - repeat constructor; cbn; intuition discriminate.
Qed.
Example C90_ex : let '(h, r) := eval 10 (sum 3 [(0, 1, 6); (2, 1, 4)]%nat) (run 10 [OSetDim 6 5] (init ksP)) in
  r = Ok 0%nat /\ subs (h 0%nat) = [3; 6; 4]%nat /\ map (fun i => (dB (h i), dA (h i))) [3; 6; 4]%nat = [(1, 10); (2, 2); (10, 1)].
Proof. vm_compute. auto. Qed.
(** Two composites, a + a of a qubit (with the copy 5), and a single system
    first: the hypotheses of the other theorems are met as well. *)
Example C90_ex_others : let h := run 10 [OSetDim 6 5; OAdd 0 3; OAdd 1 4] (init ksP) in
  allFine 10 [OSetDim 6 5; OAdd 0 3; OAdd 1 4] (init ksP) /\ composite h 0%nat /\ composite h 1%nat /\ untouched h 2%nat /\ single h 6%nat /\
  (let '(h', r) := plus 10 2 9 0 1 h in r = Ok 2%nat /\ subs (h' 2%nat) = [0; 1]%nat /\ dimension 10 h' 2%nat = Ok 4) /\
  (let '(h', r) := plus 10 2 5 6 6 h in r = Ok 2%nat /\ subs (h' 2%nat) = [6; 5]%nat) /\
  (let '(h', r) := plus 10 2 9 6 0 h in r = Ok 0%nat /\ subs (h' 0%nat) = [3; 6]%nat) /\
  snd (plus 10 8 9 6 2 h) = Err UnboundLocalError.
Proof.
  split; [apply allFineb_sound; [lia|apply init_WF; lia|]; vm_compute; reflexivity|]. vm_compute. repeat split; auto.
Qed.
Example C90_ex_fits : let h := run 10 [OSetDim 6 5; OAdd 0 3; OAdd 1 4] (init ksP) in fits 10 h 0%nat 6%nat.
Proof.
  set (h := run 10 _ _). assert (W : WF 10 h) by (apply run_WF; [apply init_WF; lia|apply allFineb_sound; [lia|apply init_WF; lia|]; vm_compute; reflexivity]).
  split.
  - intros dp dc Hp Hc. destruct (WF_dimension 10 h 0%nat W) as (d & E & _ & _ & U). rewrite (U _ Hp). destruct (WF_dimension 10 h 6%nat W) as (d' & E' & _ & _ & U').
    rewrite (U' _ Hc). vm_compute in E. vm_compute in E'. injection E as <-. injection E' as <-. lia.
  - exists 1%nat. split; [|lia]. apply single_nested. reflexivity.
Qed.

Print Assumptions C90_chain.
Print Assumptions C90_append.
Print Assumptions C90_pair.
Print Assumptions C90_last.
Print Assumptions C90_dropped.
Print Assumptions C90_ambiguous_refuted.
Print Assumptions C90_assoc_refuted.
Print Assumptions C90_minus.
Print Assumptions C90_plusMinus_refuted.
