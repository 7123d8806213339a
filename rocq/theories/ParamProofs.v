From Verif Require Import Py ParamModel ParamSpec.

Lemma put_same {V} (f : nat -> V) o v : put f o v o = v.
Proof. unfold put; rewrite Nat.eqb_refl; reflexivity. Qed.
Lemma put_other {V} (f : nat -> V) o v x : x <> o -> put f o v x = f x.
Proof. intros H; unfold put; apply Nat.eqb_neq in H; rewrite H; reflexivity. Qed.
Lemma existsb_In x l : existsb (Nat.eqb x) l = true <-> In x l.
Proof.
  rewrite existsb_exists; split.
  - intros [y [H1 H2]]; apply Nat.eqb_eq in H2; subst; exact H1.
  - intros H; exists x; split; [exact H|apply Nat.eqb_refl].
Qed.
Lemma existsb_nIn x l : existsb (Nat.eqb x) l = false <-> ~ In x l.
Proof. rewrite <- existsb_In; destruct (existsb _ l); split; congruence. Qed.

(** ** Flags *)
Section Flags.
Variable bound : nat -> list nat.

Definition setAll (call : nat -> (nat -> bool) -> option (nat -> bool)) :=
  fix loop (l : list nat) (fl : nat -> bool) : option (nat -> bool) :=
    match l with
    | [] => Some fl
    | x :: rest => match call x fl with Some fl' => loop rest fl' | None => None end
    end.

Lemma setUpdated_S f b o fl :
  setUpdated bound (S f) b o fl = setAll (setUpdated bound f b) (bound o) (put fl o b).
Proof. reflexivity. Qed.

Lemma bpath_trans o p q : bpath bound o p -> bpath bound p q -> bpath bound o q.
Proof. intros H1 H2; induction H2; [exact H1|econstructor; eassumption]. Qed.

Lemma bpath_inv o x : bpath bound o x -> x = o \/ exists y, In y (bound o) /\ bpath bound y x.
Proof.
  induction 1 as [|p q H IH Hin]; [left; reflexivity|]. right.
  destruct IH as [->|[y [Hy Hp]]]; [exists q; split; [exact Hin|constructor]|].
  exists y; split; [exact Hy|econstructor; eassumption].
Qed.

Lemma bpath_cons o y x : In y (bound o) -> bpath bound y x -> bpath bound o x.
Proof. intros H1 H2. apply bpath_trans with y; [econstructor; [constructor|exact H1]|exact H2]. Qed.

(** Flags after a completed call: never touched outside, set inside. *)
Lemma setUpdated_exact f : forall b o fl fl', setUpdated bound f b o fl = Some fl' ->
  (forall x, bpath bound o x -> fl' x = b) /\ (forall x, ~ bpath bound o x -> fl' x = fl x).
Proof.
  induction f as [|f IH]; intros b o fl fl' E; [discriminate|]. rewrite setUpdated_S in E.
  assert (G : forall l fl fl', setAll (setUpdated bound f b) l fl = Some fl' ->
     (forall x, (fl x = b \/ exists y, In y l /\ bpath bound y x) -> fl' x = b)
     /\ (forall x, (forall y, In y l -> ~ bpath bound y x) -> fl' x = fl x)).
  { clear E fl fl'. induction l as [|y l IHl]; intros fl fl' E; cbn [setAll] in E.
    - injection E as <-. split; [intros x [H|[y [[] _]]]; exact H|reflexivity].
    - destruct (setUpdated bound f b y fl) as [fl1|] eqn:E1; [|discriminate].
      destruct (IH _ _ _ _ E1) as [A1 A2]. destruct (IHl _ _ E) as [B1 B2]. split.
      + intros x [H|[z [[<-|Hz] Hx]]].
        * apply B1; left. assert (D := A1 x). assert (D2 := A2 x).
          (* fl1 x is b either way *)
          destruct (Bool.bool_dec (fl1 x) b) as [e|n]; [exact e|].
          exfalso. assert (N : ~ bpath bound y x) by (intros Hp; apply n, D, Hp).
          rewrite (D2 N) in n. contradiction.
        * apply B1; left; apply A1, Hx.
        * apply B1; right; exists z; auto.
      + intros x H. rewrite B2 by (intros z Hz; apply H; right; exact Hz).
        apply A2, H; left; reflexivity. }
  destruct (G _ _ _ E) as [A B]. split.
  - intros x Hx. destruct (bpath_inv o x Hx) as [->|H]; apply A; [left; apply put_same|right; exact H].
  - intros x Hx. rewrite B.
    + apply put_other. intros ->; apply Hx; constructor.
    + intros y Hy Hp; apply Hx, (bpath_cons o y x Hy Hp).
Qed.

(** Success is monotone in the fuel. *)
Lemma setUpdated_mono f : forall f' b o fl fl', setUpdated bound f b o fl = Some fl' -> f <= f' ->
  setUpdated bound f' b o fl = Some fl'.
Proof.
  induction f as [|f IH]; intros f' b o fl fl' E Hle; [discriminate|].
  destruct f' as [|f']; [lia|]. rewrite setUpdated_S in *.
  revert E. generalize (put fl o b) as gl. generalize (bound o) as l.
  induction l as [|y l IHl]; intros gl E; cbn [setAll] in *; [exact E|].
  destruct (setUpdated bound f b y gl) as [fl1|] eqn:E1; [|discriminate].
  rewrite (IH f' _ _ _ _ E1) by lia. apply IHl, E.
Qed.

Lemma setUpdated_acyclic (rank : nat -> nat) f : forall b o fl,
  (forall p q, bpath bound o p -> In q (bound p) -> rank q < rank p) -> rank o < f ->
  exists fl', setUpdated bound f b o fl = Some fl'.
Proof.
  induction f as [|f IH]; intros b o fl Hr Hf; [lia|]. rewrite setUpdated_S.
  generalize (put fl o b) as gl.
  assert (Hl : forall y, In y (bound o) -> rank y < f).
  { intros y Hy. specialize (Hr o y (BP_refl _ _) Hy). lia. }
  assert (Hs : forall y, In y (bound o) -> forall p q, bpath bound y p -> In q (bound p) -> rank q < rank p).
  { intros y Hy p q Hp Hq. apply (Hr p q); [apply (bpath_cons o y p Hy Hp)|exact Hq]. }
  revert Hl Hs. generalize (bound o) as l.
  induction l as [|y l IHl]; intros Hl Hs gl; cbn [setAll]; [eexists; reflexivity|].
  destruct (IH b y gl (Hs y (or_introl eq_refl)) (Hl y (or_introl eq_refl))) as [fl1 E1]. rewrite E1.
  apply IHl; intros; [apply Hl|eapply Hs]; try (right; eassumption); eassumption.
Qed.

(** The recursion depth that is used bounds the length of every path. *)
Lemma setUpdated_sub f b o fl fl' q : setUpdated bound (S f) b o fl = Some fl' -> In q (bound o) ->
  exists gl gl', setUpdated bound f b q gl = Some gl'.
Proof.
  rewrite setUpdated_S. generalize (put fl o b) as gl. generalize (bound o) as l.
  induction l as [|y l IHl]; intros gl E Hq; cbn [setAll] in *; [destruct Hq|].
  destruct (setUpdated bound f b y gl) as [fl1|] eqn:E1; [|discriminate].
  destruct Hq as [<-|Hq]; [eauto|eapply IHl; eauto].
Qed.

(** Success does not depend on the flags. *)
Lemma setUpdated_indep f : forall b o fl fl' gl, setUpdated bound f b o fl = Some fl' ->
  exists gl', setUpdated bound f b o gl = Some gl'.
Proof.
  induction f as [|f IH]; intros b o fl fl' gl E; [discriminate|]. rewrite setUpdated_S in *.
  revert E. generalize (put fl o b) as a, (put gl o b) as c. generalize (bound o) as l.
  induction l as [|y l IHl]; intros a c E; cbn [setAll] in *; [eauto|].
  destruct (setUpdated bound f b y a) as [a1|] eqn:E1; [|discriminate].
  destruct (IH _ _ _ _ c E1) as [c1 ->]. eapply IHl; eauto.
Qed.

Lemma setUpdated_reach f b o fl fl' p : setUpdated bound f b o fl = Some fl' -> bpath bound o p ->
  exists f' gl gl', f' <= f /\ setUpdated bound f' b p gl = Some gl' /\ (p <> o -> f' < f).
Proof.
  intros E H. revert E. induction H as [|p q H IH Hin]; intros E.
  - exists f, fl, fl'; split; [lia|split; [exact E|congruence]].
  - destruct (IH E) as [f1 [gl [gl' [Hle [E1 _]]]]].
    destruct f1 as [|f1]; [discriminate|].
    destruct (setUpdated_sub _ _ _ _ _ q E1 Hin) as [hl [hl' E2]].
    exists f1, hl, hl'; split; [lia|split; [exact E2|lia]].
Qed.

Lemma setUpdated_cycle_aux f : forall b p q fl fl', In q (bound p) -> bpath bound q p ->
  setUpdated bound f b p fl = Some fl' -> False.
Proof.
  induction f as [f IH] using lt_wf_ind; intros b p q fl fl' Hin Hp E.
  destruct f as [|f]; [discriminate|].
  destruct (setUpdated_sub _ _ _ _ _ q E Hin) as [gl [gl' E1]].
  destruct (setUpdated_reach f b q gl gl' p E1 Hp) as [f2 [hl [hl' [Hle [E2 _]]]]].
  apply (IH f2 ltac:(lia) b p q hl hl' Hin Hp E2).
Qed.

Lemma setUpdated_cycle f b o fl : cyclic bound o -> setUpdated bound f b o fl = None.
Proof.
  intros [p [q [Ho [Hin Hp]]]]. destruct (setUpdated bound f b o fl) as [fl'|] eqn:E; [|reflexivity].
  destruct (setUpdated_reach f b o fl fl' p E Ho) as [f2 [hl [hl' [Hle [E2 _]]]]].
  exfalso; exact (setUpdated_cycle_aux f2 b p q hl hl' Hin Hp E2).
Qed.

(** On a finite graph: completion is equivalent to the absence of cycles. *)
Inductive walk : nat -> nat -> list nat -> Prop :=
| W_nil o : walk o o []
| W_cons o y x l : In y (bound o) -> walk y x l -> walk o x (y :: l).

Lemma walk_bpath o x l : walk o x l -> bpath bound o x.
Proof. induction 1; [constructor|eapply bpath_cons; eassumption]. Qed.

Lemma setUpdated_fails_walk f : forall b o fl, setUpdated bound f b o fl = None ->
  exists x l, walk o x l /\ List.length l = f.
Proof.
  induction f as [|f IH]; intros b o fl E; [exists o, []; split; [constructor|reflexivity]|].
  rewrite setUpdated_S in E.
  assert (G : forall l gl, setAll (setUpdated bound f b) l gl = None ->
            exists y hl, In y l /\ setUpdated bound f b y hl = None).
  { clear. induction l as [|y l IHl]; intros gl E; cbn [setAll] in E; [discriminate|].
    destruct (setUpdated bound f b y gl) as [g1|] eqn:E1.
    - destruct (IHl _ E) as [z [hl [Hz Hn]]]; exists z, hl; split; [right; exact Hz|exact Hn].
    - exists y, gl; split; [left; reflexivity|exact E1]. }
  destruct (G _ _ E) as [y [hl [Hy Hn]]]. destruct (IH _ _ _ Hn) as [x [l [Hw Hl]]].
  exists x, (y :: l); split; [econstructor; eassumption|simpl; congruence].
Qed.

Lemma walk_split o x l y : walk o x l -> In y l -> exists l1 l2, l = l1 ++ y :: l2 /\ walk o y (l1 ++ [y]) /\ walk y x l2.
Proof.
  induction 1 as [o|o z x l Hz Hw IH]; intros Hy; [destruct Hy|]. destruct Hy as [->|Hy].
  - exists [], l; split; [reflexivity|split; [econstructor; [exact Hz|constructor]|exact Hw]].
  - destruct (IH Hy) as [l1 [l2 [-> [H1 H2]]]].
    exists (z :: l1), l2; split; [reflexivity|split; [econstructor; eassumption|exact H2]].
Qed.

Lemma walk_incl o x l : walk o x l -> forall y, In y l -> bpath bound o y.
Proof. intros H y Hy. destruct (walk_split _ _ _ _ H Hy) as [l1 [l2 [_ [H1 _]]]]. exact (walk_bpath _ _ _ H1). Qed.

Lemma walk_dup o x l : walk o x l -> ~ NoDup l -> cyclic bound o.
Proof.
  induction 1 as [o|o z x l Hz Hw IH]; intros Hd; [destruct Hd; constructor|].
  destruct (in_dec Nat.eq_dec z l) as [Hin|Hnin].
  - destruct (walk_split _ _ _ _ Hw Hin) as [l1 [l2 [_ [H1 _]]]].
    inversion H1 as [|? y ? ? Hy Hw' Ea Eb Ec]; subst; [destruct l1; discriminate|].
    exists z, y; split; [eapply bpath_cons; [exact Hz|constructor]|split; [exact Hy|exact (walk_bpath _ _ _ Hw')]].
  - destruct IH as [p [q [H1 [H2 H3]]]].
    + intros Hn; apply Hd; constructor; assumption.
    + exists p, q; split; [eapply bpath_cons; eassumption|auto].
Qed.

Lemma setUpdated_finite (nodes : list nat) f b o fl :
  (forall x, bpath bound o x -> In x nodes) -> List.length nodes < f -> ~ cyclic bound o ->
  exists fl', setUpdated bound f b o fl = Some fl'.
Proof.
  intros Hn Hf Hc. destruct (setUpdated bound f b o fl) as [fl'|] eqn:E; [eauto|]. exfalso.
  destruct (setUpdated_fails_walk _ _ _ _ E) as [x [l [Hw Hl]]].
  apply Hc, (walk_dup o x l Hw). intros Hnd.
  assert (Hi : incl l nodes) by (intros y Hy; apply Hn; exact (walk_incl _ _ _ Hw y Hy)).
  pose proof (NoDup_incl_length Hnd Hi). lia.
Qed.
End Flags.

(** setAttr *)
Section SetAttr.
Context {V : Type} (veq : V -> V -> bool) (veq_spec : forall a b, veq a b = true <-> a = b).

Lemma setAttr_exact fuel s o attr v s' : setAttr veq fuel s o attr v = Some s' ->
  p_val s' o attr = v
  /\ (forall x a, (x, a) <> (o, attr) -> p_val s' x a = p_val s x a)
  /\ (v = p_val s o attr -> s' = s)
  /\ (v <> p_val s o attr ->
        (forall x, bpath (p_bound s) o x -> p_flag s' x = true)
        /\ (forall x, ~ bpath (p_bound s) o x -> p_flag s' x = p_flag s x)
        /\ p_bound s' = p_bound s).
Proof.
  unfold setAttr. destruct (veq v (p_val s o attr)) eqn:Ev.
  - intros E; injection E as <-. apply veq_spec in Ev. subst v.
    split; [reflexivity|split; [reflexivity|split; [reflexivity|congruence]]].
  - assert (Hne : v <> p_val s o attr) by (intros H; apply veq_spec in H; congruence).
    destruct (setUpdated (p_bound s) fuel true o (p_flag s)) as [fl|] eqn:E; [|discriminate].
    intros E'; injection E' as <-. simpl. rewrite Nat.eqb_refl, String.eqb_refl.
    split; [reflexivity|]. split; [|split; [congruence|]].
    + intros x a Hx. destruct (Nat.eqb_spec x o) as [->|]; [|reflexivity].
      destruct (String.eqb_spec a attr) as [->|]; [congruence|reflexivity].
    + intros _. destruct (setUpdated_exact _ _ _ _ _ _ E) as [A B]. auto.
Qed.
End SetAttr.

(** ** Deleting matrices *)
Section Del.
Context {M : Type}.
Variable g : graph.
Implicit Types s : dstate M.

Lemma excluded_In o s : excluded o s = true <-> In o (d_ex s).
Proof. apply existsb_In. Qed.
Lemma excluded_nIn o s : excluded o s = false <-> ~ In o (d_ex s).
Proof. apply existsb_nIn. Qed.

Definition done s y : Prop :=
  In y (d_ex s) /\ (g_kind g y = KSys -> d_cmp s y = None /\ forall t, In t (g_terms g y) -> In t (d_ex s)).

Definition closedAt s x : Prop :=
  (forall y, link g x y \/ term_of g x y -> done s y) /\ (g_kind g x = KSim -> d_ini s x = None).

(** What one piece of the traversal does; P is the object whose own body is
    still running. *)
Record piece (W : nat -> Prop) (P : nat -> Prop) s s' : Prop := {
  pc_incl : incl (d_ex s) (d_ex s');
  pc_closed : forall x, In x (d_ex s') -> ~ In x (d_ex s) -> ~ P x -> closedAt s' x;
  pc_vis : forall x, In x (d_ex s') -> ~ In x (d_ex s) -> W x;
  pc_new : forall x, In x (d_ex s') -> ~ In x (d_ex s) -> d_mat s' x = None /\ d_hc s' x = None;
  pc_old : forall x, In x (d_ex s) \/ ~ In x (d_ex s') -> d_mat s' x = d_mat s x /\ d_hc s' x = d_hc s x;
  pc_ini : forall x, d_ini s' x = d_ini s x \/
             (d_ini s' x = None /\ g_kind g x = KSim /\ In x (d_ex s') /\ (~ In x (d_ex s) \/ P x));
  pc_cmp : forall x, d_cmp s' x = d_cmp s x \/ (d_cmp s' x = None /\ g_kind g x = KSys /\ W x)
}.

Lemma done_mono W P s s' y : piece W P s s' -> done s y -> done s' y.
Proof.
  intros H [H1 H2]. split; [apply (pc_incl _ _ _ _ H), H1|]. intros K. destruct (H2 K) as [H3 H4]. split.
  - destruct (pc_cmp _ _ _ _ H y) as [->|[-> _]]; [exact H3|reflexivity].
  - intros t Ht; apply (pc_incl _ _ _ _ H), H4, Ht.
Qed.

Lemma closed_mono W P s s' x : piece W P s s' -> closedAt s x -> closedAt s' x.
Proof.
  intros H [H1 H2]. split.
  - intros y Hy; apply (done_mono W P s s' y H), H1, Hy.
  - intros K. destruct (pc_ini _ _ _ _ H x) as [->|[-> _]]; [apply H2, K|reflexivity].
Qed.

Lemma piece_refl W P s : piece W P s s.
Proof. constructor; try tauto; auto. intros x Hx; exact Hx. Qed.

Lemma piece_trans (W P : nat -> Prop) s1 s2 s3 : (forall x, P x -> In x (d_ex s1) \/ In x (d_ex s2) \/ ~ In x (d_ex s3)) ->
  piece W P s1 s2 -> piece W P s2 s3 -> piece W P s1 s3.
Proof.
  intros HP A B. constructor.
  - intros x Hx; apply (pc_incl _ _ _ _ B), (pc_incl _ _ _ _ A), Hx.
  - intros x H3 H1 HPx. destruct (in_dec Nat.eq_dec x (d_ex s2)) as [H2|H2].
    + apply (closed_mono W P s2 s3 x B), (pc_closed _ _ _ _ A); assumption.
    + apply (pc_closed _ _ _ _ B); assumption.
  - intros x H3 H1. destruct (in_dec Nat.eq_dec x (d_ex s2)) as [H2|H2];
      [apply (pc_vis _ _ _ _ A)|apply (pc_vis _ _ _ _ B)]; assumption.
  - intros x H3 H1. destruct (in_dec Nat.eq_dec x (d_ex s2)) as [H2|H2].
    + destruct (pc_new _ _ _ _ A x H2 H1). destruct (pc_old _ _ _ _ B x (or_introl H2)).
      split; congruence.
    + apply (pc_new _ _ _ _ B); assumption.
  - intros x H. assert (H1 : In x (d_ex s1) \/ ~ In x (d_ex s2)).
    { destruct H as [H|H]; [left; exact H|right; intros C; apply H, (pc_incl _ _ _ _ B), C]. }
    assert (H2 : In x (d_ex s2) \/ ~ In x (d_ex s3)).
    { destruct H as [H|H]; [left; apply (pc_incl _ _ _ _ A), H|right; exact H]. }
    destruct (pc_old _ _ _ _ A x H1), (pc_old _ _ _ _ B x H2). split; congruence.
  - intros x. destruct (pc_ini _ _ _ _ B x) as [E|[E [K [H3 H2]]]].
    + destruct (pc_ini _ _ _ _ A x) as [E'|[E' [K [H3 H2]]]]; [left; congruence|right].
      split; [congruence|]. split; [exact K|split; [apply (pc_incl _ _ _ _ B), H3|exact H2]].
    + right; split; [exact E|split; [exact K|split; [exact H3|]]].
      destruct H2 as [H2|H2]; [left; intros C; apply H2, (pc_incl _ _ _ _ A), C|right; exact H2].
  - intros x. destruct (pc_cmp _ _ _ _ B x) as [E|E]; [|right; exact E].
    destruct (pc_cmp _ _ _ _ A x) as [E'|[E' K]]; [left; congruence|right].
    split; [congruence|exact K].
Qed.

Lemma piece_weaken (W W' P P' : nat -> Prop) s s' : (forall x, W x -> W' x) -> (forall x, P x -> P' x) ->
  piece W P s s' -> piece W' P' s s'.
Proof.
  intros HW HP A. constructor; try apply A.
  - intros x H1 H2 H3; apply (pc_closed _ _ _ _ A); auto.
  - intros x H1 H2; apply HW, (pc_vis _ _ _ _ A); auto.
  - intros x; destruct (pc_ini _ _ _ _ A x) as [E|[E [K [H3 [H2|H2]]]]]; auto 10.
  - intros x; destruct (pc_cmp _ _ _ _ A x) as [E|[E [K H]]]; auto 10.
Qed.

Lemma piece_any (W P : nat -> Prop) s s' : piece W (fun _ => False) s s' -> piece W P s s'.
Proof. apply piece_weaken; tauto. Qed.

Lemma visited_antitone E E' o x : incl E E' -> visited g E' o x -> visited g E o x.
Proof.
  intros Hi H; induction H as [|p q H IH Hn Hl|p q H IH Hl]; [constructor| |].
  - apply V_link with p; auto.
  - apply V_term with p; auto.
Qed.

Lemma visited_trans E o p x : visited g E o p -> visited g E p x -> visited g E o x.
Proof.
  intros H1 H2; induction H2 as [|p' q H IH Hn Hl|p' q H IH Hl]; [exact H1| |].
  - apply V_link with p'; auto.
  - apply V_term with p'; auto.
Qed.

Definition call_ok (call : nat -> dstate M -> option (dstate M)) : Prop :=
  forall o s s', call o s = Some s' -> piece (visited g (d_ex s) o) (fun _ => False) s s' /\ done s' o.

Lemma visit_ok call (W : nat -> Prop) : call_ok call -> forall l s s',
  visit call l s = Some s' -> (forall y x, In y l -> visited g (d_ex s) y x -> W x) ->
  piece W (fun _ => False) s s' /\ forall y, In y l -> done s' y.
Proof.
  intros Hc. induction l as [|y l IH]; intros s s' E HW; cbn [visit obind] in E.
  - injection E as <-. split; [apply piece_refl|intros y []].
  - destruct (call y s) as [s1|] eqn:E1; cbn [obind] in E; [|discriminate].
    destruct (Hc _ _ _ E1) as [A1 A2].
    destruct (IH s1 s' E) as [B1 B2].
    { intros z x Hz Hx. apply (HW z x (or_intror Hz)).
      apply (visited_antitone _ _ _ _ (pc_incl _ _ _ _ A1) Hx). }
    split.
    + apply piece_trans with s1; [tauto| |exact B1].
      eapply piece_weaken; [|intros x H; exact H|exact A1].
      intros x Hx; apply (HW y x (or_introl eq_refl) Hx).
    + intros z [<-|Hz]; [|apply B2, Hz]. exact (done_mono _ _ _ _ _ B1 A2).
Qed.

(** the body of paramBoundBase.delMatrices for an object not excluded *)
Lemma clear_own_piece o s (W : nat -> Prop) : W o -> ~ In o (d_ex s) ->
  piece W (fun x => x = o) s (clear_own o s).
Proof.
  intros HW Ho. constructor; simpl.
  - intros x Hx; apply in_or_app; left; exact Hx.
  - intros x H1 H2 H3; apply in_app_or in H1; simpl in H1; destruct H1 as [H1|[H1|[]]]; [tauto|congruence].
  - intros x H1 H2; apply in_app_or in H1; simpl in H1; destruct H1 as [H1|[<-|[]]]; [tauto|exact HW].
  - intros x H1 H2; apply in_app_or in H1; simpl in H1; destruct H1 as [H1|[<-|[]]]; [tauto|].
    rewrite !put_same; auto.
  - intros x H. assert (x <> o).
    { intros ->. destruct H as [H|H]; [tauto|apply H, in_or_app; right; left; reflexivity]. }
    rewrite !put_other by assumption; auto.
  - auto.
  - auto.
Qed.

Lemma del_paramBound_ok call o s s' : call_ok call -> ~ In o (d_ex s) ->
  del_paramBound g call o s = Some s' ->
  piece (visited g (d_ex s) o) (fun x => x = o) s s' /\ In o (d_ex s')
  /\ (forall y, In y (g_bound g o) \/ In y (g_sub g o) -> done s' y).
Proof.
  intros Hc Ho E. unfold del_paramBound in E. apply excluded_nIn in Ho as Ho'. rewrite Ho' in E. clear Ho'.
  destruct (visit call (g_bound g o) (clear_own o s)) as [s1|] eqn:E1; cbn [obind] in E; [|discriminate].
  assert (Hcl : piece (visited g (d_ex s) o) (fun x => x = o) s (clear_own o s)).
  { apply clear_own_piece; [constructor|exact Ho]. }
  pose proof (pc_incl _ _ _ _ Hcl) as I0.
  destruct (visit_ok call (visited g (d_ex s) o) Hc _ _ _ E1) as [A1 A2].
  { intros y x Hy Hx. apply visited_trans with y.
    - apply V_link with o; [constructor|exact Ho|left; exact Hy].
    - exact (visited_antitone _ _ _ _ I0 Hx). }
  pose proof (pc_incl _ _ _ _ A1) as I1.
  destruct (visit_ok call (visited g (d_ex s) o) Hc _ _ _ E) as [B1 B2].
  { intros y x Hy Hx. apply visited_trans with y.
    - apply V_link with o; [constructor|exact Ho|right; left; exact Hy].
    - apply (visited_antitone _ (d_ex s1) _ _); [|exact Hx]. intros z Hz; apply I1, I0, Hz. }
  assert (Hin1 : In o (d_ex (clear_own o s))) by (simpl; apply in_or_app; right; left; reflexivity).
  assert (Hin2 : In o (d_ex s1)) by (apply I1, Hin1).
  split; [|split].
  - apply piece_trans with s1.
    + intros x ->; right; left; exact Hin2.
    + apply piece_trans with (clear_own o s).
      * intros x ->; right; left; exact Hin1.
      * exact Hcl.
      * apply piece_any, A1.
    + apply piece_any, B1.
  - apply (pc_incl _ _ _ _ B1), Hin2.
  - intros y [Hy|Hy]; [exact (done_mono _ _ _ _ _ B1 (A2 y Hy))|exact (B2 y Hy)].
Qed.

Lemma piece_close (W : nat -> Prop) o s s' : piece W (fun x => x = o) s s' -> closedAt s' o -> ~ In o (d_ex s) ->
  piece W (fun _ => False) s s'.
Proof.
  intros A Hc Ho. constructor; try apply A.
  - intros x H1 H2 _. destruct (Nat.eq_dec x o) as [->|Hne]; [exact Hc|].
    apply (pc_closed _ _ _ _ A); assumption.
  - intros x. destruct (pc_ini _ _ _ _ A x) as [E|[E [K [H3 H2]]]]; [left; exact E|right].
    split; [exact E|split; [exact K|split; [exact H3|left]]]. destruct H2 as [H2| ->]; assumption.
Qed.

Lemma done_plain s o : In o (d_ex s) -> g_kind g o <> KSys -> done s o.
Proof. intros H1 H2; split; [exact H1|tauto]. Qed.

Lemma clear_ini_piece (W : nat -> Prop) o s : g_kind g o = KSim -> In o (d_ex s) ->
  piece W (fun x => x = o) s (clear_ini o s).
Proof.
  intros K Ho. constructor; simpl; try tauto.
  - intros x Hx; exact Hx.
  - intros x. destruct (Nat.eq_dec x o) as [->|Hne].
    + right; rewrite put_same; auto.
    + left; apply put_other, Hne.
Qed.

Lemma clear_cmp_piece (W P : nat -> Prop) o s : g_kind g o = KSys -> W o ->
  piece W P s (clear_cmp o s).
Proof.
  intros K Ho. constructor; simpl; try tauto.
  - intros x Hx; exact Hx.
  - intros x. destruct (Nat.eq_dec x o) as [->|Hne].
    + right; rewrite put_same; auto.
    + left; apply put_other, Hne.
Qed.

Lemma del_plain_ok call o s s' : call_ok call -> g_kind g o = KPlain ->
  del_paramBound g call o s = Some s' ->
  piece (visited g (d_ex s) o) (fun _ => False) s s' /\ done s' o.
Proof.
  intros Hc K E. destruct (in_dec Nat.eq_dec o (d_ex s)) as [Ho|Ho].
  - unfold del_paramBound in E. apply excluded_In in Ho as Ho'. rewrite Ho' in E. injection E as <-.
    split; [apply piece_refl|apply done_plain; congruence].
  - destruct (del_paramBound_ok _ _ _ _ Hc Ho E) as [A [Hin B]]. split.
    + apply piece_close with o; [exact A| |exact Ho]. split; [|congruence].
      intros y [H|[K' _]]; [|congruence].
      destruct H as [H|[H|[[K' _]|[[K'|K'] _]]]]; try congruence; apply B; tauto.
    + apply done_plain; congruence.
Qed.

Lemma del_time_ok call o s s' : call_ok call -> g_kind g o = KSim ->
  del_time g call o s = Some s' ->
  piece (visited g (d_ex s) o) (fun _ => False) s s' /\ done s' o.
Proof.
  intros Hc K E. unfold del_time in E. destruct (in_dec Nat.eq_dec o (d_ex s)) as [Ho|Ho].
  - apply excluded_In in Ho as Ho'. rewrite Ho' in E. injection E as <-.
    split; [apply piece_refl|apply done_plain; congruence].
  - apply excluded_nIn in Ho as Ho'. rewrite Ho' in E. unfold del_state in E. rewrite Ho' in E.
    destruct (del_paramBound g call o s) as [s1|] eqn:E1; cbn [obind] in E; [|discriminate].
    destruct (del_paramBound_ok _ _ _ _ Hc Ho E1) as [A [Hin B]].
    assert (C : piece (visited g (d_ex s) o) (fun x => x = o) s (clear_ini o s1)).
    { apply piece_trans with s1; [intros x ->; tauto|exact A|apply clear_ini_piece; assumption]. }
    assert (Hini : d_ini (clear_ini o s1) o = None) by (simpl; apply put_same).
    assert (Bd : forall y, In y (g_bound g o) \/ In y (g_sub g o) -> done (clear_ini o s1) y).
    { intros y Hy; exact (B y Hy). }
    assert (Hin' : In o (d_ex (clear_ini o s1))) by exact Hin.
    destruct (g_tb g o) as [b|] eqn:Eb.
    + destruct (Hc _ _ _ E) as [D1 D2].
      assert (D : piece (visited g (d_ex s) o) (fun x => x = o) s s').
      { apply piece_trans with (clear_ini o s1); [intros x ->; right; left; exact Hin|exact C|].
        apply piece_any. eapply piece_weaken; [|intros x Hf; exact Hf|exact D1]. intros x Hx. apply visited_trans with b.
        - apply V_link with o; [constructor|exact Ho|right; right; left; auto].
        - exact (visited_antitone _ _ _ _ (pc_incl _ _ _ _ C) Hx). }
      assert (Hino : In o (d_ex s')) by (apply (pc_incl _ _ _ _ D1), Hin').
      split; [|apply done_plain; [exact Hino|congruence]].
      apply piece_close with o; [exact D| |exact Ho]. split.
      * intros y [H|[K' _]]; [|congruence].
        destruct H as [H|[H|[[_ H]|[[K'|K'] _]]]]; try congruence.
        -- apply (done_mono _ _ _ _ _ D1), Bd; auto.
        -- apply (done_mono _ _ _ _ _ D1), Bd; auto.
      * intros _. destruct (pc_ini _ _ _ _ D1 o) as [->|[-> _]]; [exact Hini|reflexivity].
    + injection E as <-. split; [|apply done_plain; [exact Hin|congruence]].
      apply piece_close with o; [exact C| |exact Ho]. split; [|intros _; exact Hini].
      intros y [H|[K' _]]; [|congruence].
      destruct H as [H|[H|[[_ H]|[[K'|K'] _]]]]; try congruence; apply Bd; auto.
Qed.

(** QSimComp.delMatrices, also as the first half of QuantumSystem.delMatrices. *)
Lemma del_comp_ok call o s s' : call_ok call -> g_kind g o = KComp \/ g_kind g o = KSys ->
  ~ In o (d_ex s) -> del_comp g call o s = Some s' ->
  piece (visited g (d_ex s) o) (fun x => x = o) s s' /\ In o (d_ex s')
  /\ (forall y, link g o y -> done s' y).
Proof.
  intros Hc K Ho E. unfold del_comp in E. apply excluded_nIn in Ho as Ho'. rewrite Ho' in E.
  destruct (del_paramBound g call o s) as [s1|] eqn:E1; cbn [obind] in E; [|discriminate].
  destruct (del_paramBound_ok _ _ _ _ Hc Ho E1) as [A [Hin B]].
  destruct (Hc _ _ _ E) as [D1 D2]. split; [|split].
  - apply piece_trans with s1; [intros x ->; tauto|exact A|].
    apply piece_any. eapply piece_weaken; [|intros x Hf; exact Hf|exact D1]. intros x Hx. apply visited_trans with (g_sim g o).
    + apply V_link with o; [constructor|exact Ho|right; right; right; auto].
    + exact (visited_antitone _ _ _ _ (pc_incl _ _ _ _ A) Hx).
  - apply (pc_incl _ _ _ _ D1), Hin.
  - intros y [H|[H|[[K' _]|[_ ->]]]].
    + apply (done_mono _ _ _ _ _ D1), B; auto.
    + apply (done_mono _ _ _ _ _ D1), B; auto.
    + destruct K; congruence.
    + exact D2.
Qed.

Lemma delMatrices_ok f : call_ok (delMatrices g f).
Proof.
  induction f as [|f IH]; intros o s s' E; [discriminate|]. cbn [delMatrices] in E.
  destruct (g_kind g o) eqn:K.
  - exact (del_plain_ok _ _ _ _ IH K E).
  - exact (del_time_ok _ _ _ _ IH K E).
  - destruct (in_dec Nat.eq_dec o (d_ex s)) as [Ho|Ho].
    + unfold del_comp in E. apply excluded_In in Ho as Ho'. rewrite Ho' in E. injection E as <-.
      split; [apply piece_refl|apply done_plain; congruence].
    + destruct (del_comp_ok _ _ _ _ IH (or_introl K) Ho E) as [A [Hin B]].
      split; [|apply done_plain; congruence]. apply piece_close with o; [exact A| |exact Ho].
      split; [|congruence]. intros y [H|[K' _]]; [apply B, H|congruence].
  - unfold del_sys in E. destruct (del_comp g (delMatrices g f) o s) as [s1|] eqn:E1; cbn [obind] in E; [|discriminate].
    destruct (visit (delMatrices g f) (g_terms g o) s1) as [s2|] eqn:E2; cbn [obind] in E; [|discriminate].
    injection E as <-.
    assert (Pre : incl (d_ex s) (d_ex s1) /\ In o (d_ex s1)
       /\ piece (visited g (d_ex s) o) (fun x => x = o) s s1
       /\ (~ In o (d_ex s) -> forall y, link g o y -> done s1 y)
       /\ (In o (d_ex s) -> s1 = s)).
    { destruct (in_dec Nat.eq_dec o (d_ex s)) as [Ho|Ho].
      - unfold del_comp in E1. apply excluded_In in Ho as Ho'. rewrite Ho' in E1. injection E1 as <-.
        split; [intros x Hx; exact Hx|split; [exact Ho|split; [apply piece_refl|tauto]]].
      - destruct (del_comp_ok _ _ _ _ IH (or_intror K) Ho E1) as [A [Hin B]].
        split; [apply A|split; [exact Hin|split; [exact A|split; [auto|tauto]]]]. }
    destruct Pre as [I1 [Hin [A [B Hsame]]]].
    destruct (visit_ok _ (visited g (d_ex s) o) IH _ _ _ E2) as [C1 C2].
    { intros y x Hy Hx. apply visited_trans with y.
      - apply V_term with o; [constructor|split; assumption].
      - exact (visited_antitone _ _ _ _ I1 Hx). }
    assert (D : piece (visited g (d_ex s) o) (fun x => x = o) s (clear_cmp o s2)).
    { apply piece_trans with s2.
      - intros x ->; right; left; apply (pc_incl _ _ _ _ C1), Hin.
      - apply piece_trans with s1; [intros x ->; tauto|exact A|].
        apply piece_any, C1.
      - apply clear_cmp_piece; [exact K|constructor]. }
    assert (Z : piece (fun x => x = o) (fun _ => False) s2 (clear_cmp o s2)).
    { apply clear_cmp_piece; [exact K|reflexivity]. }
    assert (Dn : done (clear_cmp o s2) o).
    { split; [apply (pc_incl _ _ _ _ C1), Hin|]. intros _. split; [simpl; apply put_same|].
      intros t Ht. exact (proj1 (C2 t Ht)). }
    split; [|exact Dn].
    destruct (in_dec Nat.eq_dec o (d_ex s)) as [Ho|Ho].
    + specialize (Hsame Ho); subst s1. apply piece_trans with s2; [tauto|exact C1|].
      apply clear_cmp_piece; [exact K|constructor].
    + apply piece_close with o; [exact D| |exact Ho]. split; [|congruence].
      intros y [H|[_ H]].
      * apply (done_mono _ _ _ _ _ Z), (done_mono _ _ _ _ _ C1), (B Ho), H.
      * apply (done_mono _ _ _ _ _ Z), C2, H.
Qed.

(** Completeness: everything visited is done. *)
Lemma visited_done o s s' : (forall p q, term_of g p q -> g_kind g q = KPlain) ->
  piece (visited g (d_ex s) o) (fun _ => False) s s' -> done s' o ->
  forall x, visited g (d_ex s) o x -> done s' x.
Proof.
  intros HT A D x H. induction H as [|p q H IH Hn Hl|p q H IH Hl]; [exact D| |].
  - exact (proj1 (pc_closed _ _ _ _ A p (proj1 IH) Hn (fun z => z)) q (or_introl Hl)).
  - apply done_plain; [|rewrite (HT p q Hl); discriminate].
    destruct Hl as [K Hl]. destruct IH as [_ IH]. exact (proj2 (IH K) q Hl).
Qed.

(** ** Termination *)
Definition free (nodes : list nat) s : nat :=
  List.length (filter (fun n => negb (existsb (Nat.eqb n) (d_ex s))) nodes).

Lemma filter_length_le {T} (p q : T -> bool) l : (forall x, In x l -> p x = true -> q x = true) ->
  List.length (filter p l) <= List.length (filter q l).
Proof.
  induction l as [|x l IH]; intros H; simpl; [lia|].
  specialize (IH (fun y Hy => H y (or_intror Hy))).
  destruct (p x) eqn:E; [rewrite (H x (or_introl eq_refl) E); simpl; lia|].
  destruct (q x); simpl; lia.
Qed.

Lemma filter_length_lt {T} (p q : T -> bool) l x0 : (forall x, In x l -> p x = true -> q x = true) ->
  In x0 l -> p x0 = false -> q x0 = true -> List.length (filter p l) < List.length (filter q l).
Proof.
  induction l as [|x l IH]; intros H Hin Hp Hq; simpl; [destruct Hin|].
  assert (H' : forall y, In y l -> p y = true -> q y = true) by (intros y Hy; apply H; right; exact Hy).
  pose proof (filter_length_le p q l H').
  destruct Hin as [->|Hin].
  - rewrite Hp, Hq; simpl; lia.
  - specialize (IH H' Hin Hp Hq). destruct (p x) eqn:E; [rewrite (H x (or_introl eq_refl) E); simpl; lia|].
    destruct (q x); simpl; lia.
Qed.

Lemma free_mono nodes s s' : incl (d_ex s) (d_ex s') -> free nodes s' <= free nodes s.
Proof.
  intros Hi. apply filter_length_le. intros x _ H. apply negb_true_iff in H. apply negb_true_iff.
  apply existsb_nIn in H. apply existsb_nIn. intros C; apply H, Hi, C.
Qed.

Lemma free_clear nodes o s : In o nodes -> ~ In o (d_ex s) -> free nodes (clear_own o s) < free nodes s.
Proof.
  intros H1 H2. apply filter_length_lt with o; [|exact H1| |].
  - intros x _ H. apply negb_true_iff in H. apply negb_true_iff.
    apply existsb_nIn in H. apply existsb_nIn. intros C; apply H; simpl; apply in_or_app; auto.
  - apply negb_false_iff, existsb_In; simpl; apply in_or_app; right; left; reflexivity.
  - apply negb_true_iff, existsb_nIn, H2.
Qed.

Definition need nodes o s : nat :=
  2 * free nodes s + match g_kind g o with KSys => 2 | _ => 1 end.

Lemma visit_total nodes f (call := delMatrices g f) l : forall s,
  (forall o s, In o nodes -> need nodes o s <= f -> exists s', call o s = Some s') ->
  (forall y, In y l -> In y nodes /\ need nodes y s <= f) ->
  exists s', visit call l s = Some s'.
Proof.
  induction l as [|y l IH]; intros s Hc Hl; [eexists; reflexivity|]. cbn [visit].
  destruct (Hl y (or_introl eq_refl)) as [H1 H2]. destruct (Hc y s H1 H2) as [s1 E]. rewrite E. cbn [obind].
  apply IH; [exact Hc|]. intros z Hz. destruct (Hl z (or_intror Hz)) as [H3 H4]. split; [exact H3|].
  destruct (delMatrices_ok f _ _ _ E) as [A _].
  pose proof (free_mono nodes s s1 (pc_incl _ _ _ _ A)). unfold need in *; destruct (g_kind g z); lia.
Qed.

Lemma delMatrices_total nodes : closed_graph g nodes -> forall f o s, In o nodes -> need nodes o s <= f ->
  exists s', delMatrices g f o s = Some s'.
Proof.
  intros [Hcl HT]. induction f as [|f IH]; intros o s Ho Hf; [unfold need in Hf; destruct (g_kind g o); lia|].
  assert (Hpb : ~ In o (d_ex s) -> exists s1, del_paramBound g (delMatrices g f) o s = Some s1
                 /\ free nodes s1 < free nodes s).
  { intros Hn. unfold del_paramBound. apply excluded_nIn in Hn as Hn'. rewrite Hn'.
    pose proof (free_clear nodes o s Ho Hn) as Hlt.
    destruct (visit_total nodes f (g_bound g o) (clear_own o s) IH) as [s1 E1].
    { intros y Hy. split; [apply (Hcl o); [exact Ho|left; left; exact Hy]|].
      unfold need in *; destruct (g_kind g o), (g_kind g y); lia. }
    rewrite E1; cbn [obind].
    destruct (visit_ok _ (fun _ => True) (delMatrices_ok f) _ _ _ E1) as [A1 _]; [tauto|].
    pose proof (free_mono nodes _ _ (pc_incl _ _ _ _ A1)) as Hm.
    destruct (visit_total nodes f (g_sub g o) s1 IH) as [s2 E2].
    { intros y Hy. split; [apply (Hcl o); [exact Ho|left; right; left; exact Hy]|].
      unfold need in *; destruct (g_kind g o), (g_kind g y); lia. }
    exists s2; split; [exact E2|].
    destruct (visit_ok _ (fun _ => True) (delMatrices_ok f) _ _ _ E2) as [A2 _]; [tauto|].
    pose proof (free_mono nodes _ _ (pc_incl _ _ _ _ A2)). lia. }
  assert (Hcomp : g_kind g o = KComp \/ g_kind g o = KSys ->
     exists s1, del_comp g (delMatrices g f) o s = Some s1 /\ incl (d_ex s) (d_ex s1) 
       /\ (~ In o (d_ex s) -> free nodes s1 < free nodes s)).
  { intros K. unfold del_comp. destruct (excluded o s) eqn:Ex.
    - exists s; split; [reflexivity|split; [intros x Hx; exact Hx|]]. apply excluded_In in Ex; tauto.
    - apply excluded_nIn in Ex. destruct (Hpb Ex) as [s1 [E1 Hlt]]. rewrite E1; cbn [obind].
      destruct (IH (g_sim g o) s1) as [s2 E2].
      { apply (Hcl o); [exact Ho|left; right; right; right; auto]. }
      { unfold need in *; destruct K as [K|K]; rewrite K in *; destruct (g_kind g (g_sim g o)); lia. }
      exists s2; split; [exact E2|].
      destruct (delMatrices_ok f _ _ _ E2) as [A2 _].
      pose proof (free_mono nodes _ _ (pc_incl _ _ _ _ A2)).
      split; [|intros _; lia]. intros x Hx. apply (pc_incl _ _ _ _ A2).
      destruct (del_paramBound_ok _ _ _ _ (delMatrices_ok f) Ex E1) as [A1 _].
      apply (pc_incl _ _ _ _ A1), Hx. }
  cbn [delMatrices]. destruct (g_kind g o) eqn:K.
  - unfold del_paramBound at 1. destruct (excluded o s) eqn:Ex; [eexists; reflexivity|].
    apply excluded_nIn in Ex. destruct (Hpb Ex) as [s1 [E1 _]].
    unfold del_paramBound in E1. apply excluded_nIn in Ex as Ex'. rewrite Ex' in E1. eauto.
  - unfold del_time. destruct (excluded o s) eqn:Ex; [eexists; reflexivity|]. unfold del_state; rewrite Ex.
    apply excluded_nIn in Ex. destruct (Hpb Ex) as [s1 [E1 Hlt]]. rewrite E1; cbn [obind].
    destruct (g_tb g o) as [b|] eqn:Eb; [|eexists; reflexivity].
    apply IH; [apply (Hcl o); [exact Ho|left; right; right; left; auto]|].
    unfold need in *; rewrite K in *. change (free nodes (clear_ini o s1)) with (free nodes s1).
    destruct (g_kind g b); lia.
  - destruct (Hcomp (or_introl eq_refl)) as [s1 [E1 _]]. eauto.
  - destruct (Hcomp (or_intror eq_refl)) as [s1 [E1 [Hi Hlt]]]. unfold del_sys; rewrite E1; cbn [obind].
    destruct (visit_total nodes f (g_terms g o) s1 IH) as [s2 E2].
    { intros y Hy. assert (Ht : term_of g o y) by (split; assumption).
      split; [apply (Hcl o); [exact Ho|right; exact Ht]|].
      unfold need in *; rewrite K, (HT o y Ht) in *. pose proof (free_mono nodes _ _ Hi). lia. }
    rewrite E2; cbn [obind]. eexists; reflexivity.
Qed.

Lemma free_le nodes s : free nodes s <= List.length nodes.
Proof.
  unfold free. induction nodes as [|x l IH]; simpl; [lia|].
  destruct (negb _); simpl; lia.
Qed.

(** Which of two outcomes applies is decided by the exclusion lists. *)
Lemma delMatrices_exact nodes f o s : closed_graph g nodes -> In o nodes ->
  2 * List.length nodes + 2 <= f ->
  exists s', delMatrices g f o s = Some s'
    /\ (forall x, In x (d_ex s') <-> In x (d_ex s) \/ visited g (d_ex s) o x)
    /\ (forall x, visited g (d_ex s) o x -> ~ In x (d_ex s) ->
          d_mat s' x = None /\ d_hc s' x = None /\ (g_kind g x = KSim -> d_ini s' x = None))
    /\ (forall x, visited g (d_ex s) o x -> g_kind g x = KSys -> d_cmp s' x = None)
    /\ (forall x, In x (d_ex s) \/ ~ visited g (d_ex s) o x ->
          d_mat s' x = d_mat s x /\ d_hc s' x = d_hc s x /\ d_ini s' x = d_ini s x)
    /\ (forall x, ~ visited g (d_ex s) o x -> d_cmp s' x = d_cmp s x).
Proof.
  intros Hcl Ho Hf. destruct (delMatrices_total nodes Hcl f o s Ho) as [s' E].
  { pose proof (free_le nodes s). unfold need; destruct (g_kind g o); lia. }
  exists s'; split; [exact E|]. destruct (delMatrices_ok f _ _ _ E) as [A D].
  pose proof (visited_done o s s' (proj2 Hcl) A D) as Hv.
  assert (Hiff : forall x, In x (d_ex s') <-> In x (d_ex s) \/ visited g (d_ex s) o x).
  { intros x; split.
    - intros H. destruct (in_dec Nat.eq_dec x (d_ex s)) as [Hx|Hx]; [left; exact Hx|right].
      exact (pc_vis _ _ _ _ A x H Hx).
    - intros [H|H]; [apply (pc_incl _ _ _ _ A), H|exact (proj1 (Hv x H))]. }
  split; [exact Hiff|split; [|split; [|split]]].
  - intros x Hx Hn. assert (Hin : In x (d_ex s')) by (apply Hiff; right; exact Hx).
    destruct (pc_new _ _ _ _ A x Hin Hn) as [H1 H2]. split; [exact H1|split; [exact H2|]].
    intros K. exact (proj2 (pc_closed _ _ _ _ A x Hin Hn (fun z => z)) K).
  - intros x Hx K. exact (proj1 (proj2 (Hv x Hx) K)).
  - intros x H.
    assert (H' : In x (d_ex s) \/ ~ In x (d_ex s')).
    { destruct H as [H|H]; [left; exact H|]. destruct (in_dec Nat.eq_dec x (d_ex s)) as [Hx|Hx]; [left; exact Hx|right].
      rewrite Hiff; tauto. }
    destruct (pc_old _ _ _ _ A x H') as [H1 H2]. split; [exact H1|split; [exact H2|]].
    destruct (pc_ini _ _ _ _ A x) as [Ei|[_ [_ [H3 [H4|[]]]]]]; [exact Ei|tauto].
  - intros x Hx. destruct (pc_cmp _ _ _ _ A x) as [Ei|[_ [_ H]]]; [exact Ei|tauto].
Qed.

Lemma visited_nil o x : visited g [] o x <-> reachable g o x.
Proof.
  split.
  - induction 1 as [|p q H IH Hn Hl|p q H IH Hl]; [constructor| |]; eapply R_step; eauto.
  - induction 1 as [|p q H IH [Hl|Hl]]; [constructor|eapply V_link|eapply V_term]; eauto.
Qed.

Lemma kind_eq_case (k k' : okind) {T} (a b : T) :
  (match k, k' with
   | KPlain, KPlain | KSim, KSim | KComp, KComp | KSys, KSys => a
   | _, _ => b end) = a \/ k <> k'.
Proof. destruct k, k'; auto; right; discriminate. Qed.

(** A call without argument clears what is visited outside the accumulated list,
    and extends the list. *)
Lemma call_default_exact nodes f (dflt : okind -> list nat) o s : closed_graph g nodes -> In o nodes ->
  2 * List.length nodes + 2 <= f ->
  let E := dflt (g_kind g o) in
  exists dflt' s', call_default g f dflt o s = Some (dflt', s')
    /\ (forall x, visited g E o x -> ~ In x E -> d_mat s' x = None /\ d_hc s' x = None)
    /\ (forall x, In x E \/ ~ visited g E o x -> d_mat s' x = d_mat s x /\ d_hc s' x = d_hc s x)
    /\ (forall x, In x (dflt' (g_kind g o)) <-> In x E \/ visited g E o x)
    /\ (forall k, k <> g_kind g o -> dflt' k = dflt k).
Proof.
  intros Hcl Ho Hf E. unfold call_default.
  destruct (delMatrices_exact nodes f o
     (DState (d_mat s) (d_hc s) (d_ini s) (d_cmp s) (dflt (g_kind g o))) Hcl Ho Hf)
    as [s' [E1 [H1 [H2 [H3 [H4 H5]]]]]]; cbn [d_ex d_mat d_hc d_ini d_cmp] in *.
  rewrite E1. eexists _, s'; split; [reflexivity|].
  split; [|split; [|split]].
  - intros x Hx Hn; destruct (H2 x Hx Hn) as [A [B _]]; auto.
  - intros x Hx; destruct (H4 x Hx) as [A [B _]]; auto.
  - intros x. destruct (g_kind g o); apply H1.
  - intros k Hk. destruct (g_kind g o), k; try reflexivity; congruence.
Qed.

Lemma visited_within E o x : In o E -> (forall p q, term_of g p q -> In p E -> In q E) ->
  visited g E o x -> In x E.
Proof.
  intros Ho HT H. induction H as [|p q H IH Hn Hl|p q H IH Hl]; [exact Ho|tauto|].
  exact (HT p q Hl IH).
Qed.

(** Every call of delMatrices leaves a list that is closed under terms, if it
    was before. *)
Definition term_closed (E : list nat) : Prop := forall p q, term_of g p q -> In p E -> In q E.

Lemma visited_term_closed (E E' : list nat) o : term_closed E ->
  (forall x, In x E' <-> In x E \/ visited g E o x) -> term_closed E'.
Proof.
  intros HE H p q Ht Hp. apply H. apply H in Hp. destruct Hp as [Hp|Hp]; [left; exact (HE p q Ht Hp)|right].
  apply V_term with p; assumption.
Qed.

Lemma second_call_noop nodes f (dflt dflt1 : okind -> list nat) o s s1 s2 :
  closed_graph g nodes -> In o nodes -> 2 * List.length nodes + 2 <= f ->
  term_closed (dflt (g_kind g o)) ->
  call_default g f dflt o s = Some (dflt1, s1) ->
  exists dflt2 s3, call_default g f dflt1 o s2 = Some (dflt2, s3)
    /\ (forall x, d_mat s3 x = d_mat s2 x) /\ (forall x, d_hc s3 x = d_hc s2 x).
Proof.
  intros Hcl Ho Hf HT E.
  destruct (call_default_exact nodes f dflt o s Hcl Ho Hf) as [d1 [s1' [E1 [_ [_ [H3 _]]]]]].
  rewrite E in E1; injection E1 as <- <-.
  destruct (call_default_exact nodes f dflt1 o s2 Hcl Ho Hf) as [d2 [s3 [E2 [_ [H4 _]]]]].
  exists d2, s3; split; [exact E2|].
  assert (Ho1 : In o (dflt1 (g_kind g o))) by (apply H3; right; constructor).
  assert (HT1 : term_closed (dflt1 (g_kind g o))) by (apply (visited_term_closed _ _ o HT H3)).
  assert (HV : forall x, In x (dflt1 (g_kind g o)) \/ ~ visited g (dflt1 (g_kind g o)) o x).
  { intros x. destruct (in_dec Nat.eq_dec x (dflt1 (g_kind g o))) as [Hx|Hx]; [left; exact Hx|right].
    intros Hv; apply Hx, (visited_within _ o x Ho1 HT1 Hv). }
  split; intros x; apply (H4 x (HV x)).
Qed.
End Del.
