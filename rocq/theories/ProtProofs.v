From Verif Require Import Py ProtModel ProtSpec.

Lemma node_ind' (P : node -> Prop) : (forall o, P (Leaf o)) ->
  (forall o items, (forall k c, In (k, c) items -> P c) -> P (Prot o items)) -> forall n, P n.
Proof.
  intros HL HP. fix IH 1. intros [o|o items]; [apply HL|]. apply HP.
  induction items as [|[k c] r IHr]; [intros k c []|]. intros k' c' [E|H].
  - injection E as _ <-. apply IH.
  - exact (IHr k' c' H).
Qed.

Section P.
Variables M V : Type.
Variable mul : M -> M -> M.
Variable one : M.
Variable adj : M -> M.
Variable shape : M -> nat * nat.
Variable veq : V -> V -> bool.
Variable leafU : (nat -> V) -> nat -> M.
Variable dep : nat -> list nat.
Variable updates : nat -> list nat.
Variable u_first : nat -> nat.
Variable u_rest : nat -> list nat.
Variable u_val : nat -> V.
Variable fixed : nat -> bool.
Notation st := (st M V).
Notation setParam := (setParam M V veq dep).
Notation setAll := (setAll M V veq dep).
Notation setup := (setup M V veq dep u_first u_rest u_val).
Notation setback := (setback M V veq dep u_first u_rest u_val).
Notation setups := (setups M V veq dep u_first u_rest u_val).
Notation setbacks := (setbacks M V veq dep u_first u_rest u_val).
Notation updated := (updated M V).
Notation toFalse := (toFalse M V).
Notation readFlags := (readFlags M V).
Notation writeFlags := (writeFlags M V).
Notation setFlag := (setFlag M V).
Notation setMat := (setMat M V).
Notation readHc := (readHc M V adj shape).
Notation unitary_with := (unitary_with M V fixed).
Notation copy_with := (copy_with M V adj shape fixed).
Notation getUnitary := (getUnitary M V mul one adj shape veq leafU dep updates u_first u_rest u_val fixed).
Notation unitary := (unitary M V mul one adj shape veq leafU dep updates u_first u_rest u_val fixed).
Notation updatedEnv := (updatedEnv V updates u_first u_rest u_val).
Notation assign := (assign V).
Notation fresh := (fresh M V mul one adj leafU updates u_first u_rest u_val).
Notation ordered := (ordered M mul one).
Notation runCreate := (runCreate M V fixed).

Hypothesis veq_eq : forall x y, veq x y = true <-> x = y.

(** *** setting parameters *)
Definition mono (s s' : st) := forall x, flag s x = true -> flag s' x = true.
Lemma mono_refl s : mono s s. Proof. red; auto. Qed.
Lemma mono_trans a b c : mono a b -> mono b c -> mono a c. Proof. unfold mono; auto. Qed.

Lemma setParam_spec p v (s : st) :
  (forall q, env (setParam p v s) q = assign (env s) p v q) /\ mat (setParam p v s) = mat s /\
  mhc (setParam p v s) = mhc s /\ mem (setParam p v s) = mem s /\ mono s (setParam p v s).
Proof.
  unfold ProtModel.setParam, ProtSpec.assign. destruct (veq v (env s p)) eqn:E.
  - apply veq_eq in E. repeat split; auto using mono_refl. intros q. destruct (Nat.eqb_spec q p); subst; auto.
  - cbn. repeat split; auto. intros x Hx. cbn. destruct (existsb _ _); auto.
Qed.
Lemma setAll_spec ps v : forall s : st,
  (forall q, env (setAll ps v s) q = fold_left (fun e p => assign e p v) ps (env s) q) /\ mat (setAll ps v s) = mat s /\
  mhc (setAll ps v s) = mhc s /\ mem (setAll ps v s) = mem s /\ mono s (setAll ps v s).
Proof.
  unfold ProtModel.setAll. induction ps as [|p ps IH]; intros s; cbn; [repeat split; auto using mono_refl|].
  destruct (IH (setParam p v s)) as (A & B & C & D & E). destruct (setParam_spec p v s) as (A' & B' & C' & D' & E').
  rewrite B, C, D. repeat split; auto; [|eapply mono_trans; eauto].
  intros q. rewrite A. clear -A'.
  assert (G : forall l e e', (forall q, e q = e' q) -> forall q, fold_left (fun e p => assign e p v) l e q = fold_left (fun e p => assign e p v) l e' q).
  { induction l as [|x l IHl]; cbn; auto. intros e e' H q0. apply IHl. intros. unfold ProtSpec.assign. destruct (_ =? _); auto. }
  now apply G.
Qed.

(** Agreement of environments on a set of parameters is kept by updates. *)
Lemma updatedEnv_agree (S : nat -> Prop) o (e e' : nat -> V) :
  (forall p, S p -> e p = e' p) -> forall p, S p -> updatedEnv e o p = updatedEnv e' o p.
Proof.
  unfold ProtSpec.updatedEnv. generalize (updates o). intros us. revert e e'.
  induction us as [|u us IH]; [auto|]. intros e e' H.
  change (fold_left ?f (u :: us) ?a) with (fold_left f us (f a u)). apply IH.
  generalize (u_first u :: u_rest u). intros l. revert e e' H.
  induction l as [|x l IHl]; intros e e' H; cbn [fold_left]; [exact H|]. apply IHl. intros p Hp. unfold ProtSpec.assign.
  destruct (_ =? _); auto.
Qed.
Corollary updatedEnv_ext o (e e' : nat -> V) : (forall p, e p = e' p) -> forall p, updatedEnv e o p = updatedEnv e' o p.
Proof. intros H p. apply (updatedEnv_agree (fun _ => True)); auto. Qed.

Hypothesis simple : simple_updates updates u_first u_rest.

Lemma setup_spec u (s : st) :
  (forall q, env (setup u s) q = assign (env s) (u_first u) (u_val u) q) /\ mat (setup u s) = mat s /\
  mhc (setup u s) = mhc s /\ (forall v, mem (setup u s) v = if Nat.eqb v u then env s (u_first u) else mem s v) /\ mono s (setup u s).
Proof.
  unfold ProtModel.setup. rewrite (proj1 simple).
  match goal with |- context [setAll ?l ?v ?x] => destruct (setAll_spec l v x) as (A & B & C & D & E) end.
  rewrite B, C, D. cbn in *. repeat split; auto.
Qed.
Lemma setups_spec us : NoDup (map u_first us) -> forall s : st,
  let s' := setups us s in
  (forall q, env s' q = fold_left (fun e u => fold_left (fun e p => assign e p (u_val u)) (u_first u :: u_rest u) e) us (env s) q) /\
  (forall q, ~ In q (map u_first us) -> env s' q = env s q) /\
  (forall u, In u us -> env s' (u_first u) = u_val u /\ mem s' u = env s (u_first u)) /\
  mat s' = mat s /\ mhc s' = mhc s /\ (forall v, ~ In v us -> mem s' v = mem s v) /\ mono s s'.
Proof.
  unfold ProtModel.setups. induction us as [|u us IH]; intros ND s; cbn [fold_left map].
  - cbn. repeat split; auto using mono_refl; contradiction.
  - inversion ND as [|? ? Hn Hr]; subst.
    destruct (setup_spec u s) as (A & B & C & D & E).
    destruct (IH Hr (setup u s)) as (A' & N' & U' & B' & C' & D' & E'). cbn zeta in *. clear IH.
    rewrite B', C'. repeat split; auto.
    + intros q. rewrite A'. rewrite (proj1 simple u). cbn [fold_left].
      assert (G : forall l (e e' : nat -> V), (forall q, e q = e' q) -> forall q,
        fold_left (fun e u => fold_left (fun e p => assign e p (u_val u)) (u_first u :: u_rest u) e) l e q =
        fold_left (fun e u => fold_left (fun e p => assign e p (u_val u)) (u_first u :: u_rest u) e) l e' q).
      { induction l as [|x l IHl]; [auto|]. intros e e' H q0. cbn [fold_left]. apply IHl.
        rewrite (proj1 simple x). cbn. intros. unfold ProtSpec.assign. destruct (_ =? _); auto. }
      apply G. auto.
    + intros q Hq. rewrite N' by (intros X; apply Hq; now right). rewrite A. unfold ProtSpec.assign. destruct (Nat.eqb_spec q (u_first u)); auto.
      subst. exfalso. apply Hq. now left.
    + destruct H as [->|H]; [|now apply U']. rewrite N' by auto. rewrite A. unfold ProtSpec.assign. now rewrite Nat.eqb_refl.
    + destruct H as [->|H].
      * assert (X : ~ In u0 us) by (intros X; apply Hn; now apply in_map). rewrite D' by auto. rewrite D. now rewrite Nat.eqb_refl.
      * rewrite (proj2 (U' _ H)). rewrite A. unfold ProtSpec.assign. destruct (Nat.eqb_spec (u_first u0) (u_first u)); auto.
        exfalso. apply Hn. rewrite <- e. now apply in_map.
    + intros v Hv. rewrite D' by (intros X; apply Hv; now right). rewrite D. destruct (Nat.eqb_spec v u); auto.
      subst. exfalso. apply Hv. now left.
    + eapply mono_trans; eauto.
Qed.
Lemma setbacks_spec us (e0 : nat -> V) : NoDup (map u_first us) -> forall s : st,
  (forall q, ~ In q (map u_first us) -> env s q = e0 q) ->
  (forall u, In u us -> env s (u_first u) = u_val u /\ mem s u = e0 (u_first u)) ->
  let s' := setbacks us s in
  (forall q, env s' q = e0 q) /\ mat s' = mat s /\ mhc s' = mhc s /\ mem s' = mem s /\ mono s s'.
Proof.
  unfold ProtModel.setbacks. induction us as [|u us IH]; intros ND s N U; cbn [fold_left].
  - cbn in *. repeat split; auto using mono_refl.
  - cbn [map] in *. inversion ND as [|? ? Hn Hr]; subst.
    assert (Z : (forall q, env (setback u s) q = if Nat.eqb q (u_first u) then e0 q else env s q) /\
      mat (setback u s) = mat s /\ mhc (setback u s) = mhc s /\ mem (setback u s) = mem s /\ mono s (setback u s)).
    { unfold ProtModel.setback. destruct (U u (or_introl eq_refl)) as [U1 U2]. destruct (veq (u_val u) (mem s u)) eqn:E.
      - apply veq_eq in E. repeat split; auto using mono_refl. intros q. destruct (Nat.eqb_spec q (u_first u)); auto.
        subst q. congruence.
      - rewrite (proj1 simple).
        match goal with |- context [setAll ?l ?v ?x] => destruct (setAll_spec l v x) as (A & B & C & D & F) end.
        repeat split; auto. intros q. rewrite A. cbn. unfold ProtSpec.assign. destruct (Nat.eqb_spec q (u_first u)); auto.
        subst q. congruence. }
    destruct Z as (A & B & C & D & F). destruct (IH Hr (setback u s)) as (A' & B' & C' & D' & F').
    + intros q Hq. rewrite A. destruct (Nat.eqb_spec q (u_first u)); auto. apply N. cbn. intros [X|X]; auto.
    + intros x Hx. rewrite A, D. destruct (U x (or_intror Hx)) as [U1 U2]. destruct (Nat.eqb_spec (u_first x) (u_first u)) as [e|]; auto.
      exfalso. apply Hn. rewrite <- e. now apply in_map.
    + rewrite B', C', D'. repeat split; auto. eapply mono_trans; eauto.
Qed.

(** *** unfolding the nested loops *)
Definition scan (o : nat) := fix go (l : list (option bool * node)) (s : st) : st :=
  match l with
  | [] => s
  | (_, c) :: r => let (b, s1) := updated c s in if b then setFlag o true s1 else go r s1
  end.
Lemma updated_prot o items s : updated (Prot o items) s = let s' := scan o items s in (flag s' o, s').
Proof. reflexivity. Qed.
Fixpoint allFalse (l : list (option bool * node)) (s : st) : st :=
  match l with [] => s | (None, c) :: r => allFalse r (toFalse c s) | (Some _, _) :: r => allFalse r s end.
Lemma toFalse_prot o items s : toFalse (Prot o items) s = allFalse items (setFlag o false s).
Proof. reflexivity. Qed.
Definition itemU (cp : option bool) (c : node) (s : st) : result (option M * st) :=
  match cp with None => getUnitary c s | Some h => copy_with (getUnitary c) h c s end.
Fixpoint loop (l : list (option bool * node)) (acc : M) (s : st) : result (M * st) :=
  match l with
  | [] => Ok (acc, s)
  | (cp, c) :: r =>
      let (vals, sa) := readFlags r s in
      bind (itemU cp c sa) (fun x => match fst x with
        | None => Err TypeError
        | Some u => loop r (mul u acc) (writeFlags r vals (snd x))
        end)
  end.
Definition create (n : node) (s : st) : result (M * st) :=
  match n with Leaf o => Ok (leafU (env s) o, s) | Prot o items => loop items one s end.
Lemma getUnitary_eq n s : getUnitary n s =
  let s1 := setups (updates (nid n)) s in
  let (b, s2) := updated n s1 in
  bind (if runCreate b (nid n) s2 then bind (create n s2) (fun x => Ok (setMat (nid n) (Some (mul (fst x) one)) (snd x))) else Ok s2)
    (fun s3 => let s4 := toFalse n (setbacks (updates (nid n)) s3) in Ok (mat s4 (nid n), s4)).
Proof. destruct n; reflexivity. Qed.

(** *** flags *)
Definition rest_same (s s' : st) := env s' = env s /\ mat s' = mat s /\ mhc s' = mhc s /\ mem s' = mem s.
Lemma rest_same_refl s : rest_same s s. Proof. repeat split. Qed.
Lemma rest_same_trans a b c : rest_same a b -> rest_same b c -> rest_same a c.
Proof. unfold rest_same. intuition congruence. Qed.
Definition clean (s : st) (n : node) := forall x, In x (allids n) -> flag s x = false.

Lemma set_same {X} (f : nat -> X) i x : set f i x i = x.
Proof. unfold set. now rewrite Nat.eqb_refl. Qed.
Lemma set_other {X} (f : nat -> X) i x j : j <> i -> set f i x j = f j.
Proof. unfold set. destruct (Nat.eqb_spec j i); congruence. Qed.

Lemma updated_spec n : forall s b s', updated n s = (b, s') ->
  rest_same s s' /\ mono s s' /\ (b = false -> clean s n).
Proof.
  induction n as [o|o items IH] using node_ind'; intros s b s'.
  - cbn. intros [= <- <-]. split; [apply rest_same_refl|split; [apply mono_refl|]]. intros E x [<-|[]]; auto.
  - rewrite updated_prot. cbn zeta. intros [= <- <-].
    assert (G : rest_same s (scan o items s) /\ mono s (scan o items s) /\
      (flag (scan o items s) o = false -> forall k c, In (k, c) items -> clean s c)).
    { revert s. induction items as [|[k c] r IHr]; intros s; cbn [scan].
      - split; [apply rest_same_refl|split; [apply mono_refl|]]. intros _ k c [].
      - destruct (updated c s) as [b s1] eqn:E. destruct (IH k c (or_introl eq_refl) s b s1 E) as (A & B & C).
        destruct b.
        + split; [|split].
          * unfold rest_same in *. cbn. tauto.
          * intros x Hx. cbn. unfold set. destruct (_ =? _); auto.
          * cbn. rewrite set_same. discriminate.
        + destruct (IHr (fun k' c' H => IH k' c' (or_intror H)) s1) as (A' & B' & C').
          split; [eapply rest_same_trans; eauto|split; [eapply mono_trans; eauto|]].
          intros F k' c' [Hc|Hc]; [injection Hc as _ <-; auto|].
          intros x Hx. specialize (C' F k' c' Hc x Hx). destruct (flag s x) eqn:Q; auto.
          apply B in Q. congruence. }
    destruct G as (A & B & C). split; [auto|split; [auto|]]. intros F x [<-|Hx].
    + destruct (flag s o) eqn:Q; auto. apply B in Q. congruence.
    + apply in_flat_map in Hx. destruct Hx as ((k & c) & Hc & Hx). exact (C F k c Hc x Hx).
Qed.

Lemma toFalse_spec n : forall s, rest_same s (toFalse n s) /\
  (forall x, ~ In x (ids n) -> flag (toFalse n s) x = flag s x).
Proof.
  induction n as [o|o items IH] using node_ind'; intros s.
  - cbn. split; [repeat split|]. intros x Hx. apply set_other. intros ->. apply Hx. now left.
  - rewrite toFalse_prot.
    assert (G : forall s, rest_same s (allFalse items s) /\
      (forall x, ~ In x (flat_map (fun c => match fst c with None => ids (snd c) | Some _ => [] end) items) ->
         flag (allFalse items s) x = flag s x)).
    { clear s. induction items as [|[[h|] c] r IHr]; intros s; cbn [allFalse flat_map fst snd]; [split; auto; apply rest_same_refl| |].
      - exact (IHr (fun k' c' H => IH k' c' (or_intror H)) s).
      - destruct (IH None c (or_introl eq_refl) s) as (A & B).
        destruct (IHr (fun k' c' H => IH k' c' (or_intror H)) (toFalse c s)) as (A' & B').
        split; [eapply rest_same_trans; eauto|]. intros x Hx. rewrite B', B; auto; intros X; apply Hx; apply in_or_app; auto. }
    destruct (G (setFlag o false s)) as (A & B). split.
    + unfold rest_same in *. cbn in *. auto.
    + intros x Hx. cbn in Hx. rewrite B by tauto. cbn. apply set_other. intros ->. apply Hx. now left.
Qed.

Lemma readFlags_spec r : forall s vals sa, readFlags r s = (vals, sa) -> rest_same s sa /\ mono s sa.
Proof.
  induction r as [|[k c] r IH]; intros s vals sa; cbn.
  - intros [= <- <-]. auto using rest_same_refl, mono_refl.
  - destruct (updated c s) as [b s1] eqn:E. destruct (updated_spec c s b s1 E) as (A & B & _).
    destruct (readFlags r s1) as [bs s2] eqn:F. destruct (IH _ _ _ F) as (A' & B').
    intros [= <- <-]. eauto using rest_same_trans, mono_trans.
Qed.
Definition stepIds (items : list (option bool * node)) := flat_map (fun c => match fst c with None => ids (snd c) | Some _ => [] end) items.
Definition heads (items : list (option bool * node)) := flat_map (fun c => match fst c with None => [nid (snd c)] | Some _ => [] end) items.
Lemma nid_ids n : In (nid n) (ids n).
Proof. destruct n; cbn; auto. Qed.
Lemma heads_stepIds items x : In x (heads items) -> In x (stepIds items).
Proof.
  unfold heads, stepIds. intros H. apply in_flat_map in H. destruct H as ((k & c) & Hc & Hx). cbn in Hx.
  destruct k; [destruct Hx|]. destruct Hx as [<-|[]]. apply in_flat_map. exists (None, c). split; auto. apply nid_ids.
Qed.
Lemma step_stepIds items c x : In (None, c) items -> In x (ids c) -> In x (stepIds items).
Proof. intros H Hx. apply in_flat_map. exists (None, c). auto. Qed.

Lemma writeFlags_spec r : forall vals s, rest_same s (writeFlags r vals s) /\
  (forall x, ~ In x (heads r) -> flag (writeFlags r vals s) x = flag s x).
Proof.
  induction r as [|[[h|] c] r IH]; intros vals s; cbn.
  - split; auto using rest_same_refl.
  - destruct vals as [|b bs]; cbn; [split; auto using rest_same_refl|]. apply IH.
  - destruct vals as [|b bs]; cbn; [split; auto using rest_same_refl|].
    destruct (IH bs (setFlag (nid c) b s)) as (A & B). split.
    + unfold rest_same in *. cbn in *. auto.
    + intros x Hx. rewrite B by tauto. cbn. apply set_other. intros ->. apply Hx. now left.
Qed.
Lemma restored r : forall s vals sa, readFlags r s = (vals, sa) -> NoDup (stepIds r) ->
  forall sx c, In (None, c) r -> flag (writeFlags r vals sx) (nid c) = false -> clean s c.
Proof.
  induction r as [|[k c0] r IH]; intros s vals sa; cbn; [intros _ _ sx c []|].
  destruct (updated c0 s) as [b s1] eqn:E. destruct (updated_spec c0 s b s1 E) as (A & B & C).
  destruct (readFlags r s1) as [bs s2] eqn:F. intros [= <- <-] ND sx c Hc.
  assert (R : forall sx, In (None, c) r -> NoDup (stepIds r) -> flag (writeFlags r bs sx) (nid c) = false -> clean s c).
  { intros sy Hr NDr G. specialize (IH _ _ _ F NDr sy c Hr G). intros x Hx. specialize (IH x Hx).
    destruct (flag s x) eqn:Q; auto. apply B in Q. congruence. }
  destruct k as [h|].
  - destruct Hc as [Hc|Hc]; [discriminate|]. apply R; auto.
  - cbn in ND. destruct Hc as [Hc|Hc].
    + injection Hc as ->. rewrite (proj2 (writeFlags_spec r bs _)).
      * cbn. rewrite set_same. auto.
      * intros X. apply heads_stepIds in X. clear -ND X.
        assert (G : forall (a b : list nat) x, NoDup (a ++ b) -> In x a -> In x b -> False).
        { induction a as [|y a IHa]; intros b x N; cbn in *; [tauto|]. inversion N; subst. intros [->|H]; eauto.
          intros Hb. apply H1. apply in_or_app. auto. }
        eapply G; eauto. apply nid_ids.
    + apply R; auto. clear -ND. induction (ids c0) as [|y l IHl]; auto. inversion ND; auto.
Qed.

(** *** occurrences *)
Inductive occ : (nat -> V) -> node -> (nat -> V) -> node -> Prop :=
| occ_here e n : occ e n e n
| occ_step e o items c e' m : In (None, c) items -> occ (updatedEnv e o) c e' m -> occ e (Prot o items) e' m.

Lemma occ_agree (S : nat -> Prop) e n e1 m : occ e n e1 m -> forall e', (forall p, S p -> e p = e' p) ->
  exists e1', occ e' n e1' m /\ (forall p, S p -> e1 p = e1' p).
Proof.
  induction 1 as [e n|e o items c e1 m Hc Hocc IH]; intros e' H.
  - exists e'. split; auto. constructor.
  - destruct (IH (updatedEnv e' o)) as (e1' & A & B); [now apply updatedEnv_agree|].
    exists e1'. split; auto. econstructor; eauto.
Qed.
Lemma occ_ids e n e1 m : occ e n e1 m -> incl (ids m) (ids n).
Proof.
  induction 1 as [e n|e o items c e1 m Hc Hocc IH]; [apply incl_refl|].
  intros x Hx. right. apply IH in Hx. apply in_flat_map. exists (None, c). auto.
Qed.
Lemma occ_strict e n e1 m : NoDup (ids n) -> occ e n e1 m -> (n = m /\ e1 = e) \/ ~ In (nid n) (ids m).
Proof.
  intros ND H. destruct H as [e n|e o items c e1 m Hc Hocc]; auto. right. intros X.
  apply (occ_ids _ _ _ _ Hocc) in X. cbn in *. inversion ND; subst. apply H1. apply in_flat_map. exists (None, c). auto.
Qed.
Lemma allids_ids n : tidy n -> forall x, In x (allids n) -> In x (ids n).
Proof.
  induction n as [o|o items IH] using node_ind'; intros T x; cbn; auto.
  inversion T as [|? ? ND HT HC]; subst. intros [->|Hx]; auto. right.
  apply in_flat_map in Hx. destruct Hx as ((k & c) & Hc & Hx). cbn in Hx.
  assert (N : In (None, c) items).
  { destruct k as [h|]; auto. apply in_split in Hc. destruct Hc as (a & b & E). destruct (HC a h c b E) as (_ & Hin).
    rewrite E. apply in_or_app. auto. }
  apply in_flat_map. exists (None, c). split; auto. cbn. apply (IH None c N); auto.
Qed.
Lemma occ_tidy e n e1 m : tidy n -> occ e n e1 m -> tidy m.
Proof. intros T H. induction H as [e n|e o items c e1 m Hc Hocc IH]; auto. inversion T; subst. auto. Qed.
Lemma tidy_nodup n : tidy n -> NoDup (ids n).
Proof. inversion 1; auto. cbn. constructor; auto. constructor. Qed.
Lemma clean_occ e n e1 m s : tidy n -> occ e n e1 m -> clean s n -> clean s m.
Proof.
  intros T H C x Hx. apply C. assert (X : In x (ids m)) by (apply allids_ids; auto; eapply occ_tidy; eauto).
  apply (occ_ids _ _ _ _ H) in X. clear -X. revert X. induction n as [o|o items IH] using node_ind'; cbn; auto.
  intros [->|H]; auto. right. apply in_flat_map in H. destruct H as ((k & c) & Hc & Hx). cbn in Hx.
  destruct k; [destruct Hx|]. apply in_flat_map. exists (None, c). split; auto. cbn. eauto.
Qed.

Lemma children_ind (P : node -> Prop) :
  (forall n, (forall k c, (exists o items, n = Prot o items /\ In (k, c) items) -> P c) -> P n) -> forall n, P n.
Proof.
  intros H n. induction n as [o|o items IH] using node_ind'; apply H.
  - intros k c (o' & items & E & _). discriminate.
  - intros k c (o' & items' & E & Hc). injection E as -> ->. eauto.
Qed.

(** *** Updates are undone, whatever is cached, fixed, copied. *)
Definition keepsE (ns : list nat) (s s' : st) :=
  (forall p, env s' p = env s p) /\ (forall u, (forall o, In o ns -> ~ In u (updates o)) -> mem s' u = mem s u).
Lemma keepsE_trans ns a b c : keepsE ns a b -> keepsE ns b c -> keepsE ns a c.
Proof. intros (A & B) (C & D). split; intros; [now rewrite C|now rewrite D, B]. Qed.
Lemma keepsE_incl ns ns' a b : incl ns ns' -> keepsE ns a b -> keepsE ns' a b.
Proof. intros H (A & B). split; auto. Qed.
Lemma keepsE_same ns a b : rest_same a b -> keepsE ns a b.
Proof. intros (A & B & C & D). split; intros; congruence. Qed.

Lemma unitary_with_keeps n get ns s r s' : (forall s r s', get s = Ok (r, s') -> keepsE ns s s') ->
  unitary_with get n s = Ok (r, s') -> keepsE ns s s'.
Proof.
  intros HG. unfold ProtModel.unitary_with. destruct (updated n s) as [b s1] eqn:E.
  destruct (updated_spec n s b s1 E) as (A & _).
  assert (Z : forall x, bind (get s1) (fun r => let s2 := setMat (nid n) (fst r) (snd r) in Ok (mat s2 (nid n), s2)) = Ok x -> keepsE ns s (snd x)).
  { intros x. destruct (get s1) as [[r1 s2]|] eqn:G; cbn; [|discriminate]. intros [= <-]. cbn.
    eapply keepsE_trans; [apply keepsE_same; exact A|]. specialize (HG _ _ _ G). exact HG. }
  destruct b.
  - destruct (fixed _); [intros [= _ <-]; now apply keepsE_same|]. intros H. apply Z in H. exact H.
  - destruct (mat s1 _); [intros [= _ <-]; now apply keepsE_same|]. intros H. apply Z in H. exact H.
Qed.
Lemma readHc_keeps o s r s' ns : readHc o s = Ok (r, s') -> keepsE ns s s'.
Proof.
  unfold ProtModel.readHc. destruct (mat s o); [|discriminate]. destruct (mhc s o) as [h|]; [destruct (_ && _)%bool|];
    intros [= _ <-]; split; auto.
Qed.

Theorem getUnitary_undone n : nonrec n -> forall s r s', getUnitary n s = Ok (r, s') -> keepsE (allids n) s s'.
Proof.
  revert n. refine (children_ind _ _). intros n IHn NR s r s'. rewrite getUnitary_eq. cbn zeta.
  set (us := updates (nid n)).
  assert (NDu : NoDup (map u_first us)) by apply simple.
  destruct (setups_spec us NDu s) as (_ & S2 & S3 & _ & _ & S6 & _).
  cbn zeta in *. set (s1 := setups us s) in *.
  destruct (updated n s1) as [b s2] eqn:EU.
  destruct (updated_spec n s1 b s2 EU) as (A & _).
  assert (K : forall x, create n s2 = Ok x ->
     (forall p, env (snd x) p = env s2 p) /\
     (forall u, (forall o, In o (allids n) -> o <> nid n -> ~ In u (updates o)) -> mem (snd x) u = mem s2 u)).
  { destruct n as [o|o items]; cbn [create]; [intros x [= <-]; auto|].
    inversion NR as [|? ? HN]; subst.
    assert (L : forall l, incl l items -> forall acc sa x, loop l acc sa = Ok x ->
      keepsE (flat_map (fun c => allids (snd c)) items) sa (snd x)).
    { induction l as [|[cp c] l IHl]; intros Hi acc sa x; cbn [loop].
      - intros [= <-]. split; auto.
      - destruct (readFlags l sa) as [vals sb] eqn:RF. destruct (readFlags_spec l sa vals sb RF) as (B & _).
        destruct (itemU cp c sb) as [[ru sc]|] eqn:IU; cbn [bind]; [|discriminate].
        cbn [fst snd]. destruct ru as [u|]; [|discriminate]. intros H.
        assert (Hc : In (cp, c) items) by (apply Hi; now left).
        assert (IHc : forall s r s', getUnitary c s = Ok (r, s') -> keepsE (allids c) s s').
        { apply (IHn cp c); [eauto|]. apply (HN cp c Hc). }
        assert (Kc : keepsE (allids c) sb sc).
        { destruct cp as [h|]; cbn [itemU] in IU; [|eapply IHc; eauto]. unfold ProtModel.copy_with in IU.
          destruct (unitary_with (getUnitary c) c sb) as [[r1 sd]|] eqn:UW; cbn [bind] in IU; [|discriminate].
          assert (Kd := unitary_with_keeps c (getUnitary c) (allids c) sb r1 sd IHc UW). cbn [snd] in IU.
          destruct h; [|injection IU as _ <-; exact Kd].
          eapply keepsE_trans; [exact Kd|]. eapply readHc_keeps; eauto. }
        eapply keepsE_trans; [apply keepsE_same; exact B|].
        eapply keepsE_trans; [eapply keepsE_incl; [|exact Kc]|].
        { intros y Hy. apply in_flat_map. exists (cp, c). auto. }
        eapply keepsE_trans; [apply keepsE_same; exact (proj1 (writeFlags_spec l vals sc))|].
        eapply IHl; [|exact H]. intros y Hy. apply Hi. now right. }
    intros x H. specialize (L items (incl_refl _) one s2 x H). destruct L as (L1 & L2). split; auto.
    intros u Hu. apply L2. intros o' Ho'. apply Hu; [now right|]. cbn. intros ->.
    apply in_flat_map in Ho'. destruct Ho' as ((k & c) & Hc & Ho'). apply (proj2 (HN k c Hc)); auto. }
  destruct (if runCreate b (nid n) s2 then _ else _) as [s3|] eqn:ER; cbn [bind]; [|discriminate].
  intros [= _ <-].
  assert (E3 : (forall p, env s3 p = env s2 p) /\
     (forall u, (forall o, In o (allids n) -> o <> nid n -> ~ In u (updates o)) -> mem s3 u = mem s2 u)).
  { destruct (runCreate b (nid n) s2); [|injection ER as <-; auto].
    destruct (create n s2) as [x|] eqn:EC; cbn [bind] in ER; [|discriminate].
    injection ER as <-. cbn. apply K; auto. }
  destruct E3 as (E3 & E4). destruct A as (A1 & A2 & A3 & A4).
  destruct (setbacks_spec us (env s) NDu s3) as (R1 & R2 & R3 & R4 & _).
  { intros q Hq. rewrite E3, A1. auto. }
  { intros u Hu. rewrite E3, A1, E4, A4; auto. intros o Ho N X. apply N. eapply (proj2 (proj2 simple)); eauto. }
  cbn zeta in *. destruct (toFalse_spec n (setbacks us s3)) as ((F1 & F2 & F3 & F4) & _).
  split.
  - intros p. rewrite F1. auto.
  - intros u Hu. rewrite F4, R4, E4, A4, S6; auto. apply Hu. destruct n; cbn; auto.
Qed.
Corollary unitary_undone n s r s' : nonrec n -> unitary n s = Ok (r, s') -> forall p, env s' p = env s p.
Proof.
  intros NR H. apply (unitary_with_keeps n (getUnitary n) (allids n) s r s'); auto.
  intros; eapply getUnitary_undone; eauto.
Qed.
(** *** A fixed object keeps its matrix. *)
Lemma setups_mat us : forall s : st, mat (setups us s) = mat s.
Proof.
  unfold ProtModel.setups. induction us as [|u us IH]; intros s; cbn [fold_left]; auto. rewrite IH.
  unfold ProtModel.setup. match goal with |- context [setAll ?l ?v ?x] => destruct (setAll_spec l v x) as (A & B & _) end.
  rewrite B. reflexivity.
Qed.
Lemma setbacks_mat us : forall s : st, mat (setbacks us s) = mat s.
Proof.
  unfold ProtModel.setbacks. induction us as [|u us IH]; intros s; cbn [fold_left]; auto. rewrite IH.
  unfold ProtModel.setback. destruct (veq _ _); auto.
  match goal with |- context [setAll ?l ?v ?x] => destruct (setAll_spec l v x) as (A & B & _) end.
  exact B.
Qed.
Section Fixed.
Variable x : nat.
Variable m : M.
Hypothesis Fx : fixed x = true.
Definition keepsM (s s' : st) := mat s x = Some m -> mat s' x = Some m.
Lemma keepsM_same s s' : rest_same s s' -> keepsM s s'.
Proof. intros (A & B & _) H. now rewrite B. Qed.
Lemma unitary_with_keepsM n get s r s' : (forall s r s', get s = Ok (r, s') -> keepsM s s' /\ r = mat s' (nid n)) ->
  unitary_with get n s = Ok (r, s') -> keepsM s s' /\ r = mat s' (nid n).
Proof.
  intros HG. unfold ProtModel.unitary_with. destruct (updated n s) as [b s1] eqn:E.
  destruct (updated_spec n s b s1 E) as (A & _).
  assert (Z : forall y, bind (get s1) (fun r => let s2 := setMat (nid n) (fst r) (snd r) in Ok (mat s2 (nid n), s2)) = Ok y ->
     keepsM s (snd y) /\ fst y = mat (snd y) (nid n)).
  { intros y. destruct (get s1) as [[r1 s2]|] eqn:G; cbn [bind fst snd]; [|discriminate]. intros [= <-]. cbn [fst snd]. split; auto.
    destruct (HG _ _ _ G) as (K & ->). intros H. apply (keepsM_same s s1 A) in H. apply K in H. cbn. unfold set.
    destruct (Nat.eqb_spec x (nid n)) as [e|]; [now rewrite <- e|auto]. }
  destruct b.
  - destruct (fixed (nid n)); [intros [= <- <-]; split; [now apply keepsM_same|auto]|]. intros H. exact (Z _ H).
  - destruct (mat s1 _) eqn:Q; [intros [= <- <-]; split; [now apply keepsM_same|auto]|]. intros H. exact (Z _ H).
Qed.
Theorem getUnitary_fixed n : forall s r s', getUnitary n s = Ok (r, s') -> keepsM s s' /\ r = mat s' (nid n).
Proof.
  revert n. refine (children_ind _ _). intros n IHn s r s'. rewrite getUnitary_eq. cbn zeta.
  destruct (updated n (setups (updates (nid n)) s)) as [b s2] eqn:EU.
  destruct (updated_spec n _ b s2 EU) as (A & _).
  assert (K2 : keepsM s s2). { intros H. apply (keepsM_same _ _ A). now rewrite setups_mat. }
  assert (K : forall y, create n s2 = Ok y -> keepsM s2 (snd y)).
  { destruct n as [o|o items]; cbn [create]; [intros y [= <-] H; exact H|].
    assert (L : forall l, incl l items -> forall acc sa y, loop l acc sa = Ok y -> keepsM sa (snd y)).
    { induction l as [|[cp c] l IHl]; intros Hi acc sa y; cbn [loop].
      - intros [= <-] H. exact H.
      - destruct (readFlags l sa) as [vals sb] eqn:RF. destruct (readFlags_spec l sa vals sb RF) as (B & _).
        destruct (itemU cp c sb) as [[ru sc]|] eqn:IU; cbn [bind]; [|discriminate].
        cbn [fst snd]. destruct ru as [u|]; [|discriminate]. intros H.
        assert (Hc : In (cp, c) items) by (apply Hi; now left).
        assert (IHc := IHn cp c (ex_intro _ o (ex_intro _ items (conj eq_refl Hc)))).
        assert (Kc : keepsM sb sc).
        { destruct cp as [h|]; cbn [itemU] in IU; [|exact (proj1 (IHc _ _ _ IU))]. unfold ProtModel.copy_with in IU.
          destruct (unitary_with (getUnitary c) c sb) as [[r1 sd]|] eqn:UW; cbn [bind] in IU; [|discriminate].
          destruct (unitary_with_keepsM c (getUnitary c) sb r1 sd IHc UW) as (Kd & _). cbn [snd] in IU.
          destruct h; [|injection IU as _ <-; exact Kd].
          intros Q. apply Kd in Q. unfold ProtModel.readHc in IU. destruct (mat sd (nid c)); [|discriminate].
          destruct (mhc sd (nid c)) as [h|]; [destruct (_ && _)%bool|]; injection IU as _ <-; exact Q. }
        intros Q. apply (IHl (fun z Hz => Hi z (or_intror Hz)) _ _ _ H).
        apply (keepsM_same _ _ (proj1 (writeFlags_spec l vals sc))). apply Kc. now apply (keepsM_same _ _ B). }
    intros y H. exact (L items (incl_refl _) one s2 y H). }
  destruct (if runCreate b (nid n) s2 then _ else _) as [s3|] eqn:ER; cbn [bind]; [|discriminate].
  intros [= <- <-]. split; auto.
  assert (K3 : keepsM s2 s3).
  { unfold ProtModel.runCreate in ER. destruct (Nat.eqb_spec x (nid n)) as [e|N].
    - rewrite <- e, Fx in ER. intros Q. destruct b; cbn in ER; [injection ER as <-; exact Q|].
      rewrite Q in ER. injection ER as <-. exact Q.
    - match type of ER with (if ?c then _ else _) = _ => destruct c end; [|injection ER as <-; intros Q; exact Q].
      destruct (create n s2) as [y|] eqn:EC; cbn [bind] in ER; [|discriminate]. injection ER as <-.
      intros Q. cbn. rewrite set_other by auto. now apply K. }
  intros Q. destruct (toFalse_spec n (setbacks (updates (nid n)) s3)) as ((_ & F & _) & _). rewrite F, setbacks_mat.
  apply K3, K2, Q.
Qed.
Corollary unitary_fixed n s r s' : unitary n s = Ok (r, s') -> keepsM s s' /\ r = mat s' (nid n).
Proof. apply unitary_with_keepsM. intros. eapply getUnitary_fixed; eauto. Qed.
Theorem history_fixed ops : Forall (fun o => o <> ODel) ops -> forall s l s',
  history M V mul one adj shape veq leafU dep updates u_first u_rest u_val fixed ops s = Ok (l, s') -> keepsM s s'.
Proof.
  induction ops as [|a ops IH]; intros F s l s'; cbn; [intros [= _ <-] Q; exact Q|]. inversion F as [|? ? Fa Fr]; subst.
  destruct a as [p v| |n|n].
  - intros H Q. apply (IH Fr _ _ _ H). destruct (setParam_spec p v s) as (_ & B & _). now rewrite B.
  - congruence.
  - destruct (unitary n s) as [[r s1]|] eqn:U; cbn; [|discriminate].
    destruct (history _ _ _ _ _ _ _ _ _ _ _ _ _ _ ops s1) as [[l2 s2]|] eqn:Hh; cbn; [|discriminate]. intros [= _ <-] Q.
    apply (IH Fr _ _ _ Hh). now apply (proj1 (unitary_fixed _ _ _ _ U)).
  - destruct (getUnitary n s) as [[r s1]|] eqn:U; cbn; [|discriminate].
    destruct (history _ _ _ _ _ _ _ _ _ _ _ _ _ _ ops s1) as [[l2 s2]|] eqn:Hh; cbn; [|discriminate]. intros [= _ <-] Q.
    apply (IH Fr _ _ _ Hh). now apply (proj1 (getUnitary_fixed _ _ _ _ U)).
Qed.
End Fixed.

(** *** fresh matrices *)
Hypothesis bounds : complete_bounds M V leafU dep.
Hypothesis one_r : forall m, mul m one = m.
Hypothesis not_fixed : forall o, fixed o = false.

Lemma fresh_dep n : forall (e e' : nat -> V),
  (forall x p, In x (leaves n) -> In x (dep p) -> e p = e' p) -> fresh e n = fresh e' n.
Proof.
  induction n as [o|o items IH] using node_ind'; intros e e' H.
  - cbn. apply bounds. intros p Hp. apply (updatedEnv_agree (fun p => In o (dep p))); auto.
    intros q Hq. apply (H o); cbn; auto.
  - cbn. f_equal. apply map_ext_in. intros (k & c) Hc. cbn.
    assert (Q : fresh (updatedEnv e o) c = fresh (updatedEnv e' o) c); [|now rewrite Q].
    apply (IH k c Hc). intros x p Hx Hp.
    apply (updatedEnv_agree (fun p => In x (dep p))); auto. intros q Hq. apply (H x); auto. cbn. apply in_flat_map. exists (k, c). auto.
Qed.
Lemma fresh_ext n e e' : (forall p, e p = e' p) -> fresh e n = fresh e' n.
Proof. intros H. apply fresh_dep. auto. Qed.

Definition okm (s : st) (e : nat -> V) (m : node) := mat s (nid m) = None \/ mat s (nid m) = Some (fresh e m).
Definition Inv (s : st) (e : nat -> V) (n : node) := forall e1 m, occ e n e1 m -> clean s m -> okm s e1 m.
Definition Good (s : st) (e : nat -> V) (n : node) := forall e1 m, occ e n e1 m -> okm s e1 m.

Lemma Good_Inv s e n : Good s e n -> Inv s e n.
Proof. intros G e1 m H _. auto. Qed.
Lemma Inv_Good s e n : tidy n -> Inv s e n -> clean s n -> Good s e n.
Proof. intros T I C e1 m H. apply I; auto. eapply clean_occ; eauto. Qed.
Lemma okm_ext s e e' m : (forall p, e p = e' p) -> okm s e m -> okm s e' m.
Proof. intros H [A|A]; [now left|right]. rewrite A. f_equal. now apply fresh_ext. Qed.
Lemma Inv_ext s e e' n : (forall p, e p = e' p) -> Inv s e n -> Inv s e' n.
Proof.
  intros H I e1 m O C. destruct (occ_agree (fun _ => True) _ _ _ _ O e) as (e1' & A & B); auto.
  apply (okm_ext s e1'); auto. intros; symmetry; auto.
Qed.
Lemma Good_ext s e e' n : (forall p, e p = e' p) -> Good s e n -> Good s e' n.
Proof.
  intros H I e1 m O. destruct (occ_agree (fun _ => True) _ _ _ _ O e) as (e1' & A & B); auto.
  apply (okm_ext s e1'); auto. intros; symmetry; auto.
Qed.
Lemma Good_frame s s' e n : (forall x, In x (ids n) -> mat s' x = mat s x) -> Good s e n -> Good s' e n.
Proof. intros H G e1 m O. unfold okm. rewrite H; [now apply G|]. apply (occ_ids _ _ _ _ O). apply nid_ids. Qed.
Lemma Inv_frame s s' e n : tidy n -> (forall x, In x (ids n) -> mat s' x = mat s x) ->
  (forall x, In x (ids n) -> flag s x = true -> flag s' x = true) -> Inv s e n -> Inv s' e n.
Proof.
  intros T H F I e1 m O C. unfold okm. rewrite H by (apply (occ_ids _ _ _ _ O); apply nid_ids). apply I; auto.
  intros x Hx. specialize (C x Hx). destruct (flag s x) eqn:Q; auto. apply F in Q; [congruence|].
  apply (occ_ids _ _ _ _ O). apply allids_ids; auto. eapply occ_tidy; eauto.
Qed.

(** What a call that computes the unitary of n does. *)
Definition post (s s' : st) (n : node) :=
  (forall p, env s' p = env s p) /\ Good s' (env s) n /\ (forall x, ~ In x (ids n) -> mat s' x = mat s x) /\
  (forall u, (forall o, In o (ids n) -> ~ In u (updates o)) -> mem s' u = mem s u) /\
  (forall x, ~ In x (ids n) -> flag s x = true -> flag s' x = true) /\ mat s' (nid n) = Some (fresh (env s) n).

Lemma unitary_with_post n get s : tidy n -> Inv s (env s) n ->
  (forall s, Inv s (env s) n -> exists s', get s = Ok (Some (fresh (env s) n), s') /\ post s s' n) ->
  exists s', unitary_with get n s = Ok (Some (fresh (env s) n), s') /\ post s s' n.
Proof.
  intros T I HG. unfold ProtModel.unitary_with. destruct (updated n s) as [b s1] eqn:E.
  destruct (updated_spec n s b s1 E) as ((A1 & A2 & A3 & A4) & B & C).
  assert (I1 : Inv s1 (env s1) n). { rewrite A1. apply (Inv_frame s); auto. intros; now rewrite A2. }
  assert (R : exists s', bind (get s1) (fun r => let s2 := setMat (nid n) (fst r) (snd r) in Ok (mat s2 (nid n), s2))
              = Ok (Some (fresh (env s) n), s') /\ post s s' n).
  { destruct (HG s1 I1) as (s' & Hs & (P1 & P2 & P3 & P4 & P5 & P6)). rewrite Hs. cbn [bind fst snd].
    eexists. split; [cbn; rewrite set_same, A1; reflexivity|]. unfold post. cbn. rewrite A1 in *.
    repeat split; auto.
    - apply (Good_frame s'); auto. cbn. intros x _. unfold set. destruct (Nat.eqb_spec x (nid n)); subst; auto.
    - intros x Hx. rewrite set_other, P3 by (auto; intros ->; apply Hx; apply nid_ids). now rewrite A2.
    - intros u Hu. rewrite P4 by auto. now rewrite A4.
    - now rewrite set_same. }
  rewrite not_fixed. destruct b; [exact R|].
  destruct (mat s1 (nid n)) as [m|] eqn:Em; [|exact R].
  assert (G : Good s (env s) n) by (apply Inv_Good; auto).
  assert (Q : m = fresh (env s) n).
  { destruct (G _ _ (occ_here _ n)) as [X|X]; rewrite <- A2, Em in X; congruence. }
  exists s1. split; [now rewrite Q|]. unfold post. rewrite A1, A2, A4. repeat split; auto.
  - apply (Good_frame s); auto. intros; now rewrite A2.
  - rewrite <- A2, Em. now rewrite Q.
Qed.

Lemma steps_same_or_disjoint items c c' : NoDup (stepIds items) -> In (None, c) items -> In (None, c') items ->
  c = c' \/ (forall x, In x (ids c) -> ~ In x (ids c')).
Proof.
  induction items as [|[[h|] d] r IH]; cbn; [tauto| |].
  - intros ND [X|H] [Y|H']; try discriminate. auto.
  - intros ND.
    assert (ND' : NoDup (stepIds r)) by (clear -ND; induction (ids d) as [|y l IHl]; auto; inversion ND; auto).
    assert (G : forall (a b : list nat) x, NoDup (a ++ b) -> In x a -> In x b -> False).
    { induction a as [|y a IHa]; intros b x N; cbn in *; [tauto|]. inversion N; subst. intros [->|H]; eauto.
      intros Hb. apply H1. apply in_or_app. auto. }
    intros [X|H] [Y|H'].
    + left. congruence.
    + injection X as <-. right. intros x Hx Hx'. apply (G _ _ x ND); auto. eapply step_stepIds; eauto.
    + injection Y as <-. right. intros x Hx Hx'. apply (G _ _ x ND); auto. eapply step_stepIds; eauto.
    + auto.
Qed.

Lemma stepIds_app a b : stepIds (a ++ b) = stepIds a ++ stepIds b.
Proof. unfold stepIds. apply flat_map_app. Qed.
Lemma nodup_app_r {X} (a b : list X) : NoDup (a ++ b) -> NoDup b.
Proof. induction a; auto. cbn. inversion 1; auto. Qed.
Lemma nodup_disj {X} (a b : list X) x : NoDup (a ++ b) -> In x a -> In x b -> False.
Proof.
  induction a as [|y a IHa]; cbn; [tauto|]. intros N. inversion N; subst. intros [->|H]; eauto.
  intros Hb. apply H1. apply in_or_app. auto.
Qed.

Definition itemF (e : nat -> V) (c : option bool * node) : M :=
  match fst c with Some true => adj (fresh e (snd c)) | _ => fresh e (snd c) end.

Lemma loop_post o items (E : nat -> V) : tidy (Prot o items) ->
  (forall c, In (None, c) items -> forall s, Inv s (env s) c ->
     exists s', getUnitary c s = Ok (Some (fresh (env s) c), s') /\ post s s' c) ->
  forall rest done s acc, items = done ++ rest -> (forall p, env s p = E p) ->
  (forall c, In (None, c) items -> Inv s E c) -> (forall c, In (None, c) done -> Good s E c) ->
  acc = ordered (map (itemF E) done) ->
  exists s', loop rest acc s = Ok (ordered (map (itemF E) items), s') /\ (forall p, env s' p = E p) /\
    (forall c, In (None, c) items -> Good s' E c) /\
    (forall x, ~ In x (stepIds items) -> mat s' x = mat s x) /\
    (forall u, (forall o, In o (stepIds items) -> ~ In u (updates o)) -> mem s' u = mem s u) /\
    (forall x, ~ In x (stepIds items) -> flag s x = true -> flag s' x = true).
Proof.
  intros T HG. inversion T as [|? ? ND HT HC]; subst.
  assert (NDs : NoDup (stepIds items)) by (cbn in ND; inversion ND; auto).
  induction rest as [|[cp c] r IH]; intros done s acc Ei He HI Hd Hacc.
  - rewrite app_nil_r in Ei. subst done. exists s. cbn. subst acc. repeat split; auto.
  - cbn [loop]. destruct (readFlags r s) as [vals sa] eqn:RF.
    destruct (readFlags_spec r s vals sa RF) as ((A1 & A2 & A3 & A4) & B).
    assert (Hc : In (None, c) items /\ itemF E (cp, c) = fresh E c).
    { destruct cp as [h|].
      - destruct (HC done h c r Ei) as (-> & Hin). split; auto. rewrite Ei. apply in_or_app. auto.
      - split; auto. rewrite Ei. apply in_or_app. right. now left. }
    destruct Hc as (Hc & HF).
    assert (Ia : forall c', In (None, c') items -> Inv sa E c').
    { intros c' Hc'. apply (Inv_frame s); auto. intros; now rewrite A2. }
    assert (Iac : Inv sa (env sa) c). { apply (Inv_ext sa E); auto. intros; rewrite A1; auto. }
    assert (X : exists sx, itemU cp c sa = Ok (Some (fresh E c), sx) /\ post sa sx c).
    { assert (Fe : fresh (env sa) c = fresh E c) by (apply fresh_ext; intros; now rewrite A1).
      destruct cp as [h|]; cbn [itemU].
      - destruct (HC done h c r Ei) as (-> & _). unfold ProtModel.copy_with.
        destruct (unitary_with_post c (getUnitary c) sa (HT c Hc) Iac (HG c Hc)) as (sx & U1 & U2).
        rewrite U1. cbn. exists sx. split; auto. f_equal. f_equal. rewrite <- Fe. apply U2.
      - destruct (HG c Hc sa Iac) as (sx & U1 & U2). exists sx. rewrite <- Fe. auto. }
    destruct X as (sx & Hx & (P1 & P2 & P3 & P4 & P5 & P6)). rewrite Hx. cbn [bind fst snd].
    assert (P2' : Good sx E c). { apply (Good_ext sx (env sa)); auto. intros; now rewrite A1. }
    destruct (writeFlags_spec r vals sx) as ((W1 & W2 & W3 & W4) & W5).
    set (sw := writeFlags r vals sx) in *.
    assert (Fr : forall c', In (None, c') items -> c' = c \/ (forall x, In x (ids c') -> ~ In x (ids c))).
    { intros c' Hc'. destruct (steps_same_or_disjoint items c' c NDs Hc' Hc); auto. }
    assert (Hdone : forall c', In (None, c') (done ++ [(cp, c)]) -> Good sw E c').
    { intros c' Hc'. apply (Good_frame sx); [intros; now rewrite W2|].
      assert (Hi : In (None, c') items). { rewrite Ei. rewrite in_app_iff in *. cbn in *. tauto. }
      destruct (Fr c' Hi) as [->|D]; auto. apply in_app_or in Hc'. destruct Hc' as [Hc'|[Hc'|[]]].
      - apply (Good_frame s); auto. intros x Hx'. rewrite P3, A2; auto.
      - injection Hc' as _ ->. auto. }
    destruct (IH (done ++ [(cp, c)]) sw (mul (fresh E c) acc)) as (s' & L1 & L2 & L3 & L4 & L5 & L6).
    + rewrite Ei. rewrite <- app_assoc. reflexivity.
    + intros p. rewrite W1, P1, A1. auto.
    + intros c' Hc'. assert (Hs : In (None, c') (done ++ [(cp, c)]) \/ In (None, c') r).
      { rewrite Ei in Hc'. rewrite in_app_iff in *. cbn in *. tauto. }
      destruct Hs as [Hs|Hs]; [apply Good_Inv; auto|].
      assert (NDr : NoDup (stepIds ((cp, c) :: r))).
      { rewrite Ei, stepIds_app in NDs. eapply nodup_app_r; eauto. }
      assert (NDr' : NoDup (stepIds r)).
      { change ((cp, c) :: r) with ([(cp, c)] ++ r) in NDr. rewrite stepIds_app in NDr. eapply nodup_app_r; eauto. }
      assert (Dc : forall x, In x (ids c') -> ~ In x (ids c)).
      { intros x Hx' Hxc. destruct cp as [h|].
        - destruct (HC done h c r Ei) as (_ & Hin). rewrite Ei, stepIds_app in NDs.
          apply (nodup_disj _ _ x NDs); [eapply step_stepIds; eauto|]. cbn. eapply step_stepIds; eauto.
        - cbn in NDr. apply (nodup_disj _ _ x NDr); auto. eapply step_stepIds; eauto. }
      intros e1 m O Cl. unfold okm. rewrite W2, P3, A2 by (apply Dc; apply (occ_ids _ _ _ _ O); apply nid_ids).
      destruct (occ_strict _ _ _ _ (tidy_nodup _ (HT c' Hc')) O) as [(<- & ->)|St].
      * apply (HI c' Hc'); auto. eapply (restored r s vals sa RF NDr' sx); eauto. apply Cl.
        destruct c'; cbn; auto.
      * apply (HI c' Hc'); auto. intros x Hx'. specialize (Cl x Hx').
        assert (Hm : In x (ids m)) by (apply allids_ids; auto; eapply occ_tidy; [apply (HT c' Hc')|eauto]).
        assert (Hxc : In x (ids c')) by (apply (occ_ids _ _ _ _ O); auto).
        unfold sw in Cl. rewrite W5 in Cl.
        -- destruct (flag s x) eqn:Q; auto. apply B in Q. apply P5 in Q; [congruence|]. now apply Dc.
        -- intros Hh. unfold heads in Hh. apply in_flat_map in Hh. destruct Hh as ((k & d) & Hd' & Hh).
           cbn in Hh. destruct k; [destruct Hh|]. destruct Hh as [Hh|[]].
           destruct (steps_same_or_disjoint r c' d NDr' Hs Hd') as [->|D].
           ++ rewrite Hh in St. contradiction.
           ++ apply (D x); auto. rewrite <- Hh. apply nid_ids.
    + exact Hdone.
    + rewrite map_app. cbn [map]. rewrite HF. unfold ProtSpec.ordered. rewrite fold_left_app. cbn. now rewrite Hacc.
    + exists s'. rewrite L1. split; auto. split; auto. split; auto.
      assert (Sub : forall x, ~ In x (stepIds items) -> ~ In x (ids c)).
      { intros x Hx' X. apply Hx'. eapply step_stepIds; eauto. }
      split; [|split].
      * intros x Hx'. rewrite L4, W2, P3, A2; auto.
      * intros u Hu. rewrite L5, W4, P4, A4; auto. intros o' Ho. apply Hu. eapply step_stepIds; eauto.
      * intros x Hx' Q. apply L6; auto. unfold sw. rewrite W5; [apply P5; auto|].
        intros X. apply Hx'. apply heads_stepIds in X. rewrite Ei, stepIds_app. apply in_or_app. right.
        change ((cp, c) :: r) with ([(cp, c)] ++ r). rewrite stepIds_app. apply in_or_app. auto.
Qed.

Lemma create_post n s : tidy n ->
  (forall k c, (exists o items, n = Prot o items /\ In (k, c) items) -> tidy c -> forall s, Inv s (env s) c ->
     exists s', getUnitary c s = Ok (Some (fresh (env s) c), s') /\ post s s' c) ->
  forall E, (forall p, updatedEnv E (nid n) p = env s p) -> (forall e1 m, occ E n e1 m -> m <> n -> clean s m -> okm s e1 m) ->
  exists s', create n s = Ok (fresh E n, s') /\ (forall p, env s' p = env s p) /\
    (forall e1 m, occ E n e1 m -> m <> n -> okm s' e1 m) /\
    (forall x, ~ In x (ids n) -> mat s' x = mat s x) /\
    (forall u, (forall o, In o (ids n) -> o <> nid n -> ~ In u (updates o)) -> mem s' u = mem s u) /\
    (forall x, ~ In x (ids n) -> flag s x = true -> flag s' x = true).
Proof.
  intros T HG E HE HI. destruct n as [o|o items]; cbn [create].
  - exists s. split; [|repeat split; auto].
    + f_equal. f_equal. cbn. apply bounds. intros p _. symmetry. apply HE.
    + intros e1 m O N. inversion O; subst. contradiction.
  - inversion T as [|? ? ND HT HC]; subst. cbn [nid] in HE.
    assert (No : forall c, In (None, c) items -> ~ In o (ids c)).
    { intros c Hc X. cbn in ND. inversion ND; subst. apply H1. eapply step_stepIds; eauto. }
    destruct (loop_post o items (updatedEnv E o) T) with (rest := items) (done := @nil (option bool * node)) (s := s) (acc := one)
      as (s' & L1 & L2 & L3 & L4 & L5 & L6); auto.
    + intros c Hc. apply (HG None); auto. exists o, items. auto.
    + intros c Hc e1 m O C. apply HI; auto; [econstructor; eauto|].
      intros X. apply (No c Hc). apply (occ_ids _ _ _ _ O). rewrite X. cbn. auto.
    + intros c [].
    + exists s'. rewrite L1. split; [reflexivity|]. split; [intros; now rewrite L2|]. split; [|split; [|split]].
      * intros e1 m O N. inversion O as [? ?|? ? ? c ? ? Hc Ho]; subst; [contradiction|]. exact (L3 c Hc e1 m Ho).
      * intros x Hx. apply L4. intros X. apply Hx. now right.
      * intros u Hu. apply L5. intros o' Ho'. apply Hu; [now right|]. cbn. intros ->. cbn in ND. inversion ND; subst. contradiction.
      * intros x Hx. apply L6. intros X. apply Hx. now right.
Qed.

Theorem getUnitary_post n : tidy n -> forall s, Inv s (env s) n ->
  exists s', getUnitary n s = Ok (Some (fresh (env s) n), s') /\ post s s' n.
Proof.
  revert n. refine (children_ind _ _). intros n IHn.
  intros T s I. rewrite getUnitary_eq. cbn zeta.
  set (us := updates (nid n)).
  assert (NDu : NoDup (map u_first us)) by apply simple.
  destruct (setups_spec us NDu s) as (S1 & S2 & S3 & S4 & S5 & S6 & S7). cbn zeta in *.
  set (s1 := setups us s) in *.
  destruct (updated n s1) as [b s2] eqn:EU.
  destruct (updated_spec n s1 b s2 EU) as ((A1 & A2 & A3 & A4) & B & C).
  assert (M12 : mono s s2) by (eapply mono_trans; eauto).
  assert (K : exists s3, (if runCreate b (nid n) s2 then bind (create n s2) (fun x => Ok (setMat (nid n) (Some (mul (fst x) one)) (snd x))) else Ok s2) = Ok s3 /\
     (forall p, env s3 p = env s2 p) /\ Good s3 (env s) n /\ (forall x, ~ In x (ids n) -> mat s3 x = mat s2 x) /\
     (forall u, (forall o, In o (ids n) -> o <> nid n -> ~ In u (updates o)) -> mem s3 u = mem s2 u) /\
     (forall x, ~ In x (ids n) -> flag s2 x = true -> flag s3 x = true) /\ mat s3 (nid n) = Some (fresh (env s) n)).
  { unfold ProtModel.runCreate. rewrite not_fixed.
    assert (Run : exists s3, bind (create n s2) (fun x => Ok (setMat (nid n) (Some (mul (fst x) one)) (snd x))) = Ok s3 /\
     (forall p, env s3 p = env s2 p) /\ Good s3 (env s) n /\ (forall x, ~ In x (ids n) -> mat s3 x = mat s2 x) /\
     (forall u, (forall o, In o (ids n) -> o <> nid n -> ~ In u (updates o)) -> mem s3 u = mem s2 u) /\
     (forall x, ~ In x (ids n) -> flag s2 x = true -> flag s3 x = true) /\ mat s3 (nid n) = Some (fresh (env s) n)).
    { destruct (create_post n s2 T) with (E := env s) as (s3 & Q1 & Q2 & Q3 & Q4 & Q5 & Q6).
      - intros k c Hc Tc. exact (IHn k c Hc Tc).
      - intros p. rewrite A1, S1. reflexivity.
      - intros e1 m O N Cm. unfold okm. rewrite A2, S4. apply (I e1 m O). intros x Hx. specialize (Cm x Hx).
        destruct (flag s x) eqn:Q; auto. apply M12 in Q. congruence.
      - rewrite Q1. cbn [bind fst snd]. eexists. split; [reflexivity|]. cbn. rewrite one_r. repeat split; auto.
        + intros e1 m O. destruct (occ_strict _ _ _ _ (tidy_nodup _ T) O) as [(<- & ->)|N].
          * unfold okm. cbn. rewrite set_same. auto.
          * unfold okm. cbn. rewrite set_other; [|intros X; apply N; rewrite <- X; apply nid_ids].
            apply Q3; auto. intros ->. apply N. apply nid_ids.
        + intros x Hx. rewrite set_other; auto. intros ->. apply Hx. apply nid_ids.
        + now rewrite set_same. }
    destruct b; [exact Run|]. cbn. destruct (mat s2 (nid n)) as [m|] eqn:Em; [|exact Run].
    exists s2. split; auto.
    assert (Cs : clean s n). { intros x Hx. specialize (C eq_refl x Hx). destruct (flag s x) eqn:Q; auto. apply S7 in Q. congruence. }
    assert (G : Good s2 (env s) n). { apply (Good_frame s); [intros; rewrite A2, S4; auto|]. now apply Inv_Good. }
    repeat split; auto. rewrite Em. destruct (G _ _ (occ_here _ n)) as [X|X]; congruence. }
  destruct K as (s3 & K1 & K2 & K3 & K4 & K5 & K6 & K7). rewrite K1. cbn [bind].
  destruct (setbacks_spec us (env s) NDu s3) as (R1 & R2 & R3 & R4 & R5).
  { intros q Hq. rewrite K2, A1. auto. }
  { intros u Hu. rewrite K2, A1, K5, A4; auto. intros o Ho N X. apply N. eapply (proj2 (proj2 simple)); eauto. }
  cbn zeta in *. set (s4 := setbacks us s3) in *.
  destruct (toFalse_spec n s4) as ((F1 & F2 & F3 & F4) & F5).
  eexists. split; [rewrite F2, R2, K7; reflexivity|].
  unfold post. repeat split.
  - intros p. rewrite F1. auto.
  - apply (Good_frame s3); auto. intros; now rewrite F2, R2.
  - intros x Hx. rewrite F2, R2, K4, A2, S4; auto.
  - intros u Hu. rewrite F4, R4, K5, A4, S6; auto. apply Hu. apply nid_ids.
  - intros x Hx Q. rewrite F5 by auto. apply R5. apply K6; auto.
  - now rewrite F2, R2, K7.
Qed.

(** *** histories *)
Notation history := (history M V mul one adj shape veq leafU dep updates u_first u_rest u_val fixed).
Notation expected := (expected M V mul one adj leafU updates u_first u_rest u_val).

Lemma leaves_allids n x : In x (leaves n) -> In x (allids n).
Proof.
  revert x. induction n as [o|o items IH] using node_ind'; intros x; cbn; auto. intros H. right.
  apply in_flat_map in H. destruct H as ((k & c) & Hc & Hx). apply in_flat_map. exists (k, c). split; auto. eapply IH; eauto.
Qed.
Lemma Inv_set p v s n : Inv s (env s) n -> Inv (setParam p v s) (env (setParam p v s)) n.
Proof.
  intros I. unfold ProtModel.setParam. destruct (veq v (env s p)); auto. intros e1 m O C. unfold okm. cbn [mat].
  cbn [env] in O.
  destruct (occ_agree (fun q => q <> p) _ _ _ _ O (env s)) as (e1' & A & B).
  { intros q Hq. now apply set_other. }
  assert (Cs : forall x, In x (allids m) -> flag s x = false /\ ~ In x (dep p)).
  { intros x Hx. specialize (C x Hx). cbn in C. destruct (existsb (Nat.eqb x) (dep p)) eqn:E; [discriminate|].
    split; auto. intros X. assert (existsb (Nat.eqb x) (dep p) = true); [|congruence]. apply existsb_exists. exists x.
    split; auto. apply Nat.eqb_refl. }
  assert (F : fresh e1' m = fresh e1 m).
  { apply fresh_dep. intros x q Hx Hq. symmetry. apply B. intros ->. apply (Cs x); auto. now apply leaves_allids. }
  destruct (I e1' m A) as [X|X]; [intros x Hx; apply Cs; auto|now left|right]. now rewrite X, F.
Qed.
Lemma roots_disjoint rs n n' : NoDup (flat_map ids rs) -> In n rs -> In n' rs -> n = n' \/ (forall x, In x (ids n) -> ~ In x (ids n')).
Proof.
  intros ND H H'. destruct (steps_same_or_disjoint (map (fun n => (None, n)) rs) n n').
  - unfold stepIds. rewrite flat_map_concat_map, map_map in *. exact ND.
  - apply in_map_iff. eauto.
  - apply in_map_iff. eauto.
  - auto.
  - auto.
Qed.
Lemma post_all rs n s s' : separate rs -> In n rs -> post s s' n ->
  (forall r, In r rs -> Inv s (env s) r) -> forall r, In r rs -> Inv s' (env s') r.
Proof.
  intros (T & ND) Hn (P1 & P2 & P3 & P4 & P5 & P6) I r Hr.
  apply (Inv_ext s' (env s)); [intros; symmetry; auto|].
  destruct (roots_disjoint rs r n ND Hr Hn) as [->|D]; [now apply Good_Inv|].
  apply (Inv_frame s); auto.
Qed.
Lemma expected_ext ops : forall e e', (forall p, e p = e' p) -> expected ops e = expected ops e'.
Proof.
  induction ops as [|[p v| |n|n] r IH]; intros e e' H; cbn; auto.
  - apply IH. intros q. unfold ProtSpec.assign. destruct (_ =? _); auto.
  - f_equal; auto. f_equal. now apply fresh_ext.
  - f_equal; auto. f_equal. now apply fresh_ext.
Qed.
Lemma written_ext ops : forall e e' : nat -> V, (forall p, e p = e' p) -> forall p, written V ops e p = written V ops e' p.
Proof.
  induction ops as [|[q v| |n|n] r IH]; intros e e' H; cbn; auto.
  apply IH. intros x. unfold ProtSpec.assign. destruct (_ =? _); auto.
Qed.
Theorem history_fresh rs ops : separate rs -> requests_in V rs ops -> forall s,
  (forall r, In r rs -> Inv s (env s) r) ->
  exists s', history ops s = Ok (expected ops (env s), s') /\ (forall p, env s' p = written V ops (env s) p) /\
    (forall r, In r rs -> Inv s' (env s') r).
Proof.
  intros Sep R. induction ops as [|a ops IH]; intros s I; [exists s; auto|].
  inversion R as [|? ? Ra Rr]; subst. specialize (IH Rr).
  assert (Req : forall n f, In n rs -> (exists s', f = Ok (Some (fresh (env s) n), s') /\ post s s' n) ->
     exists s', bind f (fun x => bind (history ops (snd x)) (fun y => Ok (fst x :: fst y, snd y)))
      = Ok (Some (fresh (env s) n) :: expected ops (env s), s') /\ (forall p, env s' p = written V ops (env s) p) /\
        (forall r, In r rs -> Inv s' (env s') r)).
  { intros n f Hn (s' & -> & Hp). cbn [bind fst snd].
    destruct (IH s' (post_all rs n s s' Sep Hn Hp I)) as (s'' & H1 & H2 & H3). rewrite H1. cbn. exists s''.
    destruct Hp as (P1 & _). rewrite (expected_ext ops (env s') (env s)) by auto. repeat split; auto.
    intros p. rewrite H2. now apply written_ext. }
  destruct a as [p v| |n|n]; cbn [ProtSpec.history ProtSpec.expected ProtSpec.written].
  - destruct (IH (setParam p v s)) as (s' & H1 & H2 & H3); [intros; apply Inv_set; auto|].
    pose proof (proj1 (setParam_spec p v s)) as E.
    exists s'. rewrite H1. rewrite (expected_ext ops _ _ E). repeat split; auto.
    intros q. rewrite H2. now apply written_ext.
  - apply (IH (delMatrices M V s)). intros r Hr e1 m O C. now left.
  - apply (Req n); auto. apply unitary_with_post; auto; [apply (proj1 Sep); auto|]. intros; apply getUnitary_post; auto.
    apply (proj1 Sep); auto.
  - apply (Req n); auto. apply getUnitary_post; auto. apply (proj1 Sep); auto.
Qed.
Corollary history_fresh_start rs ops s : separate rs -> requests_in V rs ops -> unused M V s ->
  exists s', history ops s = Ok (expected ops (env s), s') /\ (forall p, env s' p = written V ops (env s) p).
Proof.
  intros Sep R U. destruct (history_fresh rs ops Sep R s) as (s' & A & B & _); eauto.
  intros r _ e1 m _ _. left. apply U.
Qed.
End P.



(** *** the ordered product of the leaves *)
Section Flat.
Variables M V : Type.
Variable mul : M -> M -> M.
Variable one : M.
Variable adj : M -> M.
Variable leafU : (nat -> V) -> nat -> M.
Hypothesis assoc : forall a b c, mul a (mul b c) = mul (mul a b) c.
Hypothesis one_l : forall m, mul one m = m.
Hypothesis one_r : forall m, mul m one = m.
Notation ordered := (ordered M mul one).

Lemma fold_ordered l : forall acc, fold_left (fun acc u => mul u acc) l acc = mul (ordered l) acc.
Proof.
  unfold ProtSpec.ordered. induction l as [|u l IH]; intros acc; cbn; [now rewrite one_l|].
  rewrite IH, (IH (mul u one)), one_r. apply assoc.
Qed.
Lemma ordered_app a b : ordered (a ++ b) = mul (ordered b) (ordered a).
Proof. unfold ProtSpec.ordered at 1. rewrite fold_left_app, fold_ordered. reflexivity. Qed.

(** No adjoint copies anywhere. *)
Fixpoint plain (n : node) : Prop :=
  match n with
  | Leaf _ => True
  | Prot _ items => (fix all l := match l with [] => True | (k, c) :: r => k <> Some true /\ plain c /\ all r end) items
  end.
Variable updates : nat -> list nat.
Variable u_first : nat -> nat.
Variable u_rest : nat -> list nat.
Variable u_val : nat -> V.
Notation fresh := (fresh M V mul one adj leafU updates u_first u_rest u_val).
Lemma flat_product e n : plain n -> (forall o, In o (allids n) -> updates o = []) ->
  fresh e n = ordered (map (leafU e) (leaves n)).
Proof.
  intros P. induction n as [o|o items IH] using node_ind'; intros N.
  - cbn. unfold updatedEnv. rewrite N by now left. unfold ProtSpec.ordered. cbn. now rewrite one_r.
  - cbn in P. cbn [ProtSpec.fresh leaves]. unfold updatedEnv. rewrite N by now left. cbn [fold_left].
    assert (IH' : forall k c, In (k, c) items -> plain c -> fresh e c = ordered (map (leafU e) (leaves c))).
    { intros k c Hc Pc. apply (IH k c Hc Pc). intros o' Ho. apply N. right. apply in_flat_map. exists (k, c). auto. }
    clear IH N. induction items as [|[k c] r IHr]; [reflexivity|]. destruct P as (Pk & Pc & Pr).
    cbn [flat_map map fst snd]. rewrite map_app, ordered_app.
    rewrite <- IHr by (auto; intros k' c' Hc'; apply (IH' k' c'); now right).
    rewrite <- (IH' k c (or_introl eq_refl) Pc).
    match goal with |- ordered (?x :: ?l) = _ => change (x :: l) with ([x] ++ l) end. rewrite ordered_app. f_equal.
    destruct k as [[|]|]; [congruence| |]; unfold ProtSpec.ordered; cbn; now rewrite one_r.
Qed.
End Flat.
