(** Lemmas for TimeDepModel.v. *)
From Coq Require Import QArith Lia.
From Verif Require Import Py TimeModel ProtModel ProtSpec ProtProofs TimeDepModel TimeDepSpec.
#[local] Open Scope nat_scope.

Lemma sysT_ind' (P : sysT -> Prop) :
  (forall m subs terms, (forall x, In x subs -> P x) -> P (Sys m subs terms)) -> forall x, P x.
Proof.
  intros H. fix IH 1. intros [m subs terms]. apply H.
  induction subs as [|y r IHr]; [intros x []|]. intros x [<-|Hx]; [apply IH|exact (IHr x Hx)].
Qed.

Section P.
Variables M V State : Type.
Variable mul : M -> M -> M.
Variable one : M.
Variable adj : M -> M.
Variable shape : M -> nat * nat.
Variable veq : V -> V -> bool.
Variable leafU : (nat -> V) -> nat -> M.
Variable dep : nat -> list nat.
Variable updates : nat -> list nat.
Variable u_first : nat -> nat.
Variable u_rest : nat -> list nat.
Variable u_val : nat -> V.
Variable fixed : nat -> bool.
Variable act : M -> State -> State.
Variable tdf : nat -> option (Q -> list (nat * V)).
Variable superOf : nat -> option sysT.
Notation st := (ProtModel.st M V).
Notation setParam := (setParam M V veq dep).
Notation setAll := (setAll M V veq dep).
Notation setup := (setup M V veq dep u_first u_rest u_val).
Notation setback := (setback M V veq dep u_first u_rest u_val).
Notation setups := (setups M V veq dep u_first u_rest u_val).
Notation setbacks := (setbacks M V veq dep u_first u_rest u_val).
Notation updated := (updated M V).
Notation toFalse := (toFalse M V).
Notation readFlags := (readFlags M V).
Notation writeFlags := (writeFlags M V).
Notation setMat := (setMat M V).
Notation readHc := (readHc M V adj shape).
Notation unitary_with := (unitary_with M V fixed).
Notation copy_with := (copy_with M V adj shape fixed).
Notation getUnitary := (getUnitary M V mul one adj shape veq leafU dep updates u_first u_rest u_val fixed).
Notation unitary := (unitary M V mul one adj shape veq leafU dep updates u_first u_rest u_val fixed).
Notation fresh := (fresh M V mul one adj leafU updates u_first u_rest u_val).
Notation runCreate := (runCreate M V fixed).
Notation history := (history M V mul one adj shape veq leafU dep updates u_first u_rest u_val fixed).
Notation expected := (expected M V mul one adj leafU updates u_first u_rest u_val).
Notation sysTd := (sysTd M V veq dep tdf).
Notation hook := (hook M V veq dep tdf superOf).
Notation getUnitaryT := (getUnitaryT M V mul one adj shape veq leafU dep updates u_first u_rest u_val fixed tdf superOf).
Notation unitaryT := (unitaryT M V mul one adj shape veq leafU dep updates u_first u_rest u_val fixed tdf superOf).
Notation evolveAll := (evolveAll M V State mul one adj shape veq leafU dep updates u_first u_rest u_val fixed act tdf superOf).
Notation evolve := (evolve M V State mul one adj shape veq leafU dep updates u_first u_rest u_val fixed act tdf superOf).
Notation gives := (gives V tdf).
Notation atTime := (atTime V tdf).
Notation oneValue := (oneValue V tdf).
Notation Inv := (Inv M V mul one adj leafU updates u_first u_rest u_val).
Notation rest_same := (rest_same M V).
Notation mono := (mono M V).

Hypothesis veq_eq : forall x y, veq x y = true <-> x = y.
Hypothesis simple : simple_updates updates u_first u_rest.

(** *** What a system assigns, as a list *)
Definition termW (t : Q) (ter : nat) : list (nat * V) := match tdf ter with Some f => f t | None => [] end.
Fixpoint wlist (t : Q) (x : sysT) : list (nat * V) :=
  match x with Sys _ subs terms => flat_map (wlist t) subs ++ flat_map (termW t) terms end.
Definition setW (l : list (nat * V)) (s : st) : st := fold_left (fun s e => setParam (fst e) (snd e) s) l s.
Lemma setW_app a b s : setW (a ++ b) s = setW b (setW a s).
Proof. unfold setW. now rewrite fold_left_app. Qed.
Lemma sysTd_W t x : forall s, sysTd t x s = setW (wlist t x) s.
Proof.
  induction x as [m subs terms IH] using sysT_ind'. intros s. cbn [TimeDepModel.sysTd wlist]. rewrite setW_app.
  assert (A : forall s, fold_left (fun s y => sysTd t y s) subs s = setW (flat_map (wlist t) subs) s).
  { induction subs as [|y r IHr]; intros s0; [reflexivity|]. cbn [fold_left flat_map]. rewrite setW_app.
    rewrite <- IH by now left. apply IHr. intros; apply IH; now right. }
  rewrite A. generalize (setW (flat_map (wlist t) subs) s). clear.
  induction terms as [|ter r IHr]; intros s; [reflexivity|]. cbn [fold_left flat_map]. rewrite setW_app.
  rewrite IHr. f_equal. unfold termTd, termW. now destruct (tdf ter).
Qed.
Lemma wlist_gives t x p v : In (p, v) (wlist t x) <-> gives x t p v.
Proof.
  split.
  - induction x as [m subs terms IH] using sysT_ind'. cbn [wlist]. rewrite in_app_iff. intros [H|H].
    + apply in_flat_map in H. destruct H as (y & Hy & H). destruct (IH y Hy H) as (ter & f & A & B & C).
      exists ter, f. split; auto. eapply term_sub; eauto.
    + apply in_flat_map in H. destruct H as (ter & Hy & H). unfold termW in H. destruct (tdf ter) as [f|] eqn:E; [|contradiction].
      exists ter, f. split; auto. now apply term_here.
  - intros (ter & f & A & B & C). induction A as [m subs terms A|y m subs terms A1 A2 IH]; cbn [wlist]; apply in_app_iff.
    + right. apply in_flat_map. exists ter. split; auto. unfold termW. now rewrite B.
    + left. apply in_flat_map. exists y. auto.
Qed.

Definition Ag (t : Q) (x : sysT) (s : st) := forall p v, gives x t p v -> env s p = v.
Lemma setW_same l s : (forall p v, In (p, v) l -> env s p = v) -> setW l s = s.
Proof.
  unfold setW. induction l as [|[p v] l IH]; intros H; [reflexivity|]. cbn [fold_left fst snd].
  assert (E : setParam p v s = s).
  { unfold ProtModel.setParam. rewrite (proj2 (veq_eq v (env s p))); auto. symmetry. apply H. now left. }
  rewrite E. apply IH. intros; apply H; now right.
Qed.
Lemma setW_env l : forall s p, (forall v, ~ In (p, v) l) -> env (setW l s) p = env s p.
Proof.
  unfold setW. induction l as [|[q w] l IH]; intros s p H; [reflexivity|]. cbn [fold_left fst snd].
  rewrite IH by (intros v X; apply (H v); now right).
  destruct (setParam_spec M V veq dep veq_eq q w s) as (A & _). rewrite A. unfold assign.
  destruct (Nat.eqb_spec p q); auto. subst. exfalso. apply (H w). now left.
Qed.
Lemma setW_value l : (forall p v v', In (p, v) l -> In (p, v') l -> v = v') ->
  forall s p v, In (p, v) l -> env (setW l s) p = v.
Proof.
  induction l as [|[q w] l IH]; intros C s p v H; [contradiction|].
  change (setW ((q, w) :: l) s) with (setW l (setParam q w s)).
  assert (D : (exists v', In (p, v') l) \/ (forall v', ~ In (p, v') l)).
  { clear. induction l as [|[q w] l [(v & H)|H]]; [right; auto|left; exists v; now right|].
    destruct (Nat.eq_dec q p) as [->|N]; [left; exists w; now left|]. right. intros v [E|X]; [congruence|now apply (H v)]. }
  destruct D as [(v' & D)|D].
  - rewrite (IH (fun p a b Ha Hb => C p a b (or_intror Ha) (or_intror Hb)) _ p v' D). apply (C p); auto. now right.
  - rewrite setW_env by auto. destruct H as [E|H]; [|now apply D in H]. injection E as -> ->.
    destruct (setParam_spec M V veq dep veq_eq p v s) as (A & _). rewrite A. unfold assign. now rewrite Nat.eqb_refl.
Qed.
Lemma Ag_set t x s : oneValue x -> Ag t x (sysTd t x s).
Proof.
  intros (C & _) p v H. rewrite sysTd_W. apply setW_value; [|now apply wlist_gives].
  intros q a b Ha Hb. apply wlist_gives in Ha, Hb. eauto.
Qed.
Lemma within_gives y x t p v : within y x -> gives y t p v -> gives x t p v.
Proof.
  intros W (ter & f & A & B). exists ter, f. split; [|exact B]. clear B.
  induction W; auto. eapply term_sub; eauto.
Qed.
Lemma hook_same now o y x t s : superOf o = Some y -> now (simOf y) = t -> within y x -> Ag t x s -> hook now o s = s.
Proof.
  intros E T W A. unfold TimeDepModel.hook. rewrite E, T, sysTd_W. apply setW_same. intros p v H.
  apply A. eapply within_gives; eauto. now apply wlist_gives.
Qed.

(** *** With the values already there, the calls inside change nothing *)
Section Same.
Variable now : nat -> Q.
Variable x : sysT.
Variable t : Q.
Notation Ag := (Ag t x).
Lemma Ag_same s s' : (forall p v, gives x t p v -> env s' p = env s p) -> Ag s -> Ag s'.
Proof. intros H A p v G. rewrite (H p v G). auto. Qed.
Lemma Ag_rest s s' : rest_same s s' -> Ag s -> Ag s'.
Proof. intros (E & _) A p v G. rewrite E. auto. Qed.
Definition quiet (us : list nat) := forall u, In u us -> forall v, ~ gives x t (u_first u) v.
Lemma Ag_setAll u v s : (forall v, ~ gives x t (u_first u) v) -> Ag s -> Ag (setAll (u_first u :: u_rest u) v s).
Proof.
  intros H. apply Ag_same. intros p w G. rewrite (proj1 simple).
  destruct (setAll_spec M V veq dep veq_eq [u_first u] v s) as (A & _). rewrite A. cbn. unfold assign.
  destruct (Nat.eqb_spec p (u_first u)); auto. subst. now apply H in G.
Qed.
Lemma Ag_setups us : quiet us -> forall s, Ag s -> Ag (setups us s).
Proof.
  unfold ProtModel.setups. induction us as [|u us IH]; intros Q s A; [exact A|]. cbn [fold_left].
  apply IH; [intros w Hw; apply Q; now right|]. unfold ProtModel.setup. apply Ag_setAll; [apply Q; now left|]. exact A.
Qed.
Lemma Ag_setbacks us : quiet us -> forall s, Ag s -> Ag (setbacks us s).
Proof.
  unfold ProtModel.setbacks. induction us as [|u us IH]; intros Q s A; [exact A|]. cbn [fold_left].
  apply IH; [intros w Hw; apply Q; now right|]. unfold ProtModel.setback. destruct (veq _ _); [exact A|].
  apply Ag_setAll; [apply Q; now left|]. exact A.
Qed.
Lemma unitary_with_same n g1 g2 s : (forall s, Ag s -> g1 s = g2 s /\ forall r s', g2 s = Ok (r, s') -> Ag s') ->
  Ag s -> unitary_with g1 n s = unitary_with g2 n s /\ forall r s', unitary_with g2 n s = Ok (r, s') -> Ag s'.
Proof.
  intros H A. unfold ProtModel.unitary_with. destruct (updated n s) as [b s1] eqn:E.
  destruct (updated_spec M V mul one adj shape leafU dep u_val fixed n s b s1 E) as (R & _). pose proof (Ag_rest _ _ R A) as A1.
  destruct (H s1 A1) as (-> & K). split; [reflexivity|]. intros r s'.
  assert (Z : bind (g2 s1) (fun r => let s2 := setMat (nid n) (fst r) (snd r) in Ok (mat s2 (nid n), s2)) = Ok (r, s') -> Ag s').
  { destruct (g2 s1) as [[r1 s2]|] eqn:G; cbn; [|discriminate]. intros [= <- <-]. exact (K _ _ eq_refl). }
  destruct b.
  - destruct (fixed _); [intros [= _ <-]; exact A1|exact Z].
  - destruct (mat s1 _); [intros [= _ <-]; exact A1|exact Z].
Qed.
Lemma readHc_Ag o s r s' : readHc o s = Ok (r, s') -> Ag s -> Ag s'.
Proof.
  unfold ProtModel.readHc. destruct (mat s o); [|discriminate]. destruct (mhc s o) as [h|]; [destruct (_ && _)%bool|];
    intros [= _ <-]; auto.
Qed.
Definition itemT (cp : option bool) (c : node) (s : st) : result (option M * st) :=
  match cp with None => getUnitaryT now c s | Some h => copy_with (getUnitaryT now c) h c (hook now (nid c) s) end.
Fixpoint loopT (l : list (option bool * node)) (acc : M) (s : st) : result (M * st) :=
  match l with
  | [] => Ok (acc, s)
  | (cp, c) :: r =>
      let (vals, sa) := readFlags r s in
      bind (itemT cp c sa) (fun x => match fst x with
        | None => Err TypeError
        | Some u => loopT r (mul u acc) (writeFlags r vals (snd x))
        end)
  end.
Definition createT (n : node) (s : st) : result (M * st) :=
  match n with Leaf o => Ok (leafU (env s) o, s) | Prot o items => loopT items one s end.
Lemma getUnitaryT_eq n s0 : getUnitaryT now n s0 =
  let s := hook now (nid n) s0 in
  let s1 := setups (updates (nid n)) s in
  let (b, s2) := updated n s1 in
  bind (if runCreate b (nid n) s2 then bind (createT n s2) (fun x => Ok (setMat (nid n) (Some (mul (fst x) one)) (snd x))) else Ok s2)
    (fun s3 => let s4 := toFalse n (setbacks (updates (nid n)) s3) in Ok (mat s4 (nid n), s4)).
Proof. destruct n; reflexivity. Qed.
Notation loop := (loop M V mul one adj shape veq leafU dep updates u_first u_rest u_val fixed).
Notation itemU := (itemU M V mul one adj shape veq leafU dep updates u_first u_rest u_val fixed).
Notation create := (create M V mul one adj shape veq leafU dep updates u_first u_rest u_val fixed).

Lemma getUnitaryT_same n : (forall o, In o (allids n) -> forall s, Ag s -> hook now o s = s) ->
  (forall o, In o (allids n) -> quiet (updates o)) ->
  forall s, Ag s -> getUnitaryT now n s = getUnitary n s /\ forall r s', getUnitary n s = Ok (r, s') -> Ag s'.
Proof.
  revert n. refine (children_ind _ _). intros n IHn HK QT s A.
  assert (Hn : In (nid n) (allids n)) by (destruct n; cbn; auto).
  rewrite getUnitaryT_eq, getUnitary_eq. rewrite (HK _ Hn s A). cbn zeta.
  pose proof (Ag_setups _ (QT _ Hn) s A) as A1. set (s1 := setups (updates (nid n)) s) in *.
  destruct (updated n s1) as [b s2] eqn:EU. destruct (updated_spec M V mul one adj shape leafU dep u_val fixed n s1 b s2 EU) as (R & _).
  pose proof (Ag_rest _ _ R A1) as A2.
  assert (L : createT n s2 = create n s2 /\ forall y, create n s2 = Ok y -> Ag (snd y)).
  { destruct n as [o|o items]; cbn [createT ProtProofs.create]; [split; auto; intros y [= <-]; auto|].
    assert (G : forall l, incl l items -> forall acc sa, Ag sa -> loopT l acc sa = loop l acc sa /\ forall y, loop l acc sa = Ok y -> Ag (snd y)).
    { induction l as [|[cp c] l IHl]; intros Hi acc sa Aa; cbn [loopT ProtProofs.loop].
      - split; auto. intros y [= <-]. exact Aa.
      - destruct (readFlags l sa) as [vals sb] eqn:RF. destruct (readFlags_spec M V mul one adj shape leafU dep u_val fixed l sa vals sb RF) as (B & _).
        pose proof (Ag_rest _ _ B Aa) as Ab.
        assert (Hc : In (cp, c) items) by (apply Hi; now left).
        assert (Sub : forall z, In z (allids c) -> In z (allids (Prot o items))).
        { intros z Hz. cbn. right. apply in_flat_map. exists (cp, c). auto. }
        assert (IHc : forall s, Ag s -> getUnitaryT now c s = getUnitary c s /\ forall r s', getUnitary c s = Ok (r, s') -> Ag s').
        { apply (IHn cp c); [eauto| |]; intros; [apply HK|apply QT]; auto. }
        assert (Kc : itemT cp c sb = itemU cp c sb /\ forall r s', itemU cp c sb = Ok (r, s') -> Ag s').
        { destruct cp as [h|]; cbn [itemT ProtProofs.itemU]; [|apply IHc; exact Ab].
          rewrite (HK (nid c)); [|apply Sub; destruct c; cbn; auto|exact Ab].
          destruct (unitary_with_same c _ _ sb IHc Ab) as (U1 & U2).
          unfold ProtModel.copy_with. rewrite U1. split; [reflexivity|]. intros r s'.
          destruct (unitary_with (getUnitary c) c sb) as [[r1 sd]|] eqn:UW; cbn [bind]; [|discriminate].
          specialize (U2 _ _ eq_refl). cbn [snd]. destruct h; [|intros [= _ <-]; exact U2].
          intros HC. eapply readHc_Ag; eauto. }
        destruct Kc as (-> & K2).
        destruct (itemU cp c sb) as [[ru sc]|] eqn:IU; cbn [bind]; [|split; [reflexivity|discriminate]].
        specialize (K2 _ _ eq_refl). cbn [fst snd]. destruct ru as [u|]; [|split; [reflexivity|discriminate]].
        apply IHl; [intros z Hz; apply Hi; now right|].
        eapply Ag_rest; [exact (proj1 (writeFlags_spec M V mul one adj shape leafU dep u_val fixed l vals sc))|exact K2]. }
    apply G; [apply incl_refl|exact A2]. }
  destruct L as (-> & L2). split; [reflexivity|]. intros r s'.
  destruct (if runCreate b (nid n) s2 then _ else _) as [s3|] eqn:ER; cbn [bind]; [|discriminate].
  intros [= _ <-].
  assert (A3 : Ag s3).
  { destruct (runCreate b (nid n) s2); [|injection ER as <-; auto].
    destruct (create n s2) as [y|] eqn:EC; cbn [bind] in ER; [|discriminate].
    injection ER as <-. exact (L2 _ eq_refl). }
  eapply Ag_rest; [exact (proj1 (toFalse_spec M V mul one adj shape leafU dep u_val fixed n (setbacks (updates (nid n)) s3)))|].
  apply Ag_setbacks; auto.
Qed.
End Same.

Hypothesis bounds : complete_bounds M V leafU dep.
Hypothesis one_r : forall m, mul m one = m.
Hypothesis not_fixed : forall o, fixed o = false.
Variable rs : list node.
Hypothesis Sep : separate rs.
(** The system of every protocol. *)
Variable top : node -> sysT.
Hypothesis Top : forall n, In n rs -> superOf (nid n) = Some (top n).
Hypothesis One : forall n, In n rs -> oneValue (top n).
Hypothesis Sub : forall n o y, In n rs -> In o (allids n) -> superOf o = Some y -> within y (top n).
Hypothesis Upd : forall n o u t v, In n rs -> In o (allids n) -> In u (updates o) -> ~ gives (top n) t (u_first u) v.
(** A protocol does not depend on what only another system's functions change. *)
Hypothesis Other : forall n n' t p v o, In n rs -> In n' rs -> gives (top n') t p v -> In o (leaves n) -> In o (dep p) ->
  exists v', gives (top n) t p v'.

Definition AllInv (s : st) := forall r, In r rs -> Inv s (env s) r.
Lemma step_ok now n t s : In n rs -> (forall o y, In o (allids n) -> superOf o = Some y -> now (simOf y) = t) -> AllInv s ->
  exists e' s', unitaryT now n s = Ok (Some (fresh e' n), s') /\ AllInv s' /\ (forall p, env s' p = e' p) /\
    (forall p v, gives (top n) t p v -> e' p = v) /\ (forall p, (forall v, ~ gives (top n) t p v) -> e' p = env s p).
Proof.
  intros Hn Now I. set (x := top n).
  assert (HK : forall o, In o (allids n) -> forall s, Ag t x s -> hook now o s = s).
  { intros o Ho s0 A. destruct (superOf o) as [y|] eqn:E; [|unfold TimeDepModel.hook; now rewrite E].
    apply (hook_same now o y x t); auto; [eapply Now; eauto|eapply Sub; eauto]. }
  assert (QT : forall o, In o (allids n) -> quiet x t (updates o)).
  { intros o Ho u Hu v. eapply Upd; eauto. }
  assert (Hid : In (nid n) (allids n)) by (destruct n; cbn; auto).
  unfold TimeDepModel.unitaryT.
  assert (HH : hook now (nid n) s = sysTd t x s).
  { unfold TimeDepModel.hook. rewrite (Top n Hn). now rewrite (Now (nid n) (top n) Hid (Top n Hn)). }
  rewrite HH. pose proof (Ag_set t x s (One n Hn)) as A.
  destruct (unitary_with_same x t n _ _ _ (getUnitaryT_same now x t n HK QT) A) as (-> & _).
  set (l := wlist t x).
  destruct (history_fresh M V mul one adj shape veq leafU dep updates u_first u_rest u_val fixed veq_eq simple bounds one_r not_fixed
      rs (map (fun e => OSet (fst e) (snd e)) l ++ [OUnitary n]) Sep) with (s := s) as (s' & H1 & H2 & H3); auto.
  { apply Forall_app. split; [|repeat constructor; auto]. apply Forall_forall. intros o Ho. apply in_map_iff in Ho.
    destruct Ho as (e & <- & _). exact Logic.I. }
  assert (G1 : forall l s, history (map (fun e => OSet (fst e) (snd e)) l ++ [OUnitary n]) s =
             bind (unitary n (setW l s)) (fun y => Ok ([fst y], snd y))).
  { clear. induction l as [|e l IH]; intros s; cbn; [|apply IH].
    destruct (ProtModel.unitary _ _ _ _ _ _ _ _ _ _ _ _ _ _ n s) as [[r s']|]; reflexivity. }
  assert (G2 : forall l e, exists e', expected (map (fun e => OSet (fst e) (snd e)) l ++ [OUnitary n]) e = [Some (fresh e' n)] /\
             written V (map (fun e => OSet (fst e) (snd e)) l ++ [OUnitary n]) e = e' /\
             forall s, (forall p, env s p = e p) -> forall p, env (setW l s) p = e' p).
  { clear -veq_eq. induction l as [|[q w] l IH]; intros e; [exists e; cbn; auto|]. cbn.
    destruct (IH (assign V e q w)) as (e' & E1 & E2 & E3). exists e'. split; [exact E1|split; [exact E2|]].
    intros s Hs. apply E3. intros p. destruct (setParam_spec M V veq dep veq_eq q w s) as (B & _). rewrite B.
    unfold assign. destruct (_ =? _); auto. }
  destruct (G2 l (env s)) as (e' & E1 & E2 & E3). specialize (E3 s (fun p => eq_refl)).
  rewrite G1, E1 in H1. rewrite E2 in H2.
  fold (unitary n (sysTd t x s)). rewrite sysTd_W. fold l.
  destruct (unitary n (setW l s)) as [[r s1]|] eqn:EU; cbn in H1; [|discriminate]. injection H1 as -> ->.
  exists e', s'. repeat split; auto.
  - intros p v G. rewrite <- E3. rewrite <- (A p v G). now rewrite sysTd_W.
  - intros p G. rewrite <- E3. apply setW_env. intros v X. apply (G v). now apply wlist_gives.
Qed.

Definition kept (s0 s : st) := forall p, (forall n t v, In n rs -> ~ gives (top n) t p v) -> env s p = env s0 p.
Lemma gives_dec x t p : (exists v, gives x t p v) \/ (forall v, ~ gives x t p v).
Proof.
  assert (D : forall l : list (nat * V), (exists v', In (p, v') l) \/ (forall v', ~ In (p, v') l)).
  { clear. induction l as [|[q w] l [(v & H)|H]]; [right; auto|left; exists v; now right|].
    destruct (Nat.eq_dec q p) as [->|N]; [left; exists w; now left|]. right. intros v [E|X]; [congruence|now apply (H v)]. }
  destruct (D (wlist t x)) as [(v & H)|H]; [left; exists v; now apply wlist_gives|]. right. intros v X. apply (H v). now apply wlist_gives.
Qed.
Lemma written_once n t p : In n rs -> (forall v, ~ gives (top n) t p v) -> forall t' v, ~ gives (top n) t' p v.
Proof. intros Hn H t' v G. destruct (proj2 (One n Hn) t' t p v G) as (v' & G'). now apply (H v'). Qed.

Lemma step_from now n t s0 s : In n rs -> (forall o y, In o (allids n) -> superOf o = Some y -> now (simOf y) = t) ->
  AllInv s -> kept s0 s ->
  exists e s', unitaryT now n s = Ok (Some (fresh e n), s') /\ AllInv s' /\ kept s0 s' /\ atTime (top n) t (env s0) e.
Proof.
  intros Hn Now I K. destruct (step_ok now n t s Hn Now I) as (e' & s' & H1 & H2 & H3 & H4 & H5).
  pose (e := fun p => if existsb (Nat.eqb p) (map fst (wlist t (top n))) then e' p else env s0 p).
  assert (In1 : forall p, existsb (Nat.eqb p) (map fst (wlist t (top n))) = true <-> exists v, gives (top n) t p v).
  { intros p. rewrite existsb_exists. split.
    - intros (q & Hq & E). apply Nat.eqb_eq in E. subst q. apply in_map_iff in Hq. destruct Hq as ((q & v) & E & Hq). cbn in E. subst q.
      exists v. now apply wlist_gives.
    - intros (v & G). exists p. split; [|apply Nat.eqb_refl]. apply in_map_iff. exists (p, v). split; auto. now apply wlist_gives. }
  exists e, s'. split; [|split; [exact H2|split]].
  - rewrite H1. cut (fresh e' n = fresh e n); [now intros ->|]. apply (fresh_dep M V mul one adj leafU dep updates u_first u_rest u_val bounds).
    intros o p Ho Hp. unfold e. destruct (existsb _ _) eqn:E; [reflexivity|].
    assert (N : forall v, ~ gives (top n) t p v).
    { intros v G. assert (X : false = true) by (rewrite <- E; apply In1; eauto). discriminate. }
    rewrite (H5 p N). apply K. intros n' t' v Hn' G.
    destruct (Other n n' t' p v o Hn Hn' G Ho Hp) as (v' & G'). exact (written_once n t p Hn N t' v' G').
  - intros p Hp. rewrite H3, H5; [now apply K|]. intros v. now apply Hp.
  - split.
    + intros p v G. unfold e. replace (existsb _ _) with true by (symmetry; apply In1; eauto). now apply H4.
    + intros p N. unfold e. destruct (existsb _ _) eqn:E; [|reflexivity]. apply In1 in E. destruct E as (v & G). now apply N in G.
Qed.

Lemma nid_inj n n' : In n rs -> In n' rs -> nid n = nid n' -> n = n'.
Proof.
  intros H H' E. destruct (roots_disjoint M V one adj shape u_val rs n n' (proj2 Sep) H H') as [|D]; auto. exfalso.
  apply (D (nid n)); [apply nid_ids|]. rewrite E. apply nid_ids.
Qed.
Lemma nodup_nid ps : incl ps rs -> NoDup ps -> NoDup (map nid ps).
Proof.
  induction ps as [|n ps IH]; intros Hi ND; cbn; [constructor|]. inversion ND as [|? ? N1 N2]; subst. constructor.
  - intros X. apply in_map_iff in X. destruct X as (n' & E & X). apply N1. replace n with n'; auto. apply nid_inj; auto; apply Hi; [now right|now left].
  - apply IH; auto. intros z Hz. apply Hi. now right.
Qed.
Lemma nodup_rs : NoDup rs.
Proof.
  destruct Sep as (_ & ND). clear -ND one adj shape u_val. induction rs as [|n r IH]; [constructor|]. cbn in ND. constructor.
  - intros X. eapply (nodup_disj M V one adj shape u_val (ids n) (flat_map ids r)); [exact ND|apply nid_ids|]. apply in_flat_map. exists n. split; auto. apply nid_ids.
  - apply IH. eapply nodup_app_r; eauto.
Qed.

Lemma evolveAll_ok now t s0 : (forall n o y, In n rs -> In o (allids n) -> superOf o = Some y -> now (simOf y) = t) ->
  forall ps, incl ps rs -> NoDup (map nid ps) -> forall cur s, AllInv s -> kept s0 s ->
  exists cur' s', evolveAll now ps cur s = Ok (cur', s') /\ AllInv s' /\ kept s0 s' /\
    (forall n, In n ps -> exists e, atTime (top n) t (env s0) e /\ cur' (nid n) = act (fresh e n) (cur (nid n))) /\
    (forall o, ~ In o (map nid ps) -> cur' o = cur o).
Proof.
  intros Now. induction ps as [|n ps IH]; intros Hi ND cur s I K; cbn [TimeDepModel.evolveAll].
  - exists cur, s. repeat split; auto. intros n [].
  - assert (Hn : In n rs) by (apply Hi; now left). cbn in ND. inversion ND as [|? ? N1 N2]; subst.
    destruct (step_from now n t s0 s Hn (fun o y => Now n o y Hn) I K) as (e & s1 & -> & I1 & K1 & A1).
    cbn [bind fst snd].
    destruct (IH (fun z Hz => Hi z (or_intror Hz)) N2 (set cur (nid n) (act (fresh e n) (cur (nid n)))) s1 I1 K1)
      as (cur' & s' & H1 & H2 & H3 & H4 & H5).
    exists cur', s'. repeat split; auto.
    + intros n' [<-|Hn']; [exists e; split; auto; rewrite H5 by auto; unfold set; now rewrite Nat.eqb_refl|].
      destruct (H4 n' Hn') as (e1 & B1 & B2). exists e1. split; auto. rewrite B2. f_equal. unfold set.
      destruct (Nat.eqb_spec (nid n') (nid n)) as [E|]; auto. exfalso. apply N1. rewrite <- E. now apply in_map.
    + intros o Ho. rewrite H5 by (intros X; apply Ho; now right). unfold set.
      destruct (Nat.eqb_spec o (nid n)); auto. subst. exfalso. apply Ho. now left.
Qed.

Variable lim : nat.
Variable h : heap.
Lemma evolve_ok (idx0 : nat -> Z) m (tau : nat -> Q) :
  forall inds, (forall i idx n o y, In i inds -> In n rs -> In o (allids n) -> superOf o = Some y ->
     (forall j, j <> m -> idx j = idx0 j) ->
     currentTime lim h (set idx m (Z.of_nat i)) (simOf y) = tau i) ->
  forall idx s0 cur s, (forall j, j <> m -> idx j = idx0 j) -> AllInv s -> kept s0 s ->
  exists tr idx' s', evolve lim h m inds rs idx cur s = Ok (tr, idx', s') /\ List.length tr = List.length inds /\
    (forall j, j <> m -> idx' j = idx0 j) /\ idx' m = last (map Z.of_nat inds) (idx m) /\ AllInv s' /\ kept s0 s' /\
    forall k n, k < List.length inds -> In n rs -> exists e, atTime (top n) (tau (nth k inds 0)) (env s0) e /\
      nth (S k) (cur :: tr) cur (nid n) = act (fresh e n) (nth k (cur :: tr) cur (nid n)).
Proof.
  induction inds as [|i inds IH]; intros T idx s0 cur s Hidx I K; cbn [TimeDepModel.evolve].
  - exists [], idx, s. cbn. repeat split; auto. intros k n Hk. lia.
  - set (idx1 := set idx m (Z.of_nat i)).
    assert (Hidx1 : forall j, j <> m -> idx1 j = idx0 j).
    { intros j Hj. unfold idx1, set. destruct (Nat.eqb_spec j m); [contradiction|]. auto. }
    destruct (evolveAll_ok (currentTime lim h idx1) (tau i) s0) with (ps := rs) (cur := cur) (s := s)
      as (cur' & s1 & -> & I1 & K1 & C1 & _); auto using incl_refl.
    { intros n o y Hn Ho Hy. eapply T; eauto. now left. }
    { apply nodup_nid; [apply incl_refl|apply nodup_rs]. }
    cbn [bind fst snd].
    destruct (IH (fun a b c d e Ha => T a b c d e (or_intror Ha)) idx1 s0 cur' s1 Hidx1 I1 K1)
      as (tr & idx' & s' & -> & L & J & J2 & I2 & K2 & C2).
    cbn [bind fst snd]. exists (cur' :: tr), idx', s'. repeat split; auto.
    + cbn. now rewrite L.
    + rewrite J2. unfold idx1, set. rewrite Nat.eqb_refl. cbn [map].
      assert (G : forall (l : list Z) a d, last l a = last (a :: l) d); [|apply G].
      induction l as [|b l IHl]; intros a d; [reflexivity|]. rewrite <- (IHl b a). change (last (a :: b :: l) d) with (last (b :: l) d). apply IHl.
    + intros k n Hk Hn. destruct k as [|k].
      * destruct (C1 n Hn) as (e & A1 & A2). exists e. split; auto.
      * cbn in Hk. destruct (C2 k n (proj2 (Nat.succ_lt_mono k (List.length inds)) Hk) Hn) as (e & A1 & A2). exists e. split; auto.
        assert (D : forall l a b j, j < List.length l -> nth j l a = nth j l b :> (nat -> State)) by (intros; now apply nth_indep).
        cbn [nth] in A2 |- *. rewrite (D tr cur cur' k) by (rewrite L; lia).
        rewrite A2. destruct k as [|k]; cbn [nth]; auto. rewrite (D tr cur cur' k); auto. rewrite L. lia.
Qed.
End P.
