From Verif Require Import Py SimModel SimSpec.

Section P.
Variables St Vec : Type.
Variable mat2Vec : St -> Vec.
Variable vec2Mat : Vec -> St.
Variable applyV : nat -> nat -> Vec -> Vec.
Variable applyU : nat -> nat -> St -> St.
Variable applyStep : nat -> nat -> nat -> St -> St.
Variable density : St -> St.
Notation sim := (sim St). Notation ev := (ev St).
Notation evolOne := (evolOne St Vec mat2Vec vec2Mat applyV applyU applyStep).
Notation evolAll := (evolAll St Vec mat2Vec vec2Mat applyV applyU applyStep).
Notation steps := (steps St Vec mat2Vec vec2Mat applyV applyU applyStep).
Notation runPoint := (runPoint St Vec mat2Vec vec2Mat applyV applyU applyStep density).
Notation one_step := (one_step St Vec mat2Vec vec2Mat applyV applyU applyStep).
Notation traj := (traj St Vec mat2Vec vec2Mat applyV applyU applyStep density).
Notation observed := (observed St Vec mat2Vec vec2Mat applyV applyU applyStep density).

Lemma put_same {X} (f : nat -> X) i x : put f i x i = x.
Proof. unfold put. now rewrite Nat.eqb_refl. Qed.
Lemma put_other {X} (f : nat -> X) i x j : j <> i -> put f i x j = f j.
Proof. unfold put. intros. destruct (Nat.eqb_spec j i); congruence. Qed.

Lemma storeAll_spec ps : forall acc (w : sim),
  let r := storeAll St ps acc w in
  fst r = acc ++ map (fun p => cur w (p_id p)) ps /\ cur (snd r) = cur w /\ smp (snd r) = smp w /\
  logE (snd r) = logE w ++ map (fun p => EStore (p_id p) (cur w (p_id p))) (filter (fun p => negb (p_del p)) ps).
Proof.
  induction ps as [|p ps IH]; intros acc w; cbn.
  - now rewrite !app_nil_r.
  - destruct (p_del p); cbn.
    + destruct (IH (acc ++ [cur w (p_id p)]) w) as (A & B & C & D).
      rewrite A, B, C, D, <- app_assoc. auto.
    + destruct (IH (acc ++ [cur w (p_id p)]) (emit St (EStore (p_id p) (cur w (p_id p))) w)) as (A & B & C & D).
      rewrite A, B, C, D. cbn. rewrite <- !app_assoc. auto.
Qed.
Lemma proCompute_spec ps : forall w : sim,
  cur (proCompute St ps w) = cur w /\ smp (proCompute St ps w) = smp w /\
  logE (proCompute St ps w) = logE w ++ map (fun p => EPro (p_id p) (cur w (p_id p))) ps.
Proof.
  unfold proCompute. induction ps as [|p ps IH]; intros w; cbn; [now rewrite app_nil_r|].
  destruct (IH (emit St (EPro (p_id p) (cur w (p_id p))) w)) as (A & B & C).
  rewrite A, B, C. cbn. now rewrite <- app_assoc.
Qed.
Lemma existsb_app_one x l y : existsb (Nat.eqb x) (l ++ [y]) = existsb (Nat.eqb x) (y :: l).
Proof. rewrite existsb_app. cbn. rewrite orb_false_r. apply orb_comm. Qed.
Lemma firsts_ext ps : forall s s', (forall x, existsb (Nat.eqb x) s = existsb (Nat.eqb x) s') -> firsts s ps = firsts s' ps.
Proof.
  induction ps as [|p ps IH]; intros s s' H; cbn; auto.
  rewrite H. destruct (existsb _ s'); [auto|]. f_equal. apply IH. intros x. cbn. now rewrite H.
Qed.
Lemma sysCompute_spec ps : forall called (w : sim),
  cur (sysCompute St ps called w) = cur w /\ smp (sysCompute St ps called w) = smp w /\
  logE (sysCompute St ps called w) = logE w ++ map (fun p => ESys (p_sys p) (cur w (p_id p))) (firsts called ps).
Proof.
  induction ps as [|p ps IH]; intros called w; cbn; [now rewrite app_nil_r|].
  destruct (existsb _ called); auto.
  destruct (IH (called ++ [p_sys p]) (emit St (ESys (p_sys p) (cur w (p_id p))) w)) as (A & B & C).
  rewrite A, B, C. cbn. rewrite <- app_assoc. cbn.
  rewrite (firsts_ext ps (called ++ [p_sys p]) (p_sys p :: called)); auto. intros x. apply existsb_app_one.
Qed.

(** What one round of computes logs, from the current states. *)
Definition now_observed (c : nat -> St) (ps : list prot) : list ev :=
  map (fun p => EStore (p_id p) (c (p_id p))) (filter (fun p => negb (p_del p)) ps)
  ++ [ESim (map (fun p => c (p_id p)) ps)]
  ++ map (fun p => EPro (p_id p) (c (p_id p))) ps
  ++ map (fun p => ESys (p_sys p) (c (p_id p))) (firsts [] ps).
Lemma computes_spec ps (w : sim) :
  cur (computes St true ps w) = cur w /\ smp (computes St true ps w) = smp w /\
  logE (computes St true ps w) = logE w ++ now_observed (cur w) ps.
Proof.
  unfold computes, simCompute. pose proof (storeAll_spec ps [] w) as S. cbn zeta in S.
  destruct (storeAll St ps [] w) as [states w1]. cbn in S. destruct S as (-> & S2 & S3 & S4).
  set (w2 := emit St (ESim (map (fun p => cur w (p_id p)) ps)) w1).
  destruct (proCompute_spec ps w2) as (P1 & P2 & P3).
  destruct (sysCompute_spec ps [] (proCompute St ps w2)) as (Q1 & Q2 & Q3).
  rewrite Q1, Q2, Q3, P1, P2, P3. cbn. rewrite S2, S3, S4. repeat split. unfold now_observed.
  rewrite <- !app_assoc. reflexivity.
Qed.

(** *** one protocol *)
Lemma sampleStep_spec n f p : forall w : sim,
  cur (sampleStep St n f p w) p = iterate St n f (cur w p) /\
  (forall j, j <> p -> cur (sampleStep St n f p w) j = cur w j) /\
  logE (sampleStep St n f p w) = logE w /\
  (forall j, j <> p -> smp (sampleStep St n f p w) j = smp w j) /\
  List.length (smp (sampleStep St n f p w) p) = List.length (smp w p) + n.
Proof.
  induction n as [|n IH]; intros w; cbn; [repeat split; auto; lia|].
  destruct (IH (Sim (put (cur w) p (f (cur w p))) (put (smp w) p (smp w p ++ [f (cur w p)])) (logE w))) as (A & B & C & D & E).
  cbn in *. rewrite A, C. rewrite !put_same in *. repeat split; auto.
  - intros j N. rewrite B, put_other; auto.
  - intros j N. rewrite D, put_other; auto.
  - rewrite E, app_length. cbn. lia.
Qed.
Lemma fold_sample sts (g : nat -> St -> St) p : forall w : sim,
  let w' := fold_left (fun w st => sampleStep St (snd st) (g (fst st)) p w) sts w in
  cur w' p = fold_left (fun s st => iterate St (snd st) (g (fst st)) s) sts (cur w p) /\
  (forall j, j <> p -> cur w' j = cur w j) /\ logE w' = logE w /\ (forall j, j <> p -> smp w' j = smp w j) /\
  List.length (smp w' p) = List.length (smp w p) + list_sum (map snd sts).
Proof.
  induction sts as [|st sts IH]; intros w; cbn; [repeat split; auto|].
  destruct (IH (sampleStep St (snd st) (g (fst st)) p w)) as (A & B & C & D & E).
  destruct (sampleStep_spec (snd st) (g (fst st)) p w) as (A' & B' & C' & D' & E').
  rewrite A, C, A', C', E, E'. repeat split; auto.
  - intros j N. rewrite B, B'; auto.
  - intros j N. rewrite D, D'; auto.
  - unfold list_sum. lia.
Qed.
Lemma evolOne_spec ind (w : sim) p :
  cur (evolOne ind w p) (p_id p) = one_step ind p (cur w (p_id p)) /\
  (forall j, j <> p_id p -> cur (evolOne ind w p) j = cur w j) /\ logE (evolOne ind w p) = logE w.
Proof.
  unfold SimModel.evolOne, SimSpec.one_step. destruct (p_open p); cbn.
  - rewrite put_same. repeat split; auto. intros; now apply put_other.
  - destruct (p_sampled p); cbn.
    + destruct (fold_sample (p_steps p) (applyStep ind (p_id p)) (p_id p) (Sim (cur w) (put (smp w) (p_id p) []) (logE w)))
        as (A & B & C & _). cbn in *. auto.
    + rewrite put_same. repeat split; auto. intros; now apply put_other.
Qed.
Lemma evolAll_spec ind ps : NoDup (map p_id ps) -> forall w : sim,
  (forall p, In p ps -> cur (evolAll ind ps w) (p_id p) = one_step ind p (cur w (p_id p))) /\
  (forall j, ~ In j (map p_id ps) -> cur (evolAll ind ps w) j = cur w j) /\ logE (evolAll ind ps w) = logE w.
Proof.
  unfold SimModel.evolAll. induction ps as [|p ps IH]; intros ND w; cbn; [repeat split; auto; tauto|].
  inversion ND as [|? ? Hn Hr]; subst.
  destruct (evolOne_spec ind w p) as (A & B & C). destruct (IH Hr (evolOne ind w p)) as (A' & B' & C').
  repeat split.
  - intros q [<-|Hq].
    + rewrite B'; auto.
    + rewrite A' by auto. rewrite B; auto. intros E. apply Hn. rewrite <- E. now apply in_map.
  - intros j Hj. rewrite B'; auto.
  - now rewrite C'.
Qed.

Lemma now_observed_traj init ps t (c : nat -> St) : (forall p, In p ps -> c (p_id p) = traj init p t) ->
  now_observed c ps = observed init ps t.
Proof.
  intros H. unfold now_observed, SimSpec.observed.
  assert (F : forall seen l p, In p (firsts seen l) -> In p l).
  { intros seen l. revert seen. induction l as [|q l IH]; intros seen p; cbn; auto.
    destruct (existsb _ seen); cbn; [intros; right; eauto|intros [->|]; [now left|right; eauto]]. }
  f_equal; [|f_equal; [|f_equal]].
  - apply map_ext_in. intros p Hp. apply filter_In in Hp. now rewrite H.
  - f_equal. f_equal. apply map_ext_in. intros p Hp. now rewrite H.
  - apply map_ext_in. intros p Hp. now rewrite H.
  - apply map_ext_in. intros p Hp. rewrite H; eauto.
Qed.

Lemma steps_spec init ps : NoDup (map p_id ps) -> forall n t (w : sim),
  (forall p, In p ps -> cur w (p_id p) = traj init p t) ->
  (forall p, In p ps -> cur (steps (seq t n) ps w) (p_id p) = traj init p (t + n)) /\
  logE (steps (seq t n) ps w) = logE w ++ flat_map (observed init ps) (seq (S t) n).
Proof.
  intros ND. induction n as [|n IH]; intros t w H; cbn [seq SimModel.steps flat_map].
  - rewrite Nat.add_0_r, app_nil_r. auto.
  - destruct (evolAll_spec t ps ND w) as (A & _ & C).
    destruct (computes_spec ps (evolAll t ps w)) as (A2 & _ & C2).
    assert (Hc : forall p, In p ps -> cur (evolAll t ps w) (p_id p) = traj init p (S t)).
    { intros p Hp. rewrite A, H by auto. reflexivity. }
    destruct (IH (S t) (computes St true ps (evolAll t ps w))) as (I1 & I2).
    { intros p Hp. rewrite A2. now apply Hc. }
    split.
    + intros p Hp. rewrite I1 by auto. f_equal. lia.
    + rewrite I2, C2, C, (now_observed_traj init ps (S t)) by auto. now rewrite <- app_assoc.
Qed.

Lemma start_spec init ps : NoDup (map p_id ps) -> forall w : sim,
  let w' := startPoint St density true init ps w in
  (forall p, In p ps -> cur w' (p_id p) = start St density init p) /\
  (forall j, ~ In j (map p_id ps) -> cur w' j = cur w j) /\ logE w' = logE w.
Proof.
  unfold startPoint. induction ps as [|p ps IH]; intros ND w; cbn; [repeat split; auto; tauto|].
  inversion ND as [|? ? Hn Hr]; subst.
  destruct (IH Hr (Sim (put (cur w) (p_id p) (if p_open p then density (init (p_id p)) else init (p_id p))) (smp w) (logE w)))
    as (A & B & C). cbn in *. repeat split; auto.
  - intros q [<-|Hq]; auto. rewrite B by auto. rewrite put_same. reflexivity.
  - intros j Hj. rewrite B by auto. rewrite put_other; auto.
Qed.

Lemma calcSys_spec post ps : forall called (w : sim),
  cur (calcSys St post ps called w) = cur w /\
  logE (calcSys St post ps called w) = logE w ++ map (fun p => ECalcSys post (p_sys p)) (firsts called ps).
Proof.
  induction ps as [|p ps IH]; intros called w; cbn; [now rewrite app_nil_r|].
  destruct (existsb _ called); auto.
  destruct (IH (called ++ [p_sys p]) (emit St (ECalcSys post (p_sys p)) w)) as (A & C).
  rewrite A, C. cbn. rewrite <- app_assoc. cbn.
  rewrite (firsts_ext ps (called ++ [p_sys p]) (p_sys p :: called)); auto. intros x. apply existsb_app_one.
Qed.
Lemma calculates_spec post ps (w : sim) :
  cur (calculates St post ps w) = cur w /\ logE (calculates St post ps w) = logE w ++ calculated St post ps.
Proof.
  assert (F : forall l (v : sim), let v' := fold_left (fun w p => emit St (ECalcPro post (p_id p)) w) l v in
    cur v' = cur v /\ logE v' = logE v ++ map (fun p => ECalcPro post (p_id p)) l).
  { induction l as [|p l IH]; intros v; cbn; [now rewrite app_nil_r|].
    destruct (IH (emit St (ECalcPro post (p_id p)) v)) as (A & B). cbn in A, B. rewrite A, B. cbn. now rewrite <- app_assoc. }
  unfold calculates. destruct (F ps (emit St (ECalcSim post) w)) as (A & B). cbn zeta in A, B.
  match goal with |- context [calcSys St post ps [] ?v] => destruct (calcSys_spec post ps [] v) as (A' & B') end.
  rewrite A', B', A, B. cbn. unfold calculated. split; auto. rewrite <- !app_assoc. reflexivity.
Qed.

Theorem runPoint_log n init ps (w : sim) : NoDup (map p_id ps) ->
  logE (runPoint true n init ps w)
  = logE w ++ calculated St false ps ++ flat_map (observed init ps) (seq 0 (S n)) ++ calculated St true ps /\
  (forall p, In p ps -> cur (runPoint true n init ps w) (p_id p) = traj init p n).
Proof.
  intros ND. unfold SimModel.runPoint.
  match goal with |- context [calculates St true ps ?v] => destruct (calculates_spec true ps v) as (PA & PC) end.
  rewrite PA, PC. clear PA PC. unfold timeEvolDefault.
  destruct (start_spec init ps ND w) as (A' & _ & C'). cbn zeta in *.
  destruct (calculates_spec false ps (startPoint St density true init ps w)) as (QA & C).
  assert (A : forall p, In p ps -> cur (calculates St false ps (startPoint St density true init ps w)) (p_id p) = start St density init p).
  { intros p Hp. rewrite QA. auto. }
  rewrite C' in C. set (w0 := calculates St false ps (startPoint St density true init ps w)) in *.
  set (w1 := Sim (cur w0) (fold_left (fun f p => put f (p_id p) []) ps (smp w0)) (logE w0)).
  destruct (computes_spec ps w1) as (A1 & _ & C1).
  destruct (steps_spec init ps ND n 0 (computes St true ps w1)) as (I1 & I2).
  { intros p Hp. rewrite A1. cbn. now apply A. }
  split.
  - rewrite I2, C1. cbn [seq flat_map]. rewrite (now_observed_traj init ps 0).
    + cbn [logE]. unfold w1. cbn [logE]. rewrite C. rewrite <- !app_assoc. reflexivity.
    + intros p Hp. cbn. now apply A.
  - intros p Hp. rewrite I1; auto.
Qed.

(** Projections of what is observed. *)
Lemma flat_map_app' {X Y} (f : X -> list Y) a b : flat_map f (a ++ b) = flat_map f a ++ flat_map f b.
Proof. apply flat_map_app. Qed.
Lemma flat_map_nil {X Y} (f : X -> list Y) l : (forall x, In x l -> f x = []) -> flat_map f l = [].
Proof. induction l as [|x l IH]; cbn; intros H; auto. rewrite H by now left. apply IH. intros; apply H; now right. Qed.

Lemma stored_observed init ps t p : NoDup (map p_id ps) -> In p ps ->
  stored St (p_id p) (observed init ps t) = if p_del p then [] else [traj init p t].
Proof.
  intros ND Hp. unfold stored, SimSpec.observed. rewrite !flat_map_app'.
  rewrite (flat_map_nil _ [_]) by (intros x [<-|[]]; reflexivity).
  rewrite (flat_map_nil _ (map _ ps)) by (intros x Hx; apply in_map_iff in Hx; destruct Hx as (? & <- & _); reflexivity).
  rewrite (flat_map_nil _ (map _ (firsts [] ps))) by (intros x Hx; apply in_map_iff in Hx; destruct Hx as (? & <- & _); reflexivity).
  rewrite !app_nil_r. induction ps as [|q ps IH]; [destruct Hp|]. inversion ND as [|? ? Hn Hr]; subst. cbn [filter].
  destruct Hp as [->|Hp].
  - assert (Z : flat_map (fun e => match e with EStore j s => if j =? p_id p then [s] else [] | _ => [] end)
      (map (fun q => EStore (p_id q) (traj init q t)) (filter (fun q => negb (p_del q)) ps)) = []).
    { apply flat_map_nil. intros x Hx. apply in_map_iff in Hx. destruct Hx as (q & <- & Hq). apply filter_In in Hq.
      destruct (Nat.eqb_spec (p_id q) (p_id p)) as [E|]; auto. exfalso. apply Hn. rewrite <- E. apply in_map. tauto. }
    destruct (p_del p); cbn; [exact Z|]. rewrite Nat.eqb_refl, Z. reflexivity.
  - assert (E : p_id q <> p_id p). { intros E. apply Hn. rewrite E. now apply in_map. }
    destruct (p_del q); cbn; [now apply IH|]. destruct (Nat.eqb_spec (p_id q) (p_id p)); [contradiction|]. now apply IH.
Qed.

Lemma calc_silent {Y} (f : ev -> list Y) post ps :
  f (ECalcSim post) = [] -> (forall i, f (ECalcPro post i) = []) -> (forall i, f (ECalcSys post i) = []) ->
  flat_map f (calculated St post ps) = [].
Proof.
  intros A B C. unfold calculated. rewrite !flat_map_app'. cbn [flat_map]. rewrite A.
  rewrite (flat_map_nil _ (map _ ps)) by (intros x Hx; apply in_map_iff in Hx; destruct Hx as (? & <- & _); auto).
  rewrite (flat_map_nil _ (map _ (firsts _ ps))) by (intros x Hx; apply in_map_iff in Hx; destruct Hx as (? & <- & _); auto).
  reflexivity.
Qed.

Theorem stored_states n init ps (w : sim) p : NoDup (map p_id ps) -> In p ps -> logE w = [] ->
  stored St (p_id p) (logE (runPoint true n init ps w))
  = if p_del p then [] else map (traj init p) (seq 0 (S n)).
Proof.
  intros ND Hp W. rewrite (proj1 (runPoint_log n init ps w ND)), W. cbn [List.app].
  unfold stored. rewrite !flat_map_app', !calc_silent, app_nil_r by auto. cbn [List.app].
  generalize (seq 0 (S n)). induction l as [|t l IH]; cbn [flat_map map].
  - destruct (p_del p); reflexivity.
  - rewrite flat_map_app'. change (flat_map _ (observed init ps t)) with (stored St (p_id p) (observed init ps t)).
    rewrite stored_observed by auto. rewrite IH. destruct (p_del p); reflexivity.
Qed.

Lemma firsts_spec ps : forall seen q p, ~ In q seen -> NoDup (map p_id ps) ->
  (exists before after, ps = before ++ p :: after /\ p_sys p = q /\ Forall (fun x => p_sys x <> q) before) ->
  filter (fun x => Nat.eqb (p_sys x) q) (firsts seen ps) = [p].
Proof.
  assert (Z : forall l seen q, In q seen -> filter (fun x => Nat.eqb (p_sys x) q) (firsts seen l) = []).
  { induction l as [|x l IH]; intros seen q Hq; cbn; auto.
    destruct (existsb _ seen) eqn:E; auto. cbn. destruct (Nat.eqb_spec (p_sys x) q) as [<-|N].
    - exfalso. assert (existsb (Nat.eqb (p_sys x)) seen = true); [|congruence].
      apply existsb_exists. exists (p_sys x). split; auto. apply Nat.eqb_refl.
    - apply IH. now right. }
  induction ps as [|x ps IH]; intros seen q p Hs ND (before & after & E & Hq & HF).
  - destruct before; discriminate.
  - inversion ND as [|? ? Hn Hr]; subst. cbn. destruct before as [|y before]; cbn in E; inversion E; subst.
    + assert (X : existsb (Nat.eqb (p_sys p)) seen = false).
      { destruct (existsb _ seen) eqn:E'; auto. apply existsb_exists in E'. destruct E' as (z & Hz & Ez).
        apply Nat.eqb_eq in Ez. subst. contradiction. }
      rewrite X. cbn. rewrite Nat.eqb_refl. f_equal. apply Z. now left.
    + inversion HF as [|? ? F1 F2]; subst. destruct (existsb (Nat.eqb (p_sys y)) seen).
      * apply IH; auto. eauto.
      * cbn. destruct (Nat.eqb_spec (p_sys y) (p_sys p)); [contradiction|].
        apply IH; auto; [|eauto]. intros [|]; auto.
Qed.
Lemma filter_flat {X Y} (g : X -> bool) (h : X -> Y) l :
  flat_map (fun x => if g x then [h x] else []) l = map h (filter g l).
Proof. induction l as [|x l IH]; cbn; auto. destruct (g x); cbn; now rewrite IH. Qed.
Theorem system_calls n init before p after (w : sim) : let ps := before ++ p :: after in
  NoDup (map p_id ps) -> Forall (fun x => p_sys x <> p_sys p) before -> logE w = [] ->
  sysCalls St (p_sys p) (logE (runPoint true n init ps w)) = map (traj init p) (seq 0 (S n)).
Proof.
  intros ps ND HF W. rewrite (proj1 (runPoint_log n init ps w ND)), W. cbn [List.app].
  unfold sysCalls. rewrite !flat_map_app', !calc_silent, app_nil_r by auto. cbn [List.app].
  generalize (seq 0 (S n)). induction l as [|t l IH]; cbn [flat_map map]; auto.
  rewrite flat_map_app', IH. change (traj init p t :: map (traj init p) l) with ([traj init p t] ++ map (traj init p) l).
  f_equal. unfold SimSpec.observed. rewrite !flat_map_app'.
  rewrite (flat_map_nil _ (map _ (filter _ ps))) by (intros x Hx; apply in_map_iff in Hx; destruct Hx as (? & <- & _); reflexivity).
  rewrite (flat_map_nil _ [_]) by (intros x [<-|[]]; reflexivity).
  rewrite (flat_map_nil _ (map _ ps)) by (intros x Hx; apply in_map_iff in Hx; destruct Hx as (? & <- & _); reflexivity).
  cbn [List.app]. rewrite flat_map_concat_map, map_map, <- flat_map_concat_map.
  rewrite (filter_flat (fun x => Nat.eqb (p_sys x) (p_sys p)) (fun x => traj init x t)).
  rewrite (firsts_spec ps [] (p_sys p) p); auto. exists before, after. auto.
Qed.
Theorem sim_calls n init ps (w : sim) : NoDup (map p_id ps) -> logE w = [] ->
  simCalls St (logE (runPoint true n init ps w)) = map (fun t => map (fun p => traj init p t) ps) (seq 0 (S n)).
Proof.
  intros ND W. rewrite (proj1 (runPoint_log n init ps w ND)), W. cbn [List.app].
  unfold simCalls. rewrite !flat_map_app', !calc_silent, app_nil_r by auto. cbn [List.app].
  generalize (seq 0 (S n)). induction l as [|t l IH]; cbn [flat_map map]; auto.
  rewrite flat_map_app', IH.
  change (map (fun p => traj init p t) ps :: ?r) with ([map (fun p => traj init p t) ps] ++ r).
  f_equal.
  unfold SimSpec.observed. rewrite !flat_map_app'.
  rewrite (flat_map_nil _ (map _ (filter _ ps))) by (intros x Hx; apply in_map_iff in Hx; destruct Hx as (? & <- & _); reflexivity).
  rewrite (flat_map_nil _ (map _ ps)) by (intros x Hx; apply in_map_iff in Hx; destruct Hx as (? & <- & _); reflexivity).
  rewrite (flat_map_nil _ (map _ (firsts [] ps))) by (intros x Hx; apply in_map_iff in Hx; destruct Hx as (? & <- & _); reflexivity).
  reflexivity.
Qed.
End P.

Theorem runPoints_log St Vec m2v v2m n density ps (pts : list (point St Vec)) : NoDup (map p_id ps) -> forall w : sim St,
  logE (runPoints St Vec m2v v2m n density ps pts w) = logE w ++ flat_map (fun x =>
    calculated St false ps ++
    flat_map (observed St Vec m2v v2m (pt_V x) (pt_U x) (pt_S x) density (pt_init x) ps) (seq 0 (S n))
    ++ calculated St true ps) pts.
Proof.
  intros ND. unfold runPoints. induction pts as [|x pts IH]; intros w; cbn [fold_left flat_map]; [now rewrite app_nil_r|].
  rewrite IH. rewrite (proj1 (runPoint_log St Vec m2v v2m _ _ _ density n (pt_init x) ps w ND)).
  now rewrite <- !app_assoc.
Qed.
