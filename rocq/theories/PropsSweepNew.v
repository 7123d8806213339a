(** C91: what createSweep creates. *)
From Verif Require Import Py SweepModel SweepSpec SweepNewModel SweepNewSpec PropsSweep.
#[local] Open Scope nat_scope.
#[local] Open Scope list_scope.

Lemma addObj_fold : forall l acc, NoDup acc -> NoDup (fold_left addObj l acc) /\ (forall o, In o (fold_left addObj l acc) <-> In o acc \/ In o l) /\
  exists r, fold_left addObj l acc = acc ++ r.
Proof.
  induction l as [|x l IH]; intros acc ND; cbn [fold_left].
  - split; [assumption|]. split; [cbn; tauto|]. exists []. now rewrite app_nil_r.
  - assert (H : NoDup (addObj acc x) /\ (forall o, In o (addObj acc x) <-> In o acc \/ x = o) /\ exists r, addObj acc x = acc ++ r).
    { unfold addObj. destruct (existsb (Nat.eqb x) acc) eqn:E.
      - apply existsb_exists in E. destruct E as (y & Hy & E). apply Nat.eqb_eq in E. subst y. split; [assumption|]. split; [|exists []; now rewrite app_nil_r].
        intros o. split; [auto|]. intros [?|<-]; assumption.
      - assert (Nx : ~ In x acc). { intros H. assert (existsb (Nat.eqb x) acc = true); [|congruence]. apply existsb_exists. exists x. now rewrite Nat.eqb_refl. }
        split; [|split; [intros o; rewrite in_app_iff; cbn; tauto|eauto]]. apply (NoDup_Add (a := x) (l := acc)); [|auto].
        rewrite <- (app_nil_r acc) at 1. apply Add_app. }
    destruct H as (H1 & H2 & r1 & H3). destruct (IH _ H1) as (I1 & I2 & r2 & I3). split; [assumption|]. split.
    + intros o. rewrite I2, H2. cbn. tauto.
    + exists (r1 ++ r2). now rewrite I3, H3, app_assoc.
Qed.
Lemma objects_spec : forall l, NoDup (objects l) /\ (forall o, In o (objects l) <-> In o l) /\
  match l with [] => objects l = [] | o :: _ => exists r, objects l = o :: r end.
Proof.
  intros l. unfold objects. destruct (addObj_fold l [] (NoDup_nil _)) as (A & B & _). split; [assumption|]. split; [intros o; rewrite B; cbn; tauto|].
  destruct l as [|o l]; [reflexivity|]. cbn [fold_left]. change (addObj [] o) with [o].
  destruct (addObj_fold l [o]) as (_ & _ & r & E); [repeat constructor; auto|]. exists r. exact E.
Qed.

Section C91.
Context {V : Type}.
Implicit Types (c : call V) (sws : list (sweep V)).

Lemma create_about : forall aux owner c sws l, about owner c l ->
  createSweep aux owner c sws = match targetsOf (c_has c) (objects l) (c_key c) with
    | Ok tg => (sws ++ [Sweep (c_comb c) (c_vals c) tg], Ok (Sweep (c_comb c) (c_vals c) tg)) | Err e => (sws, Err e) end.
Proof.
  intros aux owner c sws l H. unfold about, createSweep in *. destruct (c_what c); [subst; reflexivity| |contradiction].
  destruct H as (o & -> & ->). reflexivity.
Qed.

(** If all systems have the attribute, one sweep is added after the others, for
    that attribute of each of the systems. *)
Theorem C91_created : forall aux owner c sws l k, attribute owner c l k ->
  exists sw, createSweep aux owner c sws = (sws ++ [sw], Ok sw) /\ made owner c sw.
Proof.
  intros aux owner c sws l k A. pose proof A as (A1 & A2 & A3 & A4). rewrite (create_about _ _ _ _ _ A1), A3.
  destruct (objects_spec l) as (O1 & O2 & O3). destruct l as [|o l]; [contradiction|]. destruct O3 as (r & Er).
  cbn [targetsOf]. rewrite Er in *. rewrite A4 by now left.
  assert (F : forallb (fun s => c_has c s k) (o :: r) = true). { apply forallb_forall. intros x Hx. apply A4. now apply O2. }
  rewrite F. eexists. split; [reflexivity|]. split; [reflexivity|]. split; [reflexivity|]. cbn [sw_targets]. split.
  - clear - O1. induction O1 as [|x m Nx _ IH]; cbn [map]; constructor; [|assumption]. intros H. apply in_map_iff in H. destruct H as (y & E & Hy). injection E as ->. contradiction.
  - exists (o :: l), k. split; [exact A|]. intros t. rewrite in_map_iff. split; intros (x & H1 & H2); exists x.
    + split; [apply O2; exact H2|congruence].
    + split; [congruence|apply O2; exact H1].
Qed.

(** If the first system does not have the attribute, the call succeeds all the
    same, and the sweep only writes the auxiliary dictionary, whatever the
    other systems have. *)
Theorem C91_unknown : forall aux owner c sws l k, unknown owner c l k ->
  createSweep aux owner c sws = (sws ++ [Sweep (c_comb c) (c_vals c) [TAux k]], Ok (Sweep (c_comb c) (c_vals c) [TAux k])).
Proof.
  intros aux owner c sws l k (A1 & A2 & o & l' & -> & A3). rewrite (create_about _ _ _ _ _ A1), A2.
  destruct (objects_spec (o :: l')) as (_ & _ & r & Er). rewrite Er. cbn [targetsOf]. now rewrite A3.
Qed.

(** A call for the auxiliary object makes a sweep that writes that key of it, and nothing else. *)
Theorem C91_auxiliary : forall aux owner c sws k, c_what c = AuxObject k ->
  exists sw, createSweep aux owner c sws = (sws ++ [sw], Ok sw) /\ sw_comb sw = c_comb c /\ sw_list sw = c_vals c /\
    forall t, In t (sw_targets sw) <-> t = TAttr aux k.
Proof.
  intros aux owner c sws k E. unfold createSweep. rewrite E. eexists. split; [reflexivity|]. repeat split; cbn; [intros [<-|[]]; reflexivity|auto].
Qed.

(** A call that raises adds nothing; these are the calls that raise. *)
Theorem C91_raises : forall aux owner c sws e,
  snd (createSweep aux owner c sws) = Err e <->
  match c_what c with
  | AuxObject _ => False
  | _ =>
      (c_what c = Default /\ owner = None /\ e = AttributeError) \/
      (c_what c = Default /\ owner = Some None /\ e = ValueError) \/
      (exists l, about owner c l /\
         ((c_key c = None /\ e = ValueError) \/
          (exists k, c_key c = Some k /\ l = [] /\ e = IndexError) \/
          (exists k o l' x, c_key c = Some k /\ l = o :: l' /\ c_has c o k = true /\ In x l' /\ c_has c x k = false /\ e = AttributeError)))
  end.
Proof.
  intros aux owner c sws e.
  assert (G : forall l, about owner c l -> (snd (createSweep aux owner c sws) = Err e <->
    ((c_key c = None /\ e = ValueError) \/ (exists k, c_key c = Some k /\ l = [] /\ e = IndexError) \/
     (exists k o l' x, c_key c = Some k /\ l = o :: l' /\ c_has c o k = true /\ In x l' /\ c_has c x k = false /\ e = AttributeError)))).
  { intros l A. rewrite (create_about _ _ _ _ _ A). destruct (c_key c) as [k|] eqn:Ek.
    2:{ cbn. split; [intros H; injection H as <-; auto|]. intros [[_ ->]|[(k & H & _)|(k & _ & _ & _ & H & _)]]; [reflexivity|discriminate|discriminate]. }
    destruct (objects_spec l) as (O1 & O2 & O3). destruct l as [|o l].
    { rewrite O3. cbn. split; [intros H; injection H as <-; right; left; eauto|].
      intros [[H _]|[(k' & _ & _ & ->)|(k' & o & l' & x & _ & H & _)]]; [discriminate|reflexivity|discriminate]. }
    destruct O3 as (r & Er). rewrite Er in *. cbn [targetsOf]. destruct (c_has c o k) eqn:Ho.
    - destruct (forallb (fun s => c_has c s k) (o :: r)) eqn:F.
      + cbn [snd]. split; [discriminate|]. intros [[H _]|[(k' & _ & H & _)|(k' & o' & l' & x & H1 & H2 & H3 & H4 & H5 & _)]]; [discriminate|discriminate|].
        injection H1 as <-. injection H2 as <- <-. rewrite forallb_forall in F. assert (In x (o :: r)) by (apply O2; now right). rewrite F in H5 by assumption. discriminate.
      + cbn [snd]. split.
        * intros H. injection H as <-. right. right. assert (X : exists x, In x (o :: r) /\ c_has c x k = false).
          { clear - F. induction (o :: r) as [|y m IH]; [discriminate|]. cbn [forallb] in F. destruct (c_has c y k) eqn:E; [|exists y; split; [now left|assumption]].
            destruct (IH F) as (x & Hx & Ex). exists x. split; [now right|assumption]. }
          destruct X as (x & Hx & Ex). apply O2 in Hx. destruct Hx as [<-|Hx]; [congruence|]. exists k, o, l, x. repeat split; auto.
        * intros [[H _]|[(k' & _ & H & _)|(k' & o' & l' & x & _ & _ & _ & _ & _ & ->)]]; [discriminate|discriminate|reflexivity].
    - cbn [snd]. split; [discriminate|]. intros [[H _]|[(k' & _ & H & _)|(k' & o' & l' & x & H1 & H2 & H3 & _)]]; [discriminate|discriminate|].
      injection H1 as <-. injection H2 as <- <-. congruence. }
  destruct (c_what c) as [l| |key] eqn:Ew.
  - assert (A : about owner c l) by (unfold about; now rewrite Ew). rewrite (G l A). split.
    + intros H. right. right. exists l. auto.
    + intros [[H _]|[[H _]|(l' & A' & H)]]; try discriminate. unfold about in A'. rewrite Ew in A'. now subst l'.
  - destruct owner as [[o|]|].
    + assert (A : about (Some (Some o)) c [o]) by (unfold about; rewrite Ew; eauto). rewrite (G [o] A). split.
      * intros H. right. right. exists [o]. auto.
      * intros [(_ & H & _)|[(_ & H & _)|(l' & A' & H)]]; try discriminate. unfold about in A'. rewrite Ew in A'. destruct A' as (o' & E & ->). injection E as <-. exact H.
    + unfold createSweep. rewrite Ew. cbn. split; [intros H; injection H as <-; auto|].
      intros [(_ & H & _)|[(_ & _ & ->)|(l' & A' & H)]]; [discriminate|reflexivity|]. unfold about in A'. rewrite Ew in A'. destruct A' as (o & E & _). discriminate.
    + unfold createSweep. rewrite Ew. cbn. split; [intros H; injection H as <-; auto|].
      intros [(_ & _ & ->)|[(_ & H & _)|(l' & A' & H)]]; [reflexivity|discriminate|]. unfold about in A'. rewrite Ew in A'. destruct A' as (o & E & _). discriminate.
  - unfold createSweep. rewrite Ew. cbn. split; [discriminate|contradiction].
Qed.
Theorem C91_rejected : forall aux owner c sws e, snd (createSweep aux owner c sws) = Err e -> fst (createSweep aux owner c sws) = sws.
Proof.
  intros aux owner c sws e. unfold createSweep. destruct (c_what c) as [l| |key]; [|destruct owner as [[o|]|]; [|reflexivity|reflexivity]|discriminate].
  all: destruct (targetsOf _ _ _); [discriminate|reflexivity].
Qed.

(** Running a point only writes what some sweep was created for. *)
Lemma runOne_frame : forall (sw : sweep V) i s t, ~ In t (sw_targets sw) -> fst (runOne sw i s) t = s t.
Proof.
  intros sw i s t N. unfold runOne. destruct (nth_error (sw_list sw) i) as [v|]; [|reflexivity]. cbn [fst]. unfold runUpdate.
  revert s N. induction (sw_targets sw) as [|x l IH]; intros s N; [reflexivity|]. cbn [fold_left]. rewrite IH by (intros H; apply N; now right).
  unfold assign. destruct (target_eqb t x) eqn:E; [|reflexivity]. exfalso. apply N. left. destruct t as [o a|a], x as [p b|b]; cbn in E; try discriminate.
  - apply andb_prop in E. destruct E as [E1 E2]. apply Nat.eqb_eq in E1. apply String.eqb_eq in E2. now subst.
  - apply String.eqb_eq in E. now subst.
Qed.
Lemma runPoint_frame : forall sws inds ind (s : store V) t, ~ In t (flat_map sw_targets sws) -> fst (runPoint sws inds ind s) t = s t.
Proof.
  intros sws inds ind s t N. unfold runPoint. destruct inds as [|i0 inds']; [reflexivity|]. destruct (indicesForSweep ind (i0 :: inds')) as [l|e]; [|reflexivity].
  unfold runSweep. generalize 0. revert s N. induction sws as [|sw sws IH]; intros s N n; [reflexivity|]. cbn [runSweep_loop].
  destruct (nth_error l (if sw_comb sw then S n else n)) as [i|]; [|reflexivity].
  assert (N1 : ~ In t (sw_targets sw)) by (intros H; apply N; cbn; apply in_or_app; now left).
  assert (N2 : ~ In t (flat_map sw_targets sws)) by (intros H; apply N; cbn; apply in_or_app; now right).
  pose proof (runOne_frame sw i s t N1) as Q. destruct (runOne sw i s) as [s1 [u|e]]; cbn [fst] in Q; [|exact Q].
  rewrite IH by assumption. exact Q.
Qed.

(** So a wrong attribute name goes unnoticed: no attribute of any object is
    ever changed by that sweep. *)
Theorem C91_typo_refuted : forall aux owner c l k, unknown owner c l k ->
  exists sw, createSweep aux owner c [] = ([sw], Ok sw) /\
    forall inds ind (s : store V) o a, fst (runPoint [sw] inds ind s) (TAttr o a) = s (TAttr o a).
Proof.
  intros aux owner c l k U. eexists. split; [rewrite (C91_unknown aux owner c [] l k U); reflexivity|].
  intros inds ind s o a. apply runPoint_frame. cbn. intros [H|[]]. discriminate.
Qed.

(** The same systems in another order: an error or a sweep that does nothing to
    them. *)
Theorem C91_order_refuted : forall aux owner a b k (has : nat -> string -> bool) comb vals sws, has a k = true -> has b k = false ->
  snd (createSweep aux owner (Call (Given [a; b]) (Some k) comb vals has) sws) = Err AttributeError /\
  snd (createSweep aux owner (Call (Given [b; a]) (Some k) comb vals has) sws) = Ok (Sweep comb (vals : list V) [TAux k]).
Proof.
  intros aux owner a b k has comb vals sws Ha Hb. assert (N : a <> b) by (intros ->; congruence). split.
  - apply C91_raises. cbn. right. right. exists [a; b]. split; [reflexivity|]. right. right. exists k, a, [b], b. cbn. auto 10.
  - rewrite (C91_unknown aux owner _ sws [b; a] k); [reflexivity|]. split; [reflexivity|]. split; [reflexivity|]. exists b, [a]. auto.
Qed.

(** Several sweeps, all created for existing attributes and the first not
    combinatorial: the sweeps are the calls in their order; and at every point
    of the grid of the groups they form, every attribute named by a call has
    the value that the index of the group selects from the values of the last
    call that named it, while all attributes no call named are as before. *)
Lemma createAll_made : forall aux owner cs sws, (forall c, In c cs -> exists l k, attribute owner c l k) ->
  exists new, createAll aux owner cs sws = sws ++ new /\ Forall2 (made owner) cs new.
Proof.
  intros aux owner. induction cs as [|c cs IH]; intros sws H; cbn [createAll].
  - exists []. rewrite app_nil_r. auto.
  - destruct (H c) as (l & k & A); [now left|]. destruct (C91_created aux owner c sws l k A) as (sw & E & M). rewrite E. cbn [fst].
    destruct (IH (sws ++ [sw])) as (new & E' & F). { intros c' Hc'. apply H. now right. }
    exists (sw :: new). rewrite E', <- app_assoc. auto.
Qed.
Theorem C91_session : forall aux owner c cs, (forall c', In c' (c :: cs) -> exists l k, attribute owner c' l k) -> c_comb c = false ->
  exists sws gs, createAll aux owner (c :: cs) [] = sws /\ Forall2 (made owner) (c :: cs) sws /\ gs <> [] /\ flatten gs = sws /\
    snd (prepare sws ([], 1)) = prod (sizes gs) /\
    (Forall long_enough gs -> forall idx (s : store V), in_grid (sizes gs) idx ->
       exists s', runPoint sws (fst (prepare sws ([], 1))) (rank (sizes gs) idx) s = (s', Ok tt) /\
         (forall t v, assigned (scheduled gs idx) t v -> s' t = v) /\
         (forall o a, (forall c' l k, In c' (c :: cs) -> attribute owner c' l k -> In o l -> a <> k) -> s' (TAttr o a) = s (TAttr o a)) /\
         (forall key, s' (TAux key) = s (TAux key))).
Proof.
  intros aux owner c cs H Hc. destruct (createAll_made aux owner (c :: cs) [] H) as (new & E & F). cbn [app] in E.
  destruct new as [|sw sws]; [now inversion F|]. assert (M : made owner c sw) by (now inversion F). destruct (C12_sweeps_form_groups V sw sws) as (gs & Ng & Eg). { destruct M as (-> & _). exact Hc. }
  exists (sw :: sws), gs. split; [exact E|]. split; [exact F|]. split; [exact Ng|]. split; [exact Eg|]. split.
  { rewrite <- Eg, (C12_number_of_points V gs _ Ng). reflexivity. }
  intros Long idx s G. destruct (C12_point_assigns_selected_values V gs idx s Ng Long G) as (s' & R & A & _). rewrite Eg in R.
  exists s'. split; [exact R|]. split; [exact A|].
  assert (K : forall t, (forall c' sw', In c' (c :: cs) -> made owner c' sw' -> ~ In t (sw_targets sw')) -> s' t = s t).
  { intros t Nt. pose proof (runPoint_frame (sw :: sws) (fst (prepare (sw :: sws) ([], 1))) (rank (sizes gs) idx) s t) as Q. rewrite R in Q. apply Q.
    intros Hin. apply in_flat_map in Hin. destruct Hin as (sw' & Hs & Ht).
    assert (X : exists c', In c' (c :: cs) /\ made owner c' sw').
    { clear - F Hs. induction F as [|x y l l' Mxy _ IH]; [contradiction|]. destruct Hs as [<-|Hs]; [exists x; split; [now left|assumption]|]. destruct (IH Hs) as (c' & H1 & H2). exists c'. split; [now right|assumption]. }
    destruct X as (c' & H1 & H2). exact (Nt c' sw' H1 H2 Ht). }
  split.
  - intros o a Na. apply K. intros c' sw' Hc' (_ & _ & _ & l & k & At & T) Ht. apply T in Ht. destruct Ht as (o' & Ho & Eo). injection Eo as <- <-.
    exact (Na c' l a Hc' At Ho eq_refl).
  - intros key. apply K. intros c' sw' Hc' (_ & _ & _ & l & k & At & T) Ht. apply T in Ht. destruct Ht as (o' & Ho & Eo). discriminate.
Qed.
End C91.

(** Two systems 1 and 2 with a frequency swept together, then g of system 3. *)
#[local] Open Scope string_scope.
Definition hasF (o : nat) (a : string) : bool := String.eqb a (if Nat.eqb o 3 then "g" else "frequency").
Definition calls : list (call nat) :=
  [Call (Given [1; 2; 1]) (Some "frequency") false [10; 20] hasF; Call Default (Some "g") true [5; 6; 7] hasF].
Example C91_ex_hyp : forall c', In c' calls -> exists l k, attribute (Some (Some 3)) c' l k.
Proof.
  intros c' [<-|[<-|[]]].
  - exists [1; 2; 1], "frequency". split; [reflexivity|]. split; [discriminate|]. split; [reflexivity|]. intros o [<-|[<-|[<-|[]]]]; reflexivity.
  - exists [3], "g". split; [exists 3; auto|]. split; [discriminate|]. split; [reflexivity|]. intros o [<-|[]]; reflexivity.
Qed.
Example C91_ex : createAll 0 (Some (Some 3)) calls [] =
  [Sweep false [10; 20] [TAttr 1 "frequency"; TAttr 2 "frequency"]; Sweep true [5; 6; 7] [TAttr 3 "g"]] /\
  unknown None (Call (Given [3; 1]) (Some "frequency") false [1] hasF) [3; 1] "frequency".
Proof. split; [reflexivity|]. split; [reflexivity|]. split; [reflexivity|]. exists 3, [1]. auto. Qed.

Example C91_ex_auxiliary : exists c sw, c_what c = AuxObject "x" /\ c_vals c = [4; 5] /\
  createSweep 0 None c [] = ([sw], Ok sw) /\ sw_targets sw = [TAttr 0 "x"].
Proof. exists (Call (AuxObject "x") (Some "x") false [4; 5] hasF). eexists. repeat split. Qed.

Print Assumptions C91_created.
Print Assumptions C91_unknown.
Print Assumptions C91_auxiliary.
Print Assumptions C91_raises.
Print Assumptions C91_rejected.
Print Assumptions C91_typo_refuted.
Print Assumptions C91_order_refuted.
Print Assumptions C91_session.
