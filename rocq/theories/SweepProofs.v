From Coq Require Import QArith Qround Lqa.
From Verif Require Import Py SweepModel SweepSpec.
#[local] Open Scope nat_scope.

(** ** Index arithmetic *)
Lemma prod_app a b : prod (a ++ b) = prod a * prod b.
Proof. induction a as [|x a IH]; cbn [app prod]; [lia|rewrite IH; lia]. Qed.
Lemma prod_rev a : prod (rev a) = prod a.
Proof. induction a as [|x a IH]; simpl; [reflexivity|rewrite prod_app; simpl; rewrite IH; lia]. Qed.

Lemma in_grid_length lens idx : in_grid lens idx -> List.length idx = List.length lens.
Proof. induction 1; simpl; auto. Qed.

Lemma rank_bound lens idx : in_grid lens idx -> rank lens idx < prod lens.
Proof.
  induction 1 as [|n i ns is Hi H IH]; simpl; [lia|].
  assert (i * prod ns + prod ns <= n * prod ns) by nia. lia.
Qed.

Lemma in_grid_pos lens idx : in_grid lens idx -> Forall (fun n => 0 < n) lens.
Proof. induction 1; constructor; auto; lia. Qed.

Lemma rank_app lens idx n i : List.length lens = List.length idx ->
  rank (lens ++ [n]) (idx ++ [i]) = rank lens idx * n + i.
Proof.
  revert idx; induction lens as [|m lens IH]; destruct idx as [|j idx]; simpl; intros H; try discriminate; [lia|].
  rewrite IH by lia. rewrite prod_app; simpl. lia.
Qed.

Lemma in_grid_app lens idx n i : in_grid (lens ++ [n]) (idx ++ [i]) <-> in_grid lens idx /\ i < n.
Proof.
  revert idx; induction lens as [|m lens IH]; intros idx; simpl.
  - split.
    + destruct idx as [|j idx]; simpl; intros H; inversion H as [|? ? ? ? H1 H2]; subst.
      * split; [constructor|assumption].
      * inversion H2 as [|]. destruct idx; discriminate.
    + intros [H1 H2]; inversion H1; subst; constructor; [assumption|constructor].
  - split.
    + destruct idx as [|j idx]; simpl; intros H; inversion H as [|? ? ? ? H1 H2]; subst.
      * inversion H2 as [E1 E2|]; destruct lens; discriminate.
      * apply IH in H2. destruct H2; split; [constructor; assumption|assumption].
    + intros [H1 H2]; inversion H1; subst; simpl. constructor; [assumption|]. apply IH; auto.
Qed.

Lemma indices_acc args : forall ind acc,
  indices_loop ind args acc = match indices_loop ind args [] with Ok l => Ok (l ++ acc) | Err e => Err e end.
Proof.
  induction args as [|a args IH]; intros ind acc; cbn [indices_loop]; [reflexivity|].
  destruct (Nat.eqb a 0); [reflexivity|]. rewrite IH, (IH _ [ind mod a]).
  destruct (indices_loop _ args []); [rewrite <- app_assoc; reflexivity|reflexivity].
Qed.

Lemma indices_rank lens idx : in_grid lens idx -> indicesForSweep (rank lens idx) (rev lens) = Ok idx.
Proof.
  revert idx; induction lens as [|n lens IH] using rev_ind; intros idx H.
  - inversion H; reflexivity.
  - destruct idx as [|i idx _] using rev_ind.
    { apply in_grid_length in H; rewrite app_length in H; simpl in H; lia. }
    apply in_grid_app in H; destruct H as [H Hi].
    rewrite rank_app by (symmetry; apply in_grid_length, H). rewrite rev_app_distr; simpl.
    unfold indicesForSweep; cbn [indices_loop].
    destruct (Nat.eqb_spec n 0) as [|Hn]; [lia|].
    assert (E : (rank lens idx * n + i) mod n = i).
    { rewrite Nat.add_comm, Nat.mod_add by exact Hn. apply Nat.mod_small, Hi. }
    rewrite E, Nat.add_sub, Nat.div_mul by exact Hn.
    rewrite indices_acc. unfold indicesForSweep in IH. rewrite (IH idx H). reflexivity.
Qed.

Lemma rank_surj lens ind : Forall (fun n => 0 < n) lens -> ind < prod lens ->
  exists idx, in_grid lens idx /\ rank lens idx = ind.
Proof.
  revert ind; induction lens as [|n lens IH]; intros ind Hp Hi.
  - exists []; simpl in *; split; [constructor|lia].
  - inversion Hp as [|? ? Hn Hp']; subst. cbn [prod] in Hi.
    assert (Hpos : 0 < prod lens).
    { clear - Hp'. induction Hp'; simpl; [lia|nia]. }
    destruct (IH (ind mod prod lens) Hp') as [idx [H1 H2]].
    { apply Nat.mod_upper_bound; lia. }
    exists (ind / prod lens :: idx). split.
    + constructor; [|exact H1]. apply Nat.div_lt_upper_bound; [lia|nia].
    + simpl. rewrite H2. pose proof (Nat.div_mod_eq ind (prod lens)). lia.
Qed.

Lemma prod_pos lens : 0 < prod lens -> Forall (fun n => 0 < n) lens.
Proof. induction lens as [|n l IH]; simpl; intros H; constructor; [nia|apply IH; nia]. Qed.

Lemma indices_grid lens ind : ind < prod lens ->
  exists idx, indicesForSweep ind (rev lens) = Ok idx /\ in_grid lens idx /\ rank lens idx = ind.
Proof.
  intros H. destruct (rank_surj lens ind) as [idx [H1 H2]]; [apply prod_pos; lia|exact H|].
  exists idx; split; [rewrite <- H2; apply indices_rank, H1|auto].
Qed.

Lemma rank_lex lens a b : in_grid lens a -> in_grid lens b -> (rank lens a < rank lens b <-> lex_lt a b).
Proof.
  revert a b; induction lens as [|n lens IH]; intros a b Ha Hb.
  - inversion Ha; inversion Hb; subst; simpl; split; [lia|tauto].
  - inversion Ha as [|? i ? a' Hi Ha']; inversion Hb as [|? j ? b' Hj Hb']; subst. simpl.
    pose proof (rank_bound _ _ Ha'). pose proof (rank_bound _ _ Hb').
    rewrite <- (IH a' b' Ha' Hb'). split.
    + intros H1. destruct (lt_eq_lt_dec i j) as [[Hlt| ->]|Hgt]; [left; exact Hlt|right; split; [reflexivity|lia]|].
      exfalso. nia.
    + intros [H1|[-> H1]]; [nia|lia].
Qed.

(** ** prepare *)
Section V.
Context {V : Type}.
Implicit Types (sws : list (sweep V)) (gs : list (group V)).

Lemma target_eqb_spec a b : reflect (a = b) (target_eqb a b).
Proof.
  destruct a as [o x|x], b as [p y|y]; simpl; try (constructor; discriminate).
  - destruct (Nat.eqb_spec o p) as [->|H], (String.eqb_spec x y) as [->|H']; constructor; congruence.
  - destruct (String.eqb_spec x y) as [->|H]; constructor; congruence.
Qed.

Lemma prepare_loop_app a b : forall first inds, a <> [] ->
  prepare_loop (a ++ b : list (sweep V)) first inds = prepare_loop b false (prepare_loop a first inds).
Proof.
  induction a as [|x a IH]; intros first inds H; [congruence|]. cbn [app prepare_loop].
  destruct a as [|y a]; [reflexivity|]. rewrite IH by discriminate. reflexivity.
Qed.

Lemma prepare_followers (l : list (list V * list target)) inds :
  prepare_loop (map (fun f => Sweep false (fst f) (snd f)) l) false inds = inds.
Proof. induction l as [|f l IH]; simpl; [reflexivity|exact IH]. Qed.

Lemma prepare_group first (g : group V) inds :
  prepare_loop (flatten_group first g) first inds = List.length (fst (lead g)) :: inds.
Proof.
  unfold flatten_group; cbn [prepare_loop sw_comb sw_list]. rewrite orb_comm, orb_negb_r. apply prepare_followers.
Qed.

Lemma prepare_groups gs inds : prepare_loop (flat_map (flatten_group false) gs) false inds = rev (sizes gs) ++ inds.
Proof.
  revert inds; induction gs as [|g gs IH]; intros inds; [reflexivity|]. cbn [flat_map].
  rewrite prepare_loop_app by discriminate. rewrite prepare_group, IH. simpl. rewrite <- app_assoc; reflexivity.
Qed.

Lemma fold_mul l : fold_right Nat.mul 1 l = prod l.
Proof. induction l; simpl; congruence. Qed.

Lemma prepare_spec gs old : gs <> [] -> prepare (flatten gs) old = (rev (sizes gs), prod (sizes gs)).
Proof.
  intros H. destruct gs as [|g gs]; [congruence|]. unfold prepare.
  assert (E : prepare_loop (flatten (g :: gs)) true [] = rev (sizes (g :: gs))).
  { cbn [flatten]. rewrite prepare_loop_app by discriminate. rewrite prepare_group, prepare_groups. reflexivity. }
  destruct (flatten (g :: gs)) eqn:F; [discriminate|]. cbv zeta. rewrite E, fold_mul, prod_rev. reflexivity.
Qed.

(** ** runSweep *)
Lemma runUpdate_spec (sw : sweep V) v s t :
  runUpdate sw v s t = if existsb (target_eqb t) (sw_targets sw) then v else s t.
Proof.
  unfold runUpdate. generalize (sw_targets sw) as l. intros l; revert s.
  induction l as [|x l IH]; intros s; simpl; [reflexivity|]. rewrite IH. unfold assign.
  destruct (existsb (target_eqb t) l); [rewrite orb_true_r; reflexivity|rewrite orb_false_r; reflexivity].
Qed.

Lemma existsb_target t l : existsb (target_eqb t) l = true <-> In t l.
Proof.
  rewrite existsb_exists; split.
  - intros [x [H1 H2]]. destruct (target_eqb_spec t x); [subst; exact H1|discriminate].
  - intros H; exists t; split; [exact H|]. destruct (target_eqb_spec t t); congruence.
Qed.

(** The store after executing a schedule. *)
Fixpoint exec (sch : list (list V * list target * nat)) (s : store V) : store V * result unit :=
  match sch with
  | [] => (s, Ok tt)
  | (vals, tg, i) :: rest =>
      match runOne (Sweep false vals tg) i s with
      | (s', Ok _) => exec rest s'
      | (s', Err e) => (s', Err e)
      end
  end.

Lemma exec_app a b (s : store V) : exec (a ++ b) s =
  match exec a s with (s', Ok _) => exec b s' | (s', Err e) => (s', Err e) end.
Proof.
  revert s; induction a as [|[[vals tg] i] a IH]; intros s; cbn [app exec]; [reflexivity|].
  destruct (runOne (Sweep false vals tg) i s) as [s' [u|e]]; [apply IH|reflexivity].
Qed.

Lemma runSweep_loop_app (a b : list (sweep V)) indList indx (s : store V) : (forall x, In x a -> sw_comb x = false) ->
  runSweep_loop (a ++ b) indList indx s =
  match runSweep_loop a indList indx s with (s', Ok _) => runSweep_loop b indList indx s' | (s', Err e) => (s', Err e) end.
Proof.
  revert s; induction a as [|x a IH]; intros s H; cbn [app runSweep_loop]; [reflexivity|].
  rewrite (H x (or_introl eq_refl)).
  destruct (nth_error indList indx); [|reflexivity].
  destruct (runOne x n s) as [s' [u|e]]; [|reflexivity]. apply IH. intros y Hy; apply H; right; exact Hy.
Qed.

Lemma run_followers (l : list (list V * list target)) indList indx i s : nth_error indList indx = Some i ->
  runSweep_loop (map (fun f => Sweep false (fst f) (snd f)) l) indList indx s
  = exec (map (fun f => (fst f, snd f, i)) l) s.
Proof.
  intros H; revert s; induction l as [|f l IH]; intros s; cbn [map runSweep_loop exec]; [reflexivity|].
  cbn [sw_comb]. rewrite H. destruct (runOne _ i s) as [s' [u|e]]; [apply IH|reflexivity].
Qed.

Lemma run_groups gs : forall done idx s, List.length idx = List.length gs -> done <> [] ->
  runSweep_loop (flat_map (flatten_group false) gs) (done ++ idx) (List.length done - 1) s
  = exec (scheduled gs idx) s.
Proof.
  induction gs as [|g gs IH]; intros done idx s Hl Hd; [destruct idx; [reflexivity|discriminate]|].
  destruct idx as [|i idx]; [discriminate|]. cbn [flat_map scheduled].
  unfold flatten_group; cbn [app runSweep_loop sw_comb negb].
  assert (Hl1 : S (List.length done - 1) = List.length done) by (destruct done; [congruence|simpl; lia]).
  rewrite Hl1.
  assert (Hn : nth_error (done ++ i :: idx) (List.length done) = Some i).
  { rewrite nth_error_app2 by lia. rewrite Nat.sub_diag; reflexivity. }
  rewrite Hn. cbn [map app exec].
  replace (runOne (Sweep true (fst (lead g)) (snd (lead g))) i s)
    with (runOne (Sweep false (fst (lead g)) (snd (lead g))) i s) by reflexivity.
  destruct (runOne (Sweep false (fst (lead g)) (snd (lead g))) i s) as [s' [u|e]]; [|reflexivity].
  rewrite runSweep_loop_app.
  2:{ intros x Hx; apply in_map_iff in Hx; destruct Hx as [f [<- _]]; reflexivity. }
  rewrite (run_followers _ _ _ i _ Hn), exec_app.
  destruct (exec (map (fun f => (fst f, snd f, i)) (followers g)) s') as [s'' [u'|e]]; [|reflexivity].
  replace (done ++ i :: idx) with ((done ++ [i]) ++ idx) by (rewrite <- app_assoc; reflexivity).
  rewrite <- (IH (done ++ [i]) idx s''); [|simpl in Hl; lia|destruct done; discriminate].
  rewrite app_length; simpl. f_equal; lia.
Qed.

Lemma run_all gs idx s : List.length idx = List.length gs ->
  runSweep (flatten gs) idx s = exec (scheduled gs idx) s.
Proof.
  intros Hl. unfold runSweep. destruct gs as [|g gs], idx as [|i idx]; try discriminate; [reflexivity|].
  cbn [flatten scheduled]. unfold flatten_group at 1; cbn [app runSweep_loop sw_comb negb nth_error].
  cbn [map app exec]. destruct (runOne (Sweep false (fst (lead g)) (snd (lead g))) i s) as [s' [u|e]]; [|reflexivity].
  rewrite runSweep_loop_app.
  2:{ intros x Hx; apply in_map_iff in Hx; destruct Hx as [f [<- _]]; reflexivity. }
  rewrite (run_followers _ (i :: idx) 0 i _ eq_refl), exec_app.
  destruct (exec (map (fun f => (fst f, snd f, i)) (followers g)) s') as [s'' [u'|e]]; [|reflexivity].
  rewrite <- (run_groups gs [i] idx s''); [reflexivity|simpl in Hl; lia|discriminate].
Qed.

Lemma exec_ok sch s : Forall (fun e => snd e < List.length (fst (fst e))) sch ->
  exists s', exec sch s = (s', Ok tt)
    /\ (forall t v, assigned sch t v -> s' t = v)
    /\ (forall t, Forall (fun e => ~ In t (snd (fst e))) sch -> s' t = s t).
Proof.
  intros H. induction sch as [|[[vals tg] i] sch IH] using rev_ind.
  - exists s; split; [reflexivity|split; [|auto]].
    intros t v [b [a [vs [g [j [E _]]]]]]. destruct b; discriminate.
  - apply Forall_app in H; destruct H as [H1 H2]. destruct (IH H1) as [s1 [E [A B]]].
    inversion H2 as [|? ? Hi _]; subst; simpl in Hi.
    destruct (nth_error vals i) as [v|] eqn:Ev; [|apply nth_error_None in Ev; lia].
    exists (runUpdate (Sweep false vals tg) v s1). rewrite exec_app, E. cbn [exec].
    unfold runOne; cbn [sw_list]. rewrite Ev. split; [reflexivity|split].
    + intros t w [b [a [vs [g [j [E2 [Ht [Hn Ha]]]]]]]]. rewrite runUpdate_spec; cbn [sw_targets].
      destruct a as [|e a _] using rev_ind.
      * apply app_inj_tail in E2; destruct E2 as [-> E3]; injection E3 as -> -> ->.
        apply existsb_target in Ht; rewrite Ht. congruence.
      * rewrite app_comm_cons, app_assoc in E2. apply app_inj_tail in E2; destruct E2 as [-> <-].
        apply Forall_app in Ha; destruct Ha as [Ha Hl]. inversion Hl as [|? ? Hnt _]; subst; simpl in Hnt.
        destruct (existsb (target_eqb t) tg) eqn:X; [apply existsb_target in X; tauto|].
        apply A. exists b, a, vs, g, j; auto.
    + intros t Ht. apply Forall_app in Ht; destruct Ht as [Ht1 Ht2].
      inversion Ht2 as [|? ? Hnt _]; subst; simpl in Hnt. rewrite runUpdate_spec; cbn [sw_targets].
      destruct (existsb (target_eqb t) tg) eqn:X; [apply existsb_target in X; tauto|]. apply B, Ht1.
Qed.

Lemma scheduled_in_range gs idx : Forall long_enough gs -> in_grid (sizes gs) idx ->
  Forall (fun e => snd e < List.length (fst (fst e))) (scheduled gs idx).
Proof.
  revert idx; induction gs as [|g gs IH]; intros idx Hl Hg; [destruct idx; constructor|].
  inversion Hl as [|? ? H1 H2]; subst. inversion Hg as [|? i ? idx' Hi Hg']; subst. cbn [scheduled].
  apply Forall_app; split; [|apply IH; assumption].
  rewrite Forall_map; simpl. constructor; [exact Hi|]. eapply Forall_impl; [|exact H1]. simpl; intros; lia.
Qed.

Lemma runPoint_spec gs idx s : gs <> [] -> Forall long_enough gs -> in_grid (sizes gs) idx ->
  exists s', runPoint (flatten gs) (fst (prepare (flatten gs) ([], 1))) (rank (sizes gs) idx) s = (s', Ok tt)
    /\ (forall t v, assigned (scheduled gs idx) t v -> s' t = v)
    /\ (forall t, Forall (fun e => ~ In t (snd (fst e))) (scheduled gs idx) -> s' t = s t).
Proof.
  intros Hne Hl Hg. rewrite prepare_spec by exact Hne. cbn [fst]. unfold runPoint.
  rewrite (indices_rank _ _ Hg). destruct (rev (sizes gs)) eqn:E.
  - exfalso. apply (f_equal (@List.length nat)) in E. rewrite rev_length in E. unfold sizes in E.
    rewrite map_length in E. destruct gs; [congruence|discriminate].
  - rewrite run_all; [apply exec_ok, scheduled_in_range; assumption|].
    rewrite (in_grid_length _ _ Hg). unfold sizes; apply map_length.
Qed.

(** Every sweep of a flattened, well-formed list is scheduled: the values
    assigned. *)
Lemma scheduled_assigns gs idx e : In e (scheduled gs idx) -> forall t, In t (snd (fst e)) ->
  exists vals i, In (vals, i) (map (fun e => (fst (fst e), snd e)) (scheduled gs idx)).
Proof. intros H t _. exists (fst (fst e)), (snd e). apply in_map_iff; exists e; auto. Qed.

(** ** First sweep combinatorial *)
Definition ncomb sws : nat := List.length (filter sw_comb sws).

Lemma prepare_length sws inds : List.length (prepare_loop sws false inds) = ncomb sws + List.length inds.
Proof.
  revert inds; induction sws as [|x sws IH]; intros inds; cbn [prepare_loop]; [reflexivity|].
  rewrite IH, orb_false_r. unfold ncomb; simpl. destruct (sw_comb x); simpl; lia.
Qed.

Lemma run_overflow sws : forall indList indx s, List.length indList <= indx + ncomb sws -> sws <> [] ->
  snd (runSweep_loop sws indList indx s) = Err IndexError.
Proof.
  induction sws as [|x sws IH]; intros indList indx s Hl Hne; [congruence|]. cbn [runSweep_loop].
  destruct (nth_error indList (if sw_comb x then S indx else indx)) as [i|] eqn:E; [|reflexivity].
  unfold runOne. destruct (nth_error (sw_list x) i); [|reflexivity].
  assert (Hlt : (if sw_comb x then S indx else indx) < List.length indList) by (apply nth_error_Some; congruence).
  unfold ncomb in Hl; simpl in Hl.
  destruct sws as [|y sws]; [simpl in Hl; destruct (sw_comb x); simpl in Hl; lia|].
  apply IH; [|discriminate]. unfold ncomb. destruct (sw_comb x); simpl in *; lia.
Qed.

Lemma indices_length ind args acc l : indices_loop ind args acc = Ok l ->
  List.length l = List.length args + List.length acc.
Proof.
  revert ind acc; induction args as [|a args IH]; intros ind acc; cbn [indices_loop].
  - intros E; injection E as <-; reflexivity.
  - destruct (Nat.eqb a 0); [discriminate|]. intros E; apply IH in E. simpl in *; lia.
Qed.

Lemma prod_fold_pos l : 0 < prod l -> Forall (fun n => n <> 0) l.
Proof. intros H; apply prod_pos in H. eapply Forall_impl; [|exact H]; simpl; lia. Qed.

Lemma indices_total args : Forall (fun n => n <> 0) args -> forall ind acc, exists l, indices_loop ind args acc = Ok l.
Proof.
  induction 1 as [|a args Ha H IH]; intros ind acc; cbn [indices_loop]; [eauto|].
  destruct (Nat.eqb_spec a 0); [congruence|apply IH].
Qed.

Lemma first_combinatorial_fails sw sws old ind s : sw_comb sw = true ->
  ind < snd (prepare (sw :: sws) old) ->
  snd (runPoint (sw :: sws) (fst (prepare (sw :: sws) old)) ind s) = Err IndexError.
Proof.
  intros Hc. unfold prepare; cbn [fst snd]. rewrite fold_mul. intros Hi. unfold runPoint.
  set (inds := prepare_loop (sw :: sws) true []) in *.
  assert (Hl : List.length inds = S (ncomb sws)).
  { unfold inds; cbn [prepare_loop]. rewrite orb_true_r, prepare_length; simpl; lia. }
  destruct inds as [|a r] eqn:E; [discriminate|]. rewrite <- E in *.
  destruct (indices_total inds (prod_fold_pos inds ltac:(lia)) ind []) as [l El].
  unfold indicesForSweep; rewrite El. apply indices_length in El.
  apply run_overflow; [|discriminate]. unfold ncomb in *; simpl in *. rewrite Hc; simpl. lia.
Qed.

(** ** No sweeps left *)
Lemma prepare_empty old : prepare ([] : list (sweep V)) old = old.
Proof. reflexivity. Qed.
End V.

(** ** arange *)
Section Arange.
Local Open Scope Q_scope.

Lemma inject_Z_nat_S n : inject_Z (Z.of_nat (S n)) == inject_Z (Z.of_nat n) + 1.
Proof. rewrite Nat2Z.inj_succ, <- Z.add_1_r, inject_Z_plus. reflexivity. Qed.

Lemma Qceiling_plus_Z x n : Qceiling (x + inject_Z n) = (Qceiling x + n)%Z.
Proof.
  apply Z.le_antisymm.
  - assert (H : x + inject_Z n <= inject_Z (Qceiling x + n)).
    { rewrite inject_Z_plus. apply Qplus_le_compat; [apply Qle_ceiling|apply Qle_refl]. }
    apply Qceiling_resp_le in H. rewrite Qceiling_Z in H. exact H.
  - assert (H : x <= inject_Z (Qceiling (x + inject_Z n) - n)).
    { unfold Z.sub. rewrite inject_Z_plus, inject_Z_opp. pose proof (Qle_ceiling (x + inject_Z n)). lra. }
    apply Qceiling_resp_le in H. rewrite Qceiling_Z in H. lia.
Qed.

(** Number of values of a linear sweep. *)
Definition npoints (mn mx st : Q) : nat := Z.to_nat (Qceiling ((mx - mn) / st) + 1).

Lemma linear_list mn mx st : ~ st == 0 ->
  arange mn (mx + st) st = Ok (map (fun i => mn + inject_Z (Z.of_nat i) * st) (seq 0 (npoints mn mx st))).
Proof.
  intros Hs. unfold arange. destruct (Qeq_bool st 0) eqn:E; [apply Qeq_bool_iff in E; contradiction|].
  assert (Ec : Qceiling ((mx + st - mn) / st) = (Qceiling ((mx - mn) / st) + 1)%Z).
  { rewrite <- Qceiling_plus_Z. apply Qceiling_comp. field. exact Hs. }
  rewrite Ec. reflexivity.
Qed.

Lemma linear_values mn mx st l : 0 < st -> mn <= mx -> arange mn (mx + st) st = Ok l ->
  (forall i v, nth_error l i = Some v -> v = mn + inject_Z (Z.of_nat i) * st)
  /\ (forall v, In v l -> mn <= v /\ v < mx + st)
  /\ (forall k : nat, mx == mn + inject_Z (Z.of_nat k) * st ->
        List.length l = S k /\ forall v, nth_error l k = Some v -> v == mx)
  /\ (forall k : nat, mn + inject_Z (Z.of_nat k) * st <= mx -> (k < List.length l)%nat).
Proof.
  intros Hst Hle E. assert (Hn0 : ~ st == 0) by (intros H; rewrite H in Hst; exact (Qlt_irrefl _ Hst)).
  rewrite (linear_list mn mx st Hn0) in E. injection E as <-.
  assert (Hc : (0 <= Qceiling ((mx - mn) / st))%Z).
  { change 0%Z with (Qceiling (inject_Z 0)). apply Qceiling_resp_le.
    apply Qle_shift_div_l; [exact Hst|]. change (inject_Z 0) with 0. lra. }
  assert (NE : forall i v, nth_error (map (fun i => mn + inject_Z (Z.of_nat i) * st) (seq 0 (npoints mn mx st))) i = Some v
            -> (i < npoints mn mx st)%nat /\ v = mn + inject_Z (Z.of_nat i) * st).
  { intros i v H. assert (Hi : (i < npoints mn mx st)%nat).
    { assert (H' : nth_error (map (fun i => mn + inject_Z (Z.of_nat i) * st) (seq 0 (npoints mn mx st))) i <> None) by congruence.
      apply nth_error_Some in H'. rewrite map_length, seq_length in H'. exact H'. }
    split; [exact Hi|].
    rewrite (map_nth_error _ i (seq 0 (npoints mn mx st)) (d := i)) in H; [congruence|].
    rewrite (nth_error_nth' _ 0%nat) by (rewrite seq_length; exact Hi). rewrite seq_nth by exact Hi. reflexivity. }
  split; [intros i v H; apply NE, H|]. split; [|split].
  - intros v Hv. apply In_nth_error in Hv. destruct Hv as [i Hi]. apply NE in Hi. destruct Hi as [Hi ->].
    split.
    + assert (H0 : 0 <= inject_Z (Z.of_nat i) * st).
      { apply Qmult_le_0_compat; [|apply Qlt_le_weak, Hst].
        change 0 with (inject_Z 0). rewrite <- Zle_Qle. lia. }
      lra.
    + unfold npoints in Hi. assert (Hz : (Z.of_nat i <= Qceiling ((mx - mn) / st))%Z) by lia.
      assert (Hlt : inject_Z (Z.of_nat i) < (mx - mn) / st + 1).
      { apply Qle_lt_trans with (inject_Z (Qceiling ((mx - mn) / st))); [rewrite <- Zle_Qle; exact Hz|].
        pose proof (Qceiling_lt ((mx - mn) / st)) as Hq.
        unfold Z.sub in Hq. rewrite inject_Z_plus in Hq. change (inject_Z (- (1))) with (- (1)) in Hq. lra. }
      apply (Qmult_lt_r _ _ st Hst) in Hlt.
      assert (Hf : ((mx - mn) / st + 1) * st == mx - mn + st) by (field; exact Hn0).
      rewrite Hf in Hlt. lra.
  - intros k Hk. assert (Ec : Qceiling ((mx - mn) / st) = Z.of_nat k).
    { rewrite <- (Qceiling_Z (Z.of_nat k)). apply Qceiling_comp. rewrite Hk. field. exact Hn0. }
    split.
    + rewrite map_length, seq_length. unfold npoints; rewrite Ec. lia.
    + intros v Hv. apply NE in Hv. destruct Hv as [_ ->]. symmetry; exact Hk.
  - intros k Hk. rewrite map_length, seq_length. unfold npoints.
    assert (Hz : (Z.of_nat k <= Qceiling ((mx - mn) / st))%Z).
    { rewrite <- (Qceiling_Z (Z.of_nat k)). apply Qceiling_resp_le. apply Qle_shift_div_l; [exact Hst|].
      lra. }
    lia.
Qed.

(** If max - min is not a multiple of the step, the last value lies beyond
    max. *)
Lemma linear_overshoot mn mx st : 0 < st -> mn <= mx ->
  (forall k : nat, ~ mx == mn + inject_Z (Z.of_nat k) * st) ->
  exists l v, arange mn (mx + st) st = Ok l /\ In v l /\ mx < v.
Proof.
  intros Hst Hle Hk. assert (Hn0 : ~ st == 0) by (intros H; rewrite H in Hst; exact (Qlt_irrefl _ Hst)).
  assert (Hc : (0 <= Qceiling ((mx - mn) / st))%Z).
  { change 0%Z with (Qceiling (inject_Z 0)). apply Qceiling_resp_le.
    apply Qle_shift_div_l; [exact Hst|]. change (inject_Z 0) with 0. lra. }
  set (c := Z.to_nat (Qceiling ((mx - mn) / st))).
  assert (Ecz : Z.of_nat c = Qceiling ((mx - mn) / st)) by (unfold c; rewrite Z2Nat.id; [reflexivity|exact Hc]).
  exists (map (fun i => mn + inject_Z (Z.of_nat i) * st) (seq 0 (npoints mn mx st))), (mn + inject_Z (Z.of_nat c) * st).
  split; [apply linear_list, Hn0|]. split.
  - apply in_map_iff. exists c; split; [reflexivity|]. apply in_seq. unfold npoints; lia.
  - destruct (Qlt_le_dec mx (mn + inject_Z (Z.of_nat c) * st)) as [H|H]; [exact H|exfalso].
    apply (Hk c). apply Qle_antisym; [|exact H].
    pose proof (Qle_ceiling ((mx - mn) / st)) as Hq. rewrite <- Ecz in Hq.
    apply (Qmult_le_compat_r _ _ st) in Hq; [|apply Qlt_le_weak, Hst].
    assert (Hf : (mx - mn) / st * st == mx - mn) by (field; exact Hn0).
    rewrite Hf in Hq. lra.
Qed.
End Arange.

(** The sweepList getter is idempotent and caches. *)
Lemma getSweepList_cached pow a l : a_list a = Some l -> getSweepList pow a = (a, Some l).
Proof. unfold getSweepList; intros ->; reflexivity. Qed.

Lemma getSweepList_twice pow a : let (a', l) := getSweepList pow a in snd (getSweepList pow a') = l.
Proof.
  unfold getSweepList at 1. destruct (a_list a) as [l|] eqn:E.
  - unfold getSweepList; rewrite E; reflexivity.
  - destruct a as [mn mx st num lg l0]; simpl in *.
    destruct mn as [mn|], mx as [mx|], lg; try reflexivity;
      destruct st as [st|]; try reflexivity.
    unfold getSweepList; simpl. destruct (arange mn (mx + st) st); reflexivity.
Qed.

(** ** removeSweep *)
Lemma removeSystem_all o sws : Forall (fun e => In o (snd e)) sws ->
  removeSystem_loop sws o =
  (filter (fun e => negb (match snd e with [] => true | _ => false end))
          (map (fun e => (fst e, del o (snd e))) sws), Ok tt).
Proof.
  induction 1 as [|[w sys] sws H1 H IH]; [reflexivity|]. cbn [removeSystem_loop map].
  assert (Ex : existsb (Nat.eqb o) sys = true).
  { apply existsb_exists; exists o; split; [exact H1|apply Nat.eqb_refl]. }
  rewrite Ex, IH. cbn [fst snd filter]. destruct (del o sys); reflexivity.
Qed.

Lemma removeSystem_missing o w sys before after : Forall (fun e => In o (snd e)) before -> ~ In o sys ->
  snd (removeSystem_loop (before ++ (w, sys) :: after) o) = Err KeyError
  /\ exists b', fst (removeSystem_loop (before ++ (w, sys) :: after) o) = b' ++ (w, sys) :: after.
Proof.
  intros H Hn. induction H as [|[w' sys'] l H1 H IH]; cbn [app removeSystem_loop].
  - assert (Ex : existsb (Nat.eqb o) sys = false).
    { destruct (existsb (Nat.eqb o) sys) eqn:E; [|reflexivity]. apply existsb_exists in E.
      destruct E as [x [Hx E]]; apply Nat.eqb_eq in E; subst; contradiction. }
    rewrite Ex; split; [reflexivity|exists []; reflexivity].
  - assert (Ex : existsb (Nat.eqb o) sys' = true).
    { apply existsb_exists; exists o; split; [exact H1|apply Nat.eqb_refl]. }
    rewrite Ex. destruct (removeSystem_loop (l ++ (w, sys) :: after) o) as [r x]; simpl in *.
    destruct IH as [-> [b' ->]]. split; [reflexivity|]. 
    exists ((match del o sys' with [] => [] | _ => [(w', del o sys')] end) ++ b').
    destruct (del o sys'); rewrite <- ?app_assoc; reflexivity.
Qed.

(** ** Every list of sweeps whose first one is not combinatorial is a list of
    groups. *)
Section Groups.
Context {V : Type}.
Implicit Types sws : list (sweep V).

Lemma tail_groups sws : exists fs (gs : list (group V)),
  sws = map (fun f => Sweep false (fst f) (snd f)) fs ++ flat_map (flatten_group false) gs.
Proof.
  induction sws as [|[c vs tg] sws [fs [gs E]]]; [exists [], []; reflexivity|]. subst sws.
  destruct c.
  - exists [], (Group (vs, tg) fs :: gs). reflexivity.
  - exists ((vs, tg) :: fs), gs. reflexivity.
Qed.

Lemma groups_exist sw sws : sw_comb sw = false -> exists gs : list (group V), gs <> [] /\ flatten gs = sw :: sws.
Proof.
  intros H. destruct sw as [c vs tg]; simpl in H; subst c. destruct (tail_groups sws) as [fs [gs ->]].
  exists (Group (vs, tg) fs :: gs). split; [discriminate|reflexivity].
Qed.
End Groups.
