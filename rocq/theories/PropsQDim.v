(** Properties of the dimension bookkeeping and the Pauli checks of systems. *)
From Verif Require Import Py QDimModel QDimSpec QDimProofs.
#[local] Open Scope Z_scope.
#[local] Arguments OSetDim _%nat_scope _%Z_scope.
#[local] Arguments OAdd (_ _)%nat_scope.
#[local] Arguments ORemove (_ _)%nat_scope.
#[local] Arguments OCoupling _%nat_scope.
#[local] Arguments OTerm _%nat_scope.
#[local] Arguments OOperator (_ _)%nat_scope.

(** C24: give systems c1, ..., cn any dimensions d1, ..., dn and add them to a
    system p.  Then p has them as sub-systems in this order, its dimension is
    d1 * ... * dn, and ck has d1 * ... * d(k-1) before it and d(k+1) * ... * dn
    after it. *)
Theorem C24_flat_composite : forall lim ks p cs, (2 <= lim)%nat -> ks p = KSystem -> cs <> [] -> NoDup (p :: map fst cs) ->
  Forall (fun d => 0 < d) (map snd cs) -> fold_right Z.mul 1 (map snd cs) < 2 ^ 53 ->
  let h := run lim (map (fun c => OSetDim (fst c) (snd c)) cs ++ map (OAdd p) (map fst cs)) (init ks) in
  subs (h p) = map fst cs /\ dB (h p) = 1 /\ dA (h p) = 1 /\
  dimension lim h p = Ok (fold_right Z.mul 1 (map snd cs)) /\
  forall k c d, nth_error cs k = Some (c, d) ->
    dimension lim h c = Ok d /\
    dB (h c) = fold_right Z.mul 1 (firstn k (map snd cs)) /\
    dA (h c) = fold_right Z.mul 1 (skipn (S k) (map snd cs)).
Proof.
  intros lim ks p cs Hl Hp Hne ND Pos Hbig. cbv zeta.
  assert (Er : forall os os' h, run lim (os ++ os') h = run lim os' (run lim os h)) by (induction os; intros; cbn [app run]; auto).
  rewrite Er. pose proof ND as ND'. apply NoDup_cons_iff in ND'. destruct ND' as [Np ND'].
  destruct (flat_dims lim cs (init ks)) as [A B]; [lia|assumption| |].
  { intros [c d] Hc. cbn [fst snd]. split.
    - assert (Hd : In d (map snd cs)) by (change d with (snd (c, d)); now apply in_map).
      rewrite Forall_forall in Pos. split; [now apply Pos|]. eapply Z.le_lt_trans; [|exact Hbig].
      apply in_split in Hc. destruct Hc as (l1 & l2 & ->). rewrite map_app, prod_app. cbn [map fold_right snd].
      assert (P1 : 0 < fold_right Z.mul 1 (map snd l1)) by (apply prod_pos; apply Forall_forall; intros x Hx; apply Pos; rewrite map_app, in_app_iff; now left).
      assert (P2 : 0 < fold_right Z.mul 1 (map snd l2)) by (apply prod_pos; apply Forall_forall; intros x Hx; apply Pos; rewrite map_app, in_app_iff; right; now right).
      specialize (Pos d Hd). revert P1 P2. generalize (fold_right Z.mul 1 (map snd l1)) (fold_right Z.mul 1 (map snd l2)). intros A B P1 P2.
      assert (1 <= A * B) by nia. replace (A * (d * B)) with (d * (A * B)) by ring. nia.
    - cbn [rep]. unfold init. cbv beta. destruct (ks c); cbn; (split; [intros t; intuition; subst; eauto|first [exists 1; repeat split; lia|exists 2; repeat split; lia]]). }
  pose proof (flat_add lim p cs [] (L p 1) (run lim (map (fun c => OSetDim (fst c) (snd c)) cs) (init ks)) Hl) as R.
  assert (E0 : run lim (map (fun c => OSetDim (fst c) (snd c)) cs) (init ks) p = fresh p KSystem). { rewrite B by assumption. unfold init. now rewrite Hp. }
  specialize (R eq_refl eq_refl ltac:(cbn; lia) eq_refl). cbn [app rep] in R. rewrite E0 in R. cbn in R.
  specialize (R ltac:(repeat split; lia) ltac:(discriminate) A ND Pos Hbig Hne).
  set (h := run lim (map (OAdd p) (map fst cs)) _) in *.
  assert (R' : rep h None 1 1 (N p (map leaf cs))) by exact R. clear R.
  pose proof R' as R. rewrite rep_N in R. destruct R as (R1 & R2 & R3 & R4 & R5 & R6).
  split. { rewrite R2, map_map. reflexivity. } split; [assumption|]. split; [assumption|]. split.
  { change p with (rt (N p (map leaf cs))) at 1. rewrite (dimension_rep _ _ _ _ _ lim R'); [now rewrite tdim_N, tdims_leaves|].
    rewrite depth_N. pose proof (depths_leaves cs). lia. }
  intros k c d Hk. pose proof (reps_nth h p 1 (map leaf cs) 1 k (leaf (c, d)) R6 ltac:(now apply map_nth_error)) as Rk.
  rewrite firstn_map, skipn_map, !tdims_leaves, <- firstn_map, <- skipn_map in Rk. unfold leaf in Rk. cbn [fst snd rep] in Rk.
  rewrite !Z.mul_1_l in Rk. split; [|tauto].
  destruct lim; [lia|]. cbn [dimension]. destruct Rk as (-> & _ & -> & _). reflexivity.
Qed.
Example C24_example : let h := run 10 (map (fun c => OSetDim (fst c) (snd c)) [(1%nat, 2); (2%nat, 3); (3%nat, 5)] ++ map (OAdd 0) [1; 2; 3]%nat) (init (fun i => match i with O => KSystem | _ => KCavity end)) in
  dimension 10 h 0%nat = Ok 30 /\ map (fun i => (dB (h i), dA (h i))) [1; 2; 3]%nat = [(1, 15); (2, 5); (6, 1)].
Proof. vm_compute. auto. Qed.

(** C25 (with C27): in every history of fine calls — systems of any kind, any
    trees built bottom-up, dimensions changed and single systems removed at any
    point — every root system has right bookkeeping for the whole tree below
    it; the dimension of every system is the product of its leaves; and
    before * own * after is the dimension of the root. *)
Theorem C25_nested_bookkeeping : forall lim ks os, (2 <= lim)%nat -> allFine lim os (init ks) ->
  let h := run lim os (init ks) in
  forall r, root h r ->
    (exists D, dimension lim h r = Ok D /\ has_dim h r D) /\
    forall s b a, placed h r s b a ->
      dB (h s) = b /\ dA (h s) = a /\
      exists d D, dimension lim h s = Ok d /\ has_dim h s d /\ dimension lim h r = Ok D /\ dB (h s) * d * dA (h s) = D.
Proof.
  intros lim ks os Hl Hf h r Hr. assert (W : WF lim h) by (apply run_WF; [now apply init_WF|assumption]).
  destruct (Inv_booked lim h W r Hr) as [_ Hb]. split.
  - destruct (WF_dimension lim h r W) as (D & E & H & _). eauto.
  - intros s b a P. destruct (Hb s b a P) as [-> ->]. split; [reflexivity|]. split; [reflexivity|].
    destruct (WF_factor lim h r s b a W Hr P) as (d & D & E1 & E2 & E3). exists d, D. repeat split; auto.
    destruct (WF_dimension lim h s W) as (d' & E' & H' & _). congruence.
Qed.
(** Every system is placed somewhere: below exactly the root it belongs to. *)
Theorem C25_every_system_placed : forall lim ks os, (2 <= lim)%nat -> allFine lim os (init ks) ->
  let h := run lim os (init ks) in forall s, exists r b a, root h r /\ placed h r s b a.
Proof.
  intros lim ks os Hl Hf h s. assert (W : WF lim h) by (apply run_WF; [now apply init_WF|assumption]).
  destruct W as (own & F & I). destruct (Inv_path _ _ _ _ s I) as (c & t & b & a & o & E & Et & Rc & Rt & ND).
  exists (own s), b, a. split; [apply (root_own _ _ _ _ _ I); exact (proj1 I s)|]. subst s.
  pose proof (ctx_placed h c t o b a Rc Rt) as P. rewrite <- E in P. destruct I as (I1 & I2 & _). destruct (I2 _ (I1 (rt t))) as (J1 & _).
  rewrite J1 in P. exact P.
Qed.

Definition ks0 (i : oid) : kind := if Nat.ltb i 3 then KSystem else KCavity.
Definition build : list op :=
  [OSetDim 3 2; OSetDim 4 3; OSetDim 5 5; OAdd 1 3; OAdd 1 4; OAdd 0 1; OAdd 0 5; OCoupling 1 [3; 4]%nat [false; false]].
(** A fine history: two levels, then a dimension changes and a leaf is removed. *)
Example C25_example : let os := build ++ [OSetDim 3 7; ORemove 1 4] in
  allFine 10 os (init ks0) /\ let h := run 10 os (init ks0) in
  dimension 10 h 0%nat = Ok 35 /\ map (fun i => (dB (h i), dA (h i))) [0; 1; 3; 5]%nat = [(1, 1); (1, 5); (1, 5); (7, 1)].
Proof. split; [|vm_compute; auto]. apply allFineb_sound; [lia|apply init_WF; lia|]. vm_compute. reflexivity. Qed.

(** C25 does not hold for dimensions beyond 2^53, because the new dimsBefore is
    computed with a floating point division. *)
Theorem C25_large_dimensions_refuted : exists os ks lim, (100 <= lim)%nat /\
  let h := run lim os (init ks) in
  subs (h 0%nat) = [3; 4; 5]%nat /\ map (fun i => dim (h i)) [3; 4; 5]%nat = [5; 3 ^ 34; 3] /\
  dB (h 5%nat) <> 5 * 3 ^ 34 /\ dB (h 5%nat) * dim (h 5%nat) * dA (h 5%nat) <> 5 * 3 ^ 34 * 3.
Proof.
  exists [OSetDim 3 3; OSetDim 4 (3 ^ 34); OSetDim 5 3; OAdd 0 3; OAdd 0 4; OAdd 0 5; OSetDim 3 5], ks0, 100%nat.
  split; [lia|]. vm_compute. repeat split; discriminate.
Qed.

(** C26: adding to a composite that is already inside another breaks the
    bookkeeping: neither the new system nor the later systems of the outer
    composite get the right products, although all dimensions are right. *)
Theorem C26_growing_nested_refuted : exists os ks lim, (100 <= lim)%nat /\
  let h := run lim os (init ks) in
  subs (h 0%nat) = [1; 5]%nat /\ subs (h 1%nat) = [3; 4]%nat /\ map (fun i => dim (h i)) [3; 4; 5]%nat = [2; 3; 5] /\
  dimension lim h 0%nat = Ok 30 /\ root h 0%nat /\ ~ booked h 0%nat /\
  dA (h 4%nat) = 1 /\ placed h 0%nat 4%nat 2 5 /\ dB (h 5%nat) = 2 /\ placed h 0%nat 5%nat 6 1.
Proof.
  exists [OSetDim 3 2; OSetDim 4 3; OSetDim 5 5; OAdd 1 3; OAdd 0 1; OAdd 0 5; OAdd 1 4], ks0, 100%nat. split; [lia|]. cbv zeta.
  set (h := run 100 _ _).
  assert (E : subs (h 0%nat) = [1; 5]%nat /\ subs (h 1%nat) = [3; 4]%nat /\ isComp (h 0%nat) = true /\ isComp (h 1%nat) = true /\
    isComp (h 3%nat) = false /\ isComp (h 4%nat) = false /\ isComp (h 5%nat) = false /\ dim (h 3%nat) = 2 /\ dim (h 4%nat) = 3 /\ dim (h 5%nat) = 5 /\
    dB (h 5%nat) = 2 /\ dA (h 4%nat) = 1 /\ sup (h 0%nat) = None /\ dimension 100 h 0%nat = Ok 30) by (vm_compute; repeat split).
  destruct E as (E0 & E1 & C0 & C1 & C3 & C4 & C5 & D3 & D4 & D5 & B5 & A4 & S0 & DD).
  assert (H3 : has_dim h 3%nat 2) by (rewrite <- D3; now constructor).
  assert (H4 : has_dim h 4%nat 3) by (rewrite <- D4; now constructor).
  assert (H5 : has_dim h 5%nat 5) by (rewrite <- D5; now constructor).
  assert (H1 : has_dim h 1%nat 6). { apply HD_comp; [assumption|]. rewrite E1. change 6 with (2 * (3 * 1)). repeat (constructor; try assumption). }
  assert (P1 : placed h 0%nat 1%nat 1 5). { change 1 with (1 * 1). change 5 with (1 * (5 * 1)). eapply (P_sub h 0%nat 0%nat 1 1 [] 1%nat [5%nat]); [apply P_root|assumption|assumption|constructor|repeat (constructor; try assumption)]. }
  assert (P4 : placed h 0%nat 4%nat 2 5). { change 2 with (1 * (2 * 1)). change 5 with (5 * 1). eapply (P_sub h 0%nat 1%nat 1 5 [3%nat] 4%nat []); [exact P1|assumption|assumption|repeat (constructor; try assumption)|constructor]. }
  assert (P5 : placed h 0%nat 5%nat 6 1). { change 6 with (1 * (6 * 1)) at 1. change 1 with (1 * 1) at 3. eapply (P_sub h 0%nat 0%nat 1 1 [1%nat] 5%nat []); [apply P_root|assumption|assumption|repeat (constructor; try assumption)|constructor]. }
  cbn [map]. rewrite D3, D4, D5. repeat split; auto. intros [_ Hb]. destruct (Hb _ _ _ P5). lia.
Qed.

(** C27: removing a single system from the composite it is in (after any fine
    history) succeeds.  The removed system stands alone with nothing before and
    after it; the composite keeps its other sub-systems in their order and
    loses the couplings that mention the removed system; the dimensions of all
    other single systems, and the other composites, stay as they were; and the
    bookkeeping of every root is right again. *)
Theorem C27_remove_single : forall lim ks os p c, (2 <= lim)%nat -> allFine lim os (init ks) ->
  let h := run lim os (init ks) in
  In c (subs (h p)) -> isComp (h c) = false ->
  exists h', exec lim (ORemove p c) h = (h', Ok tt) /\
    (root h' c /\ dB (h' c) = 1 /\ dA (h' c) = 1) /\
    (exists l l', subs (h p) = l ++ c :: l' /\ subs (h' p) = l ++ l' /\ ~ In c (l ++ l')) /\
    terms (h' p) = filter (fun t => negb (mentions c t)) (terms (h p)) /\
    (forall j, j <> c -> (isComp (h j) = false -> dim (h' j) = dim (h j)) /\ sup (h' j) = sup (h j)) /\
    (forall j, j <> p -> subs (h' j) = subs (h j) /\ terms (h' j) = terms (h j)) /\
    (forall r, root h' r -> booked h' r).
Proof.
  intros lim ks os p c Hl Hf h Hin Hc. assert (W : WF lim h) by (apply run_WF; [now apply init_WF|assumption]).
  destruct (remove_ok lim h p c W Hin Hc) as (h' & S & (A1 & A2 & A3 & A4 & A5) & (l & l' & B1 & B2 & B3 & B4) & O & T).
  exists h'. split; [exact S|]. split; [auto|]. split; [exists l, l'; rewrite in_app_iff; tauto|]. split; [rewrite T; now rewrite Nat.eqb_refl|].
  split; [|split].
  - intros j Hj. destruct (O j) as (O1 & O2 & O3). auto.
  - intros j Hj. destruct (O j) as (O1 & O2 & O3). split; [auto|]. rewrite T. destruct (Nat.eqb_spec j p); [contradiction|reflexivity].
  - apply (Inv_booked lim). pose proof (exec_WF lim h (ORemove p c) W) as W'. cbn [exec] in W'. rewrite S in W'. apply W'. split; assumption.
Qed.
Example C27_example : allFine 10 build (init ks0) /\ In 4%nat (subs (run 10 build (init ks0) 1%nat)) /\ isComp (run 10 build (init ks0) 4%nat) = false.
Proof. split; [apply allFineb_sound; [lia|apply init_WF; lia|]; vm_compute; reflexivity|]. vm_compute. auto. Qed.

(** C27: but a removed single system does not keep its dimension: it is 1. *)
Theorem C27_removed_loses_dimension_refuted : forall lim ks os p c, (2 <= lim)%nat -> allFine lim os (init ks) ->
  let h := run lim os (init ks) in
  In c (subs (h p)) -> isComp (h c) = false ->
  exists h', exec lim (ORemove p c) h = (h', Ok tt) /\ dimension lim h' c = Ok 1.
Proof.
  intros lim ks os p c Hl Hf h Hin Hc. assert (W : WF lim h) by (apply run_WF; [now apply init_WF|assumption]).
  destruct (remove_ok lim h p c W Hin Hc) as (h' & S & (A1 & A2 & A3 & A4 & A5) & _). exists h'. split; [exact S|].
  destruct lim; [lia|]. cbn [dimension]. now rewrite A2, A3.
Qed.
(** C27: and removing a composite system from its composite resets the
    dimensions of all its leaves to 1, deletes its couplings and leaves the
    leaves with dimsAfter 0. *)
Theorem C27_remove_composite_refuted : exists os ks lim, (10 <= lim)%nat /\ allFine lim os (init ks) /\
  let h := run lim os (init ks) in let h' := fst (exec lim (ORemove 0 1) h) in
  subs (h 0%nat) = [1; 5]%nat /\ subs (h 1%nat) = [3; 4]%nat /\ map (fun i => dim (h i)) [3; 4]%nat = [2; 3] /\
  terms (h 1%nat) = [TMulti [3; 4]%nat [false; false]] /\
  root h' 1%nat /\ subs (h' 1%nat) = [3; 4]%nat /\ map (fun i => dim (h' i)) [3; 4]%nat = [1; 1] /\
  terms (h' 1%nat) = [] /\ map (fun i => dA (h' i)) [3; 4]%nat = [0; 0].
Proof.
  exists build, ks0, 10%nat. split; [lia|]. split; [apply allFineb_sound; [lia|apply init_WF; lia|]; vm_compute; reflexivity|].
  vm_compute. repeat split.
Qed.
(** After the removal of a composite with composites inside, adding it again
    and then adding another system raises ZeroDivisionError. *)
Theorem C27_readd_composite_refuted : exists os ks lim, (10 <= lim)%nat /\ allFine lim os (init ks) /\
  snd (exec lim (OAdd 0 7) (run lim (os ++ [ORemove 0 1; OAdd 0 1]) (init ks))) = Err ZeroDivisionError.
Proof.
  exists [OSetDim 3 2; OSetDim 4 3; OSetDim 5 5; OSetDim 6 7; OAdd 2 3; OAdd 2 4; OAdd 1 2; OAdd 1 6; OAdd 0 1; OAdd 0 5], ks0, 10%nat.
  split; [lia|]. split; [apply allFineb_sound; [lia|apply init_WF; lia|]; vm_compute; reflexivity|]. vm_compute. reflexivity.
Qed.

(** C28: in every history of calls whatsoever, no two systems are sub-systems
    of each other. *)
Theorem C28_no_mutual_containment : forall lim ks os i j, i <> j ->
  let h := run lim os (init ks) in ~ (In j (subs (h i)) /\ In i (subs (h j))).
Proof.
  intros lim ks os i j N h [A B]. refine (no2_run lim os (init ks) _ i j N A B). intros k l _ H. unfold init in H. destruct (ks k); contradiction.
Qed.
(** C28: the addition that would create such a pair raises ValueError. *)
Theorem C28_mutual_rejected : forall lim h p c, In p (subs (h c)) -> exec lim (OAdd p c) h = (h, Err ValueError).
Proof. intros lim h p c H. cbn [exec]. unfold addSub. rewrite get_step. apply memb_In in H. now rewrite H. Qed.
(** C28: but a system can be added to itself, and cycles through a third system
    are accepted; then the dimension cannot be computed any more. *)
Theorem C28_self_refuted : exists os ks, forall lim, 
  let h := run lim os (init ks) in In 0%nat (subs (h 0%nat)) /\ dimension lim h 0%nat = Err RecursionError.
Proof.
  exists [OAdd 0 0], ks0. intros lim. cbv zeta.
  assert (E : exists h, run lim [OAdd 0 0] (init ks0) = h /\ isComp (h 0%nat) = true /\ subs (h 0%nat) = [0%nat]) by (eexists; split; [reflexivity|split; reflexivity]).
  destruct E as (h & -> & C & S). split; [rewrite S; now left|]. induction lim as [|l IH]; [reflexivity|]. cbn [dimension]. rewrite C, S. cbn [prodR]. now rewrite IH.
Qed.
Theorem C28_indirect_refuted : exists os ks lim, (100 <= lim)%nat /\
  let h := run lim os (init ks) in subs (h 0%nat) = [1%nat] /\ subs (h 1%nat) = [2%nat] /\ subs (h 2%nat) = [0%nat] /\ dimension lim h 0%nat = Err RecursionError.
Proof. exists [OAdd 0 1; OAdd 1 2; OAdd 2 0], ks0, 100%nat. split; [lia|]. vm_compute. repeat split. Qed.
(** C28: what holds is that fine histories have no cycles: every dimension can
    be computed (see also C25). *)
Theorem C28_fine_histories_terminate : forall lim ks os, (2 <= lim)%nat -> allFine lim os (init ks) ->
  forall i, exists d, dimension lim (run lim os (init ks)) i = Ok d /\ 0 < d.
Proof.
  intros lim ks os Hl Hf i. assert (W : WF lim (run lim os (init ks))) by (apply run_WF; [now apply init_WF|assumption]).
  destruct (WF_dimension lim _ i W) as (d & E & _ & P & _). eauto.
Qed.

(** C32: assigning a Pauli operator to a term of a system whose dimension is
    not 1 or 2 raises ValueError and changes nothing; so does creating a term
    with such an operator. *)
Theorem C32_operator_rejected : forall lim h i k q pl d, nth_error (terms (h i)) k = Some (TSingle q pl) ->
  dimension lim h q = Ok d -> d <> 1 -> d <> 2 -> exec lim (OOperator i k true) h = (h, Err ValueError).
Proof.
  intros lim h i k q pl d Ht Hd N1 N2. cbn [exec]. unfold setOperator. rewrite get_step, Ht. unfold look, mbind, checkOp. rewrite Hd. cbn [bind].
  unfold badPauli. destruct (Z.eqb_spec d 2); [contradiction|]. destruct (Z.eqb_spec d 1); [contradiction|]. reflexivity.
Qed.
Theorem C32_term_rejected : forall lim h i d, dimension lim h i = Ok d -> d <> 1 -> d <> 2 -> exec lim (OTerm i true) h = (h, Err ValueError).
Proof.
  intros lim h i d Hd N1 N2. cbn [exec]. unfold createTerm, look, mbind, checkOp. rewrite Hd. cbn [bind].
  unfold badPauli. destruct (Z.eqb_spec d 2); [contradiction|]. destruct (Z.eqb_spec d 1); [contradiction|]. reflexivity.
Qed.
(** C32: the same for couplings, if any one of the operators is a Pauli
    operator on a system of another dimension. *)
Theorem C32_coupling_rejected : forall lim ks os i qs ps n q d, (2 <= lim)%nat -> allFine lim os (init ks) ->
  let h := run lim os (init ks) in
  isComp (h i) = true -> (forall q, In q qs -> In q (subs (h i))) -> List.length ps = List.length qs ->
  nth_error qs n = Some q -> nth_error ps n = Some true -> dimension lim h q = Ok d -> d <> 1 -> d <> 2 ->
  exec lim (OCoupling i qs ps) h = (h, Err ValueError).
Proof.
  intros lim ks os i qs ps n q d Hl Hf h Hc Hs El Eq Ep Hd N1 N2. assert (W : WF lim h) by (apply run_WF; [now apply init_WF|assumption]).
  cbn [exec]. unfold createCoupling. rewrite get_step, Hc. cbn [negb].
  assert (G : for_ qs (fun q => b <- look (fun h => hasInSubs lim h i q) ;; if b : bool then ret tt else raise ValueError) h = (h, Ok tt)).
  { assert (Hq : forall q, In q qs -> hasInSubs lim h i q = Ok true). { intros q' Hq. destruct lim; [lia|]. cbn [hasInSubs]. apply Hs in Hq. apply memb_In in Hq. now rewrite Hq. }
    clear - Hq. induction qs as [|x l IHl]; [reflexivity|]. cbn [for_]. unfold mbind at 1. unfold look at 1, mbind at 1. rewrite (Hq x) by now left.
    cbn [ret]. apply IHl. intros. apply Hq. now right. }
  rewrite (mbind_ok _ _ _ _ _ _ _ G). rewrite El, Nat.eqb_refl. cbn [negb]. unfold look, mbind.
  assert (Hck : checkOps lim h qs ps = Err ValueError).
  { clear - W Eq Ep Hd N1 N2. revert qs ps Eq Ep. induction n as [|n IH]; intros [|q0 qs] [|p0 ps] Eq Ep; cbn [nth_error] in *; try discriminate.
    - injection Eq as ->. injection Ep as ->. cbn [checkOps]. unfold checkOp. rewrite Hd. cbn [bind]. unfold badPauli.
      destruct (Z.eqb_spec d 2); [contradiction|]. destruct (Z.eqb_spec d 1); [contradiction|]. reflexivity.
    - cbn [checkOps]. unfold checkOp. destruct (WF_dimension lim h q0 W) as (d0 & -> & _). cbn [bind].
      destruct (badPauli d0 p0); [reflexivity|]. cbn [bind]. now apply IH. }
  now rewrite Hck.
Qed.
(** C32: changing the dimension of a single system whose first term has a Pauli
    operator to another value than 1 or 2 raises ValueError and leaves all
    dimensions, sub-systems and terms of all systems as they were. *)
Theorem C32_dimension_rejected : forall lim ks os i q ts d, (2 <= lim)%nat -> allFine lim os (init ks) ->
  let h := run lim os (init ks) in
  isComp (h i) = false -> terms (h i) = TSingle q true :: ts -> d <> 1 -> d <> 2 ->
  exists h', exec lim (OSetDim i d) h = (h', Err ValueError) /\
    forall j, dim (h' j) = dim (h j) /\ dB (h' j) = dB (h j) /\ dA (h' j) = dA (h j) /\ subs (h' j) = subs (h j) /\
      sup (h' j) = sup (h j) /\ terms (h' j) = terms (h j) /\ isComp (h' j) = isComp (h j) /\ upd (h' j) = upd (h j).
Proof.
  intros lim ks os i q ts d Hl Hf h Hc Ht N1 N2. assert (W : WF lim h) by (apply run_WF; [now apply init_WF|assumption]).
  assert (Hs : subs (h i) = []).
  { destruct W as (own & F & I). destruct (Inv_leaf _ _ _ _ i I Hc) as (c & b & a & s & _ & _ & R & _). cbn in R. tauto. }
  destruct lim; [lia|]. destruct (setDim_pauli_first lim h i d (TSingle q true) ts Ht Hc Hs) as (h' & S & E).
  { cbn. unfold badPauli. destruct (Z.eqb_spec d 2); [contradiction|]. destruct (Z.eqb_spec d 1); [contradiction|]. reflexivity. }
  exists h'. split; [exact S|]. intros j. destruct (E j) as (E1 & E2 & E3). unfold core in E1. injection E1 as ? ? ? ? ? ?. repeat split; auto.
Qed.
(** C32: a dimension change is accepted when no term has a Pauli operator. *)
Theorem C32_dimension_accepted : forall lim ks os i d, (2 <= lim)%nat -> allFine lim (os ++ [OSetDim i d]) (init ks) ->
  let h := run lim os (init ks) in
  isComp (h i) = false -> 0 < d -> (forall j t, In t (terms (h j)) -> noPauli t) ->
  exists h', exec lim (OSetDim i d) h = (h', Ok tt) /\ dimension lim h' i = Ok d.
Proof.
  intros lim ks os i d Hl Hf h Hc Hd HP.
  assert (G : forall os h0, allFine lim (os ++ [OSetDim i d]) h0 -> allFine lim os h0 /\ fine lim (run lim os h0) (OSetDim i d)).
  { induction os0 as [|o os0 IH]; intros h0 H; cbn [app allFine run] in *; [tauto|]. destruct H as [H1 H2]. apply IH in H2. tauto. }
  apply G in Hf. destruct Hf as [Hf Hfi]. assert (W : WF lim h) by (apply run_WF; [now apply init_WF|assumption]).
  destruct (setDim_accepted lim h i d W Hfi Hc Hd HP) as (h' & S & E1 & E2). exists h'. split; [exact S|]. destruct lim; [lia|]. cbn [dimension]. now rewrite E2, E1.
Qed.
Example C32_example : let os := [OSetDim 3 2; OOperator 3 0 true; OAdd 0 3; OSetDim 4 3; OAdd 0 4] in
  allFine 10 os (init ks0) /\ let h := run 10 os (init ks0) in
  terms (h 3%nat) = [TSingle 3%nat true] /\ snd (exec 10 (OSetDim 3 5) h) = Err ValueError /\ snd (exec 10 (OTerm 4 true) h) = Err ValueError /\
  snd (exec 10 (OCoupling 0 [3; 4]%nat [true; true]) h) = Err ValueError /\ snd (exec 10 (OCoupling 0 [3; 4]%nat [true; false]) h) = Ok tt.
Proof. split; [apply allFineb_sound; [lia|apply init_WF; lia|]; vm_compute; reflexivity|]. vm_compute. repeat split. Qed.
(** C32: only the first term is checked: a qubit with a second term that is a
    Pauli operator can be given dimension 3. *)
Theorem C32_second_term_refuted : exists os ks lim, (100 <= lim)%nat /\
  let h := run lim os (init ks) in let '(h', r) := exec lim (OSetDim 0 3) h in
  In (TSingle 0%nat true) (terms (h 0%nat)) /\ r = Ok tt /\ dimension lim h' 0%nat = Ok 3 /\ terms (h' 0%nat) = terms (h 0%nat).
Proof. exists [OTerm 0 true], (fun _ => KQubit), 100%nat. split; [lia|]. vm_compute. auto. Qed.

Print Assumptions C24_flat_composite.
Print Assumptions C25_nested_bookkeeping.
Print Assumptions C25_every_system_placed.
Print Assumptions C25_large_dimensions_refuted.
Print Assumptions C26_growing_nested_refuted.
Print Assumptions C27_remove_single.
Print Assumptions C27_removed_loses_dimension_refuted.
Print Assumptions C27_remove_composite_refuted.
Print Assumptions C27_readd_composite_refuted.
Print Assumptions C28_no_mutual_containment.
Print Assumptions C28_mutual_rejected.
Print Assumptions C28_self_refuted.
Print Assumptions C28_indirect_refuted.
Print Assumptions C28_fine_histories_terminate.
Print Assumptions C32_operator_rejected.
Print Assumptions C32_term_rejected.
Print Assumptions C32_coupling_rejected.
Print Assumptions C32_dimension_rejected.
Print Assumptions C32_dimension_accepted.
Print Assumptions C32_second_term_refuted.
