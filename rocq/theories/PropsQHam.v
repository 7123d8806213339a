(** Properties of the Hamiltonians of systems: their value, and that reading
    never returns an outdated one. *)
From Verif Require Import Py ParamModel ParamSpec QHamModel QHamSpec QHamProofs.
From Coq Require Import Permutation.

(** A small instance of [alg] for the examples: matrices, operators and
    frequencies are integers, operator 9 needs dimension 2. *)
Definition zalg : alg :=
  Alg Z Z Z Z.eqb Z.eqb 0%Z Z.add Z.mul (fold_right Z.mul 1%Z)
      (fun bda o n => Ok (snd (fst bda) * o ^ n + fst (fst bda) + snd bda)%Z)
      (fun d o => negb (Z.eqb o 9) || Z.eqb d 2).
Lemma zalg_additive : additive zalg.
Proof. repeat split; intros; cbn; lia. Qed.
Lemma zalg_eqbs : eqbs zalg.
Proof. split; intros a b; cbn; apply Z.eqb_eq. Qed.
(** A decidable part of [good], to build reachable states by computation. *)
Definition goodb (o : op zalg) : bool :=
  match o with
  | OResetTerms _ _ | OSetQ _ _ _ | OAddTerm _ _ _ | OSetTerms _ _ _ | OUnitary _ true _ | OOps _ _ _ => false
  | _ => true
  end.
Lemma run_reach lim os : forall st st', forallb goodb os = true -> reach zalg lim st -> run zalg lim os st = Some st' -> reach zalg lim st'.
Proof.
  induction os as [|o os IH]; intros st st' G R; cbn [run]; [intros [= <-]; exact R|].
  cbn in G. apply andb_true_iff in G as [G1 G2].
  destruct (exec zalg lim o st) as [[st1 r]|] eqn:E; [|discriminate].
  apply IH; [exact G2|]. eapply ReachS; [exact R| |exact E|].
  - destruct o; cbn in *; try discriminate; auto. destruct fixed; [discriminate|reflexivity].
  - intros t os' ->. discriminate.
Qed.
Definition dims1 (l : list Z) : nat -> Z * Z * Z := fun x => (1, nth x l 1, 1)%Z.
(** A composite 0 with sub-systems 1 and 2, a term on each and a coupling. *)
Definition build : list (op zalg) :=
  [ONewSys _; ONewSys _; ONewSys _; OSetDim _ 1 (dims1 [1; 2; 3]%Z); OSetDim _ 2 (dims1 [1; 2; 3]%Z);
   OAddSub _ 0 1 (dims1 [6; 2; 3]%Z); OAddSub _ 0 2 (dims1 [6; 2; 3]%Z);
   OCreateOne zalg 1 1 (Some 4%Z) 1 (Some 10%Z); OCreateOne zalg 2 2 (Some 5%Z) 2 (Some 20%Z);
   OCreateMany zalg 0 [(1, 4%Z, 1%Z); (2, 5%Z, 1%Z)] (Some 7%Z)].
Definition valOf (os : list (op zalg)) (s : nat) : option (result Z) :=
  match run zalg 20 os (start zalg) with
  | Some st => option_map snd (readSys zalg 20 s st)
  | None => None
  end.

(** C29: the Hamiltonian of a system is the sum, in any order, of the
    Hamiltonians of all terms that have an operator, of the system and of the
    systems below it at any depth. *)
Theorem C29_total_is_sum_of_terms : forall A, additive A -> forall s p i L m, allTerms A s p i L ->
  (sysVal A s p i m <-> exists L' vs, Permutation L L' /\ Forall2 (termVal A p) L' vs /\ m = msum A vs).
Proof.
  intros A Ad s p i L m HL. split.
  - intros H. destruct (sysVal_sum A Ad s p i m H L HL) as [vs [V ->]]. exists L, vs. auto.
  - intros [L' [vs [Pm [V ->]]]].
    assert (G : exists vs', Permutation vs vs' /\ Forall2 (termVal A p) L vs').
    { destruct (Permutation_Forall2 (Permutation_sym Pm) V) as [vs' [Q F]]. exists vs'. auto. }
    destruct G as [vs' [Q F]]. rewrite (msum_perm A Ad _ _ Q). eapply sum_sysVal; eauto.
Qed.
Print Assumptions C29_total_is_sum_of_terms.

(** [L] lists the terms with an operator of all systems in the tree, and the
    list exists whenever there is a Hamiltonian. *)
Theorem C29_terms_of_tree : forall A s p i,
  (forall L, allTerms A s p i L ->
     forall t, In t L <-> exists x, below s i x /\ In t (terms s x) /\ active A p t = true)
  /\ (forall m, sysVal A s p i m -> exists L, allTerms A s p i L).
Proof. intros A s p i. split; [apply allTerms_In|intros m; apply sysVal_allTerms]. Qed.
Print Assumptions C29_terms_of_tree.

(** ... and reading totalHamiltonian returns this value. *)
Theorem C29_read_is_sum : forall A, additive A -> eqbs A -> forall lim st, reach A lim st ->
  forall s st' m, isSys (S_ A st) s = true -> readSys A lim s st = Some (st', Ok m) ->
  exists L vs, allTerms A (S_ A st) (P_ A st) s L /\ Forall2 (termVal A (P_ A st)) L vs /\ m = msum A vs.
Proof.
  intros A Ad Q lim st R s st' m Hs E.
  destruct (readSys_spec A lim s st st' (Ok m) (reach_inv A lim st Q R) Hs E) as [_ [_ [V _]]].
  specialize (V m eq_refl). destruct (sysVal_allTerms A _ _ _ _ V) as [L HL].
  destruct (sysVal_sum A Ad _ _ _ _ V L HL) as [vs [F ->]]. eauto.
Qed.
Print Assumptions C29_read_is_sum.
Example C29_example : valOf build 0 = Some (Ok (10 * (2 * 4 + 2) + 20 * (3 * 25 + 2) + 7 * ((2 * 4 + 2) * (3 * 5 + 2)))%Z).
Proof. vm_compute. reflexivity. Qed.
Example C29_reachable : exists st, run zalg 20 build (start zalg) = Some st /\ reach zalg 20 st /\ isSys (S_ zalg st) 0 = true.
Proof.
  assert (G : match run zalg 20 build (start zalg) with Some st => isSys (S_ zalg st) 0 | None => false end = true)
    by (vm_compute; reflexivity).
  destruct (run zalg 20 build (start zalg)) as [st|] eqn:E; [|discriminate].
  exists st. split; [reflexivity|]. split; [|exact G].
  refine (run_reach 20 build (start zalg) st _ _ E); [reflexivity|apply Reach0].
Qed.

(** C30: in every history of good calls (see [good]), reading totalHamiltonian
    of a system returns the value computed from the current structure and
    parameters, and changes neither. *)
Theorem C30_read_is_current : forall A, eqbs A -> forall lim st, reach A lim st ->
  forall n s st' m, isSys (S_ A st) s = true -> readSys A n s st = Some (st', Ok m) ->
  sysVal A (S_ A st) (P_ A st) s m /\ S_ A st' = S_ A st /\ P_ A st' = P_ A st.
Proof.
  intros A Q lim st R n s st' m Hs E.
  destruct (readSys_spec A n s st st' (Ok m) (reach_inv A lim st Q R) Hs E) as [[S1 S2] [_ [V _]]]. auto.
Qed.
Print Assumptions C30_read_is_current.

(** If there is such a value, reading returns it, whatever is cached (given
    enough stack). *)
Theorem C30_read_returns_value : forall A, eqbs A -> forall lim st, reach A lim st ->
  forall s m, isSys (S_ A st) s = true -> sysVal A (S_ A st) (P_ A st) s m ->
  exists n0, forall n, n0 <= n -> exists st', readSys A n s st = Some (st', Ok m).
Proof.
  intros A Q lim st R s m Hs V. destruct (readSys_complete A _ _ _ _ V) as [n0 H]. exists n0.
  intros n Hn. destruct (H n Hn st eq_refl eq_refl (reach_inv A lim st Q R) Hs) as [st' [E _]]. eauto.
Qed.
Print Assumptions C30_read_returns_value.

(** The same for the terms that a system has. *)
Theorem C30_term_read_is_current : forall A, eqbs A -> forall lim st, reach A lim st ->
  forall h t, In t (terms (S_ A st) h) -> forall v,
  (exists st', readTerm A t st = Some (st', Ok v)) <-> termVal A (P_ A st) t v.
Proof.
  intros A Q lim st R h t Ht v. pose proof (reach_inv A lim st Q R) as I.
  assert (Hh : held (S_ A st) t) by (exists h; exact Ht).
  destruct (i_term A _ _ (i_S A _ I) _ _ Ht) as [_ [_ Hf]]. split.
  - intros [st' E]. destruct (readTerm_spec A _ _ _ _ I Hf E) as [_ [_ [H1 H2]]]. apply H1; auto.
  - intros V. destruct (readTerm_complete A _ _ _ I Hf Hh V) as [st' [E _]]. eauto.
Qed.
Print Assumptions C30_term_read_is_current.
Example C30_example :
  valOf (build ++ [ORead _ 0; OFreq zalg 3 (Some 1%Z); OUnitary _ false 0; OOrd _ 4 0; OOrds _ 5 [2; 0]%Z; ORead _ 2;
                   OSetDim _ 2 (dims1 [10; 2; 5]%Z); OSysOp zalg 1 (Some 3%Z)]) 0
  = Some (Ok (1 * (2 * 3 + 2) + 20 * (5 * 1 + 2) + 7 * ((2 * 16 + 2) * (5 * 1 + 2)))%Z).
Proof. vm_compute. reflexivity. Qed.

(** Calls outside [good] after which a read is outdated. *)
Definition outdated (os : list (op zalg)) (s : nat) : Prop :=
  exists st st' m, run zalg 20 os (start zalg) = Some st /\ readSys zalg 20 s st = Some (st', Ok m)
    /\ ~ sysVal zalg (S_ zalg st) (P_ zalg st) s m.
Lemma outdated_gen n os s m m' :
  match run zalg n os (start zalg) with
  | Some st => (value zalg n (S_ zalg st) (P_ zalg st) s, option_map snd (readSys zalg n s st))
  | None => (None, None)
  end = (Some m', Some (Ok m)) -> Z.eqb m m' = false ->
  exists st st' m, run zalg n os (start zalg) = Some st /\ readSys zalg n s st = Some (st', Ok m)
    /\ ~ sysVal zalg (S_ zalg st) (P_ zalg st) s m.
Proof.
  intros H N. apply Z.eqb_neq in N. destruct (run zalg n os (start zalg)) as [st|]; [|discriminate].
  injection H as H1 H2. destruct (readSys zalg n s st) as [[st' r]|] eqn:E; [|discriminate]. injection H2 as ->.
  exists st, st', m. split; [reflexivity|split; [exact E|]]. intros V. apply N.
  eapply (sysVal_fun zalg); [exact V|eapply value_sound, H1].
Qed.
Definition outdated_by := outdated_gen 20.
Definition single : list (op zalg) :=
  [ONewSys _; OSetDim _ 0 (dims1 [2]%Z); OCreateOne zalg 0 0 (Some 3%Z) 1 (Some 5%Z)].

(** Assigning the system a term already has resets its operator unnoticed. *)
Theorem C30_same_system_refuted : outdated (single ++ [ORead _ 0; OSetQ _ 1 0]) 0.
Proof. (apply (outdated_by _ _ 40%Z 0%Z); vm_compute; reflexivity). Qed.
Print Assumptions C30_same_system_refuted.

(** unitary() with a fixed free evolution lowers the flag of the system. *)
Theorem C30_fixed_evolution_refuted :
  outdated (single ++ [OUnitary _ false 0; OFreq zalg 1 (Some 7%Z); OUnitary _ true 0]) 0.
Proof. (apply (outdated_by _ _ 40%Z 56%Z); vm_compute; reflexivity). Qed.
Print Assumptions C30_fixed_evolution_refuted.

(** Operators of a coupling that are rejected with an exception have been given
    to its sub-terms: they are not used at first, but from the next change of a
    dimension on. *)
Theorem C30_rejected_operators_refuted :
  let os := build ++ [ORead _ 0; OOps zalg 5 [9; 9]%Z] in
  (exists st, run zalg 20 (build ++ [ORead _ 0]) (start zalg) = Some st
     /\ option_map snd (exec zalg 20 (OOps zalg 5 [9; 9]%Z) st) = Some (Err ValueError))
  /\ outdated os 0
  /\ valOf (os ++ [OSetDim _ 2 (dims1 [6; 2; 3]%Z)]) 0 <> valOf (build ++ [OSetDim _ 2 (dims1 [6; 2; 3]%Z)]) 0.
Proof.
  cbv zeta. split; [|split].
  - assert (G : match run zalg 20 (build ++ [ORead _ 0]) (start zalg) with
                | Some st => option_map snd (exec zalg 20 (OOps zalg 5 [9; 9]%Z) st)
                | None => None
                end = Some (Err ValueError)) by (vm_compute; reflexivity).
    destruct (run zalg 20 (build ++ [ORead _ 0]) (start zalg)) as [st|]; [|discriminate]. eauto.
  - (apply (outdated_by _ _ 2830%Z 5700%Z); vm_compute; reflexivity).
  - vm_compute. discriminate.
Qed.
Print Assumptions C30_rejected_operators_refuted.

(** A term removed from its system and given to another one is not updated when
    the dimension of its system changes. *)
Theorem C30_reattached_term_refuted :
  outdated (ONewSys _ :: OSetDim _ 0 (dims1 [2]%Z) :: OCreateOne zalg 0 0 (Some 3%Z) 1 (Some 5%Z) :: ONewSys _
    :: [ORemoveTerm _ 0 1; OAddTerm _ 2 1; ORead _ 2; OSetDim _ 0 (dims1 [4]%Z)]) 2.
Proof. (apply (outdated_by _ _ 40%Z 70%Z); vm_compute; reflexivity). Qed.
Print Assumptions C30_reattached_term_refuted.

(** C31: removeTerm takes the term away from one system linked to the given one
    that has it, if there is one, and changes nothing else; afterwards the
    Hamiltonian of that system is smaller by the Hamiltonian of the term. *)
Theorem C31_removeTerm_removes : forall A, additive A -> eqbs A -> forall lim st, reach A lim st ->
  forall s t st', exec A lim (ORemoveTerm A s t) st = Some (st', Ok tt) ->
  reach A lim st' /\ P_ A st' = P_ A st
  /\ (((forall h, linked (S_ A st) s h -> ~ In t (terms (S_ A st) h)) /\ S_ A st' = S_ A st)
      \/ exists h, linked (S_ A st) s h /\ In t (terms (S_ A st) h) /\ S_ A st' = without t h (S_ A st)
         /\ ~ In t (terms (S_ A st') h)
         /\ forall m v, sysVal A (S_ A st) (P_ A st) h m -> active A (P_ A st) t = true -> termVal A (P_ A st) t v ->
              exists m', sysVal A (S_ A st') (P_ A st') h m' /\ m = add A m' v).
Proof.
  intros A Ad Q lim st R s t st' E. pose proof (reach_inv A lim st Q R) as I.
  split. { eapply ReachS; [exact R| |exact E|discriminate]. exact Logic.I. }
  cbn [exec] in E. destruct (removeTerm_spec A lim s t st st' _ I E) as [_ [EP H]]. split; [exact EP|].
  destruct (H eq_refl) as [Hs [Ht [[h [H1 [H2 H3]]]|[H1 H2]]]]; [right|left; auto].
  exists h. split; [exact H1|split; [exact H2|split; [exact H3|split]]].
  - rewrite H3. cbn. rewrite upd_same, filter_In. intros [_ K]. rewrite Nat.eqb_refl in K. discriminate.
  - intros m v V Ha Tv. rewrite EP, H3. eapply without_val; eauto. apply (i_nd A _ _ (i_S A _ I)).
Qed.
Print Assumptions C31_removeTerm_removes.
Example C31_example :
  valOf (build ++ [ORead _ 0; ORemoveTerm _ 0 4]) 0 = Some (Ok (10 * (2 * 4 + 2) + 7 * ((2 * 4 + 2) * (3 * 5 + 2)))%Z)
  /\ valOf (build ++ [ORead _ 0; ORemoveTerm _ 1 5]) 0 = Some (Ok (10 * (2 * 4 + 2) + 20 * (3 * 25 + 2))%Z).
Proof. vm_compute. auto. Qed.

(** resetTerms does not update the Hamiltonian; neither does assigning an empty
    list of terms. *)
Theorem C31_resetTerms_refuted :
  outdated (single ++ [ORead _ 0; OResetTerms _ 0]) 0 /\ outdated (single ++ [ORead _ 0; OSetTerms _ 0 []]) 0.
Proof.
  split; (apply (outdated_by _ _ 40%Z 0%Z); vm_compute; reflexivity).
Qed.
Print Assumptions C31_resetTerms_refuted.
