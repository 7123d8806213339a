(** C04-C05: default names, aliases and the registry. *)
From Verif Require Import Py AliasModel AliasSpec NamedModel NamedSpec NamedProofs.
Local Open Scope string_scope.

(** C04.  In every history (creation, aliasing, garbage collection, reset) two
    objects created since the last reset have different default names. *)
Theorem C04_default_names_unique :
  forall (label : nat -> string) (classes : list nat) (ops : list nop) (o p : nat),
    labels_ok label classes -> Forall (uses_classes classes) ops ->
    current (nrun label ops) o -> current (nrun label ops) p ->
    w_name (n_world (nrun label ops)) o = w_name (n_world (nrun label ops)) p -> o = p.
Proof. exact names_unique. Qed.
Print Assumptions C04_default_names_unique.

(** The labels of the library satisfy the condition. *)
Example C04_library_labels_ok : labels_ok lib_label lib_classes.
Proof.
  assert (B : forallb (fun c => ends_nondigit (lib_label c)) lib_classes = true) by (vm_compute; reflexivity).
  assert (D : forallb (fun c => forallb (fun c' =>
     andb (orb (Nat.eqb c c') (negb (String.eqb (lib_label c) (lib_label c'))))
          (negb (String.eqb (lib_label c) ("_" ++ lib_label c')))) lib_classes) lib_classes = true)
    by (vm_compute; reflexivity).
  rewrite forallb_forall in B. rewrite forallb_forall in D.
  split; [exact B|split; intros c c' H H'; specialize (D c H); rewrite forallb_forall in D;
    specialize (D c' H'); apply andb_true_iff in D; destruct D as [D1 D2]].
  - intros E. apply orb_true_iff in D1; destruct D1 as [D1|D1]; [apply Nat.eqb_eq, D1|].
    rewrite E, String.eqb_refl in D1; discriminate.
  - intros E. rewrite E, String.eqb_refl in D2; discriminate.
Qed.

(** C04.  Looking up an object by its default name or by any of its aliases
    returns that object (None once it was garbage collected), and a string that
    belongs to no object raises ValueError; provided no alias has the form of a
    default name. *)
Theorem C04_lookup_returns_owner :
  forall (label : nat -> string) (classes : list nat) (ops : list nop) (t : string),
    labels_ok label classes -> history label (good_op label classes) ops ->
    let s := nrun label ops in
    (forall o, current s o -> owns (n_world s) o t ->
       getByNameOrAlias s (KStr t) = Ok (if n_alive s o then Some o else None))
    /\ ((forall o, current s o -> ~ owns (n_world s) o t) ->
       getByNameOrAlias s (KStr t) = Err ValueError).
Proof.
  exact (fun label classes ops t Hl H =>
    conj (fun o Ho Ht => lookup_owner label classes _ o t Hl (full_inv_run _ _ _ Hl H) Ho Ht)
         (fun Hno => lookup_unknown label classes _ t Hl (full_inv_run _ _ _ Hl H) Hno)).
Qed.
Print Assumptions C04_lookup_returns_owner.

(** Without the proviso the lookup can return another object: alias "qBase2"
    given to the first object, then a second object is created. *)
Theorem C04_lookup_by_default_name_refuted :
  exists (ops : list nop) (o p : nat),
    Forall (uses_classes lib_classes) ops
    /\ (let s := nrun lib_label ops in
        current s o /\ current s p /\ o <> p
        /\ getByNameOrAlias s (KStr (w_name (n_world s) o)) = Ok (Some p)).
Proof.
  exists [NCreate 1 false; NAlias 0 "qBase2"; NCreate 1 false], 0, 1.
  split; [repeat constructor; vm_compute; tauto|].
  vm_compute; repeat split; try lia; discriminate.
Qed.
Print Assumptions C04_lookup_by_default_name_refuted.

(** The legacy classes compQSystem and qSystem share the label
    "QuantumSystemOld" but have separate counters: two of their objects get
    the same name, and the first is no longer found in the registry. *)
Definition legacy_label (_ : nat) : string := "QuantumSystemOld".
Theorem C04_legacy_systems_unique_names_refuted :
  exists ops o p, let s := nrun legacy_label ops in
    current s o /\ current s p /\ o <> p
    /\ w_name (n_world s) o = w_name (n_world s) p
    /\ getByNameOrAlias s (KObj o) = Ok (Some p).
Proof.
  exists [NCreate 0 false; NCreate 1 false], 0, 1.
  vm_compute; repeat split; try lia; discriminate.
Qed.
Print Assumptions C04_legacy_systems_unique_names_refuted.

(** The counters equal the number of creations since the last reset. *)
Theorem C04_counters_count_creations :
  forall (label : nat -> string) (ops : list nop) (c : nat) (b : bool),
    (if b then n_int (nrun label ops) c else n_ext (nrun label ops) c) = count_created ops c b 0.
Proof.
  exact counters_count.
Qed.
Print Assumptions C04_counters_count_creations.

(** C05.  An alias is rejected exactly when it is the name or an alias of
    another object of the session; [nstep] then leaves the state unchanged. *)
Theorem C05_alias_rejected_iff_taken :
  forall (label : nat -> string) (classes : list nat) (ops : list nop) (o : nat) (a : string),
    labels_ok label classes -> history label (good_op label classes) ops ->
    let s := nrun label ops in
    current s o -> n_alive s o = true ->
    (set_alias s o a = Err ValueError <-> exists p, current s p /\ p <> o /\ owns (n_world s) p a).
Proof.
  exact (fun label classes ops o a Hl H Ho Hal =>
    alias_rejected label classes _ o a (full_inv_run _ _ _ Hl H) Ho Hal).
Qed.
Print Assumptions C05_alias_rejected_iff_taken.

(** So names and aliases are exclusive after every history. *)
Theorem C05_names_and_aliases_exclusive :
  forall (label : nat -> string) (classes : list nat) (ops : list nop) (o p : nat) (t : string),
    labels_ok label classes -> history label (good_op label classes) ops ->
    let s := nrun label ops in
    current s o -> current s p -> owns (n_world s) o t -> owns (n_world s) p t -> o = p.
Proof.
  exact (fun label classes ops o p t Hl H Ho Hp =>
    owners_unique label classes _ o p t Hl (full_inv_run _ _ _ Hl H) Ho Hp).
Qed.
Print Assumptions C05_names_and_aliases_exclusive.

Example C05_hypotheses_hold :
  let ops := [NCreate 32 false; NCreate 36 true; NAlias 0 "cavityA"; NCreate 32 false; NAlias 2 "qubit"] in
  history lib_label (good_op lib_label lib_classes) ops
  /\ current (nrun lib_label ops) 2
  /\ set_alias (nrun lib_label ops) 2 "cavityA" = Err ValueError.
Proof.
  split; [|split; [vm_compute; lia|reflexivity]].
  change ([NCreate 32 false; NCreate 36 true; NAlias 0 "cavityA"; NCreate 32 false; NAlias 2 "qubit"])
    with ([] ++ [NCreate 32 false] ++ [NCreate 36 true] ++ [NAlias 0 "cavityA"] ++ [NCreate 32 false] ++ [NAlias 2 "qubit"])%list.
  rewrite !app_assoc.
  repeat apply H_snoc; try apply H_nil; (split; [|split]);
    try exact I; try (apply not_default_like_nondigit; reflexivity); try (vm_compute; tauto);
    vm_compute; lia.
Qed.

(** An alias that is the default name of a later object is not protected: the
    two objects then share a string. *)
Theorem C05_alias_exclusive_refuted :
  exists (ops : list nop) (o p : nat) (t : string),
    Forall (uses_classes lib_classes) ops
    /\ (let s := nrun lib_label ops in
        current s o /\ current s p /\ o <> p /\ owns (n_world s) o t /\ owns (n_world s) p t).
Proof.
  exists [NCreate 1 false; NAlias 0 "qBase2"; NCreate 1 false], 0, 1, "qBase2".
  split; [repeat constructor; vm_compute; tauto|].
  vm_compute; repeat split; try lia; auto.
Qed.
Print Assumptions C05_alias_exclusive_refuted.
