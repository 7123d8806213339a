(** C07: the sub-system dictionary is an ordered set of objects. *)
From Verif Require Import Py AliasModel AliasSpec NamedModel NamedSpec NamedProofs RecurseModel
  RecurseSpec ContainerModel ContainerSpec ContainerProofs PropsNamed.
Local Open Scope string_scope.
Local Open Scope list_scope.

(** After every history each container holds each object at most once, under
    the object's own name, and the entry is found by every name or alias of the
    object and by no other means. *)
Theorem C07_container_is_ordered_set :
  forall (label : nat -> string) (classes : list nat) (ops : list cop) (c : nat),
    labels_ok label classes -> chistory label classes ops ->
    let s := crun label ops in
    NoDup (subs s c) /\ map fst (c_sub s c) = map KObj (subs s c)
    /\ forall o t, current (c_named s) o -> owns (n_world (c_named s)) o t ->
       (In o (subs s c) <-> getitem (n_world (c_named s)) (c_sub s c) (KStr t) = Ok o)
       /\ (~ In o (subs s c) <-> getitem (n_world (c_named s)) (c_sub s c) (KStr t) = Err KeyError).
Proof.
  exact (fun label classes ops c Hl H =>
    let Hi := crun_inv label classes Hl ops H in
    conj (subs_nodup label classes _ c Hi) (conj (subs_keys label classes _ c Hi)
      (fun o t Ho Ht => subs_lookup label classes Hl _ c o t Hi Ho Ht))).
Qed.
Print Assumptions C07_container_is_ordered_set.

(** Adding an object, given as itself, by name or by alias: appended unless it
    is there already; nothing else changes. *)
Theorem C07_add :
  forall (label : nat -> string) (classes : list nat) (ops : list cop) (c o : nat) (r : ref),
    labels_ok label classes -> chistory label classes ops ->
    let s := crun label ops in
    refers s r o ->
    exists s', add1 label c r s = (s', Ok o)
      /\ subs s' c = oset_add (subs s c) o
      /\ (forall c', c' <> c -> subs s' c' = subs s c') /\ c_named s' = c_named s.
Proof.
  exact (fun label classes ops c o r Hl H Hr =>
    match add1_spec label classes Hl _ c r o (crun_inv label classes Hl ops H) Hr with
    | conj E (conj E1 E2) => ex_intro _ (addObj c o (crun label ops)) (conj E (conj E1 (conj E2 eq_refl)))
    end).
Qed.
Print Assumptions C07_add.

(** Removing: the object disappears and nothing else changes; if it is absent,
    KeyError is raised and nothing changes. *)
Theorem C07_remove :
  forall (label : nat -> string) (classes : list nat) (ops : list cop) (c o : nat) (r : ref),
    labels_ok label classes -> chistory label classes ops ->
    let s := crun label ops in
    refers s r o ->
    match remove1 c r s with
    | (s', Ok _) => In o (subs s c) /\ subs s' c = oset_remove (subs s c) o
                    /\ (forall c', c' <> c -> subs s' c' = subs s c')
    | (s', Err e) => ~ In o (subs s c) /\ e = KeyError /\ s' = s
    end.
Proof.
  exact (fun label classes ops c o r Hl H Hr =>
    remove1_spec label classes Hl _ c r o (crun_inv label classes Hl ops H) Hr).
Qed.
Print Assumptions C07_remove.

(** Assigning a list replaces the whole contents. *)
Theorem C07_assign_list :
  forall (label : nat -> string) (classes : list nat) (ops : list cop) (c : nat) (l : list nat),
    labels_ok label classes -> chistory label classes ops ->
    let s := crun label ops in
    Forall (current (c_named s)) l ->
    let op := CSet c (Lst (map (fun o => Leaf (RObj o)) l)) in
    let s' := fst (cstep label s op) in
    snd (cstep label s op) = Ok tt
    /\ subs s' c = fold_left oset_add l []
    /\ (forall c', c' <> c -> subs s' c' = subs s c').
Proof.
  exact (fun label classes ops c l Hl H Hc =>
    set_list_spec label classes Hl _ c l (crun_inv label classes Hl ops H) Hc).
Qed.
Print Assumptions C07_assign_list.

Example C07_sample :
  let ops := [CNew 1 false; CNew 1 false; CNew 1 false; CAlias 2 "second";
              CAdd 0 (Lst [Leaf (RObj 1); Leaf (RStr "second"); Leaf (RStr "qBase2")]);
              CRemove 0 (Leaf (RStr "qBase2"))] in
  chistory lib_label lib_classes ops /\ subs (crun lib_label ops) 0 = [2].
Proof.
  split; [|reflexivity].
  change ([CNew 1 false; CNew 1 false; CNew 1 false; CAlias 2 "second";
              CAdd 0 (Lst [Leaf (RObj 1); Leaf (RStr "second"); Leaf (RStr "qBase2")]);
              CRemove 0 (Leaf (RStr "qBase2"))]) with
   ([] ++ [CNew 1 false] ++ [CNew 1 false] ++ [CNew 1 false] ++ [CAlias 2 "second"]
    ++ [CAdd 0 (Lst [Leaf (RObj 1); Leaf (RStr "second"); Leaf (RStr "qBase2")])]
    ++ [CRemove 0 (Leaf (RStr "qBase2"))]).
  rewrite !app_assoc.
  assert (In1 : In 1 lib_classes) by (vm_compute; tauto).
  repeat apply CH_snoc; try apply CH_nil; try exact In1.
  - split; [vm_compute; lia|apply not_default_like_nondigit; reflexivity].
  - split; [vm_compute; lia|]. repeat constructor; vm_compute; lia.
  - split; [vm_compute; lia|]. repeat constructor.
Qed.
