(** C01-C03: aliasClass and aliasDict. *)
From Verif Require Import Py AliasModel AliasSpec AliasProofs.
Local Open Scope string_scope.
Local Open Scope list_scope.

(** A sample world: object 0 is "q1" alias "left", object 1 is "q2". *)
Definition w0 : world :=
  World (fun o => match o with 0 => "q1" | 1 => "q2" | _ => "q3" end)
        (fun o => match o with 0 => ["left"] | _ => [] end).

(** C01.  Every history of operations starting from an empty dictionary gives
    the answers of the ordered map of identities, and leaves a dictionary that
    represents that map. *)
Theorem C01_alias_dict_is_ordered_map :
  forall (V : Type) (objs : list nat) (w : world) (ops : list (op V)) (m : smap V) (answers : list (out V)),
    exclusive w objs -> sruns objs w [] ops m answers ->
    exists w' d', run (w, []) ops = ((w', d'), answers) /\ represents w' objs d' m.
Proof.
  exact (fun V objs w ops m xs Hex H =>
    match runs_refine objs ops w [] [] m xs Hex
            (conj eq_refl (conj (NoDup_nil _) (Forall_nil _))) H with
    | ex_intro _ w' (ex_intro _ d' (conj E (conj R _))) => ex_intro _ w' (ex_intro _ d' (conj E R))
    end).
Qed.
Print Assumptions C01_alias_dict_is_ordered_map.

Example C01_hypotheses_hold :
  exclusive w0 [0; 1]
  /\ sruns (V := nat) [0; 1] w0 []
       [OSet (KObj 0) 10; OSet (KObj 1) 20; OSet (KStr "left") 11; OAddAlias 1 "right";
        OGet (KStr "right"); ODel (KStr "q1"); OGet (KObj 0)]
       [(IdObj 1, 20)]
       [RNone; RNone; RNone; RNone; RVal (Ok 20); RNone; RVal (Err KeyError)].
Proof.
  split.
  - intros o p s [<-|[<-|[]]] [<-|[<-|[]]]; unfold owns; simpl; intuition (subst; discriminate).
  - assert (I0 : In 0 [0; 1]) by (simpl; auto). assert (I1 : In 1 [0; 1]) by (simpl; auto).
    eapply R_cons. { apply S_set with (i := IdObj 0); [split; auto|right; exact I]. }
    eapply R_cons. { apply S_set with (i := IdObj 1); [split; auto|right; exact I]. }
    eapply R_cons. { apply S_set with (i := IdObj 0); [split; [auto|right; simpl; auto]|left; discriminate]. }
    eapply R_cons.
    { apply S_alias; [auto| |reflexivity]. intros p [<-|[<-|[]]]; unfold owns; simpl; intuition discriminate. }
    eapply R_cons. { refine (S_get _ _ _ (KStr "right") (IdObj 1) _). split; [auto|right; simpl; auto]. }
    eapply R_cons. { refine (S_del _ _ _ (KStr "q1") (IdObj 0) _). split; [auto|left; reflexivity]. }
    eapply R_cons. { refine (S_get _ _ _ (KObj 0) (IdObj 0) _). split; auto. }
    apply R_nil.
Qed.

(** Every key over the known objects refers to exactly one identity. *)
Theorem C01_keys_resolve :
  forall (w : world) (objs : list nat) (k : key), exclusive w objs ->
    (forall o, k = KObj o -> In o objs) ->
    exists i, denotes w objs k i /\ forall j, denotes w objs k j -> j = i.
Proof.
  exact (fun w objs k Hex H =>
    match denotes_total w objs k H with
    | ex_intro _ i Hi => ex_intro _ i (conj Hi (fun j Hj => denotes_unique w objs Hex k j i Hj Hi))
    end).
Qed.
Print Assumptions C01_keys_resolve.

(** Without any assumption on the aliases: after every history a lookup returns
    the value of an entry whose key equals the given one, and raises KeyError
    exactly when there is none. *)
Theorem C01_lookup_finds_equal_key :
  forall (V : Type) (w : world) (ops : list (op V)) (k : key),
    let '((w', d'), _) := run (w, []) ops in
    match getitem w' d' k with
    | Ok v => exists k', In (k', v) d' /\ spec_equal w' k k'
    | Err e => e = KeyError /\ forall k' v, In (k', v) d' -> ~ spec_equal w' k k'
    end.
Proof. exact (@getitem_after_run). Qed.
Print Assumptions C01_lookup_finds_equal_key.

(** C02.  After every history, an assignment either replaces the value of one
    entry with an equal key (keys, order and all other entries unchanged), or,
    when there is no equal key, appends one entry. *)
Theorem C02_overwrite_in_place :
  forall (V : Type) (w : world) (ops : list (op V)) (k : key) (v : V),
    let '((w', d'), _) := run (w, []) ops in
    (exists d1 k0 v0 d2, d' = d1 ++ (k0, v0) :: d2 /\ spec_equal w' k k0
        /\ setitem w' d' k v = d1 ++ (k0, v) :: d2)
    \/ ((forall k' v', In (k', v') d' -> ~ spec_equal w' k k')
        /\ setitem w' d' k v = d' ++ [(k, v)]).
Proof. exact (@setitem_after_run). Qed.
Print Assumptions C02_overwrite_in_place.

Example C02_sample :
  snd (fst (run (w0, []) [OSet (KObj 0) 10; OSet (KObj 1) 20; OSet (KStr "left") 11]))
  = [(KObj 0, 11); (KObj 1, 20)].
Proof. reflexivity. Qed.

(** C03.  Equality is sharing a string; it is reflexive and symmetric. *)
Theorem C03_equality_is_shared_string :
  forall (w : world) (a b : key), keq w a b = true <-> spec_equal w a b.
Proof. exact keq_spec. Qed.
Print Assumptions C03_equality_is_shared_string.

Theorem C03_equality_reflexive_symmetric :
  forall (w : world) (a b : key),
    keq w a a = true /\ (keq w a b = true -> keq w b a = true).
Proof.
  exact (fun w a b => conj (proj2 (keq_spec w a a) (spec_equal_refl w a))
    (fun H => proj2 (keq_spec w b a) (spec_equal_sym w a b (proj1 (keq_spec w a b) H)))).
Qed.
Print Assumptions C03_equality_reflexive_symmetric.

(** Transitivity fails. *)
Theorem C03_equality_transitive_refuted :
  exists (w : world) (a b c : key),
    keq w a b = true /\ keq w b c = true /\ keq w a c = false.
Proof.
  exact (ex_intro _ w0 (ex_intro _ (KStr "q1") (ex_intro _ (KObj 0) (ex_intro _ (KStr "left")
    (conj eq_refl (conj eq_refl eq_refl)))))).
Qed.
Print Assumptions C03_equality_transitive_refuted.

(** Equal keys may hash differently, so a plain dict lookup misses them. *)
Theorem C03_equal_keys_equal_hash_refuted :
  exists (w : world) (a b : key), keq w a b = true /\ hkey w a <> hkey w b.
Proof.
  exists w0, (KObj 0), (KStr "left"); split; [reflexivity|discriminate].
Qed.
Print Assumptions C03_equal_keys_equal_hash_refuted.
