(** Properties of protocols: products of steps, cached unitaries, updates. *)
From Verif Require Import Py ProtModel ProtSpec ProtProofs.

(** C22 (with C21 and C23): take any protocols, nested to any depth, with
    copies of earlier steps of the same protocol, with updates anywhere.  For
    every history of parameter writes, deletions of the stored matrices and
    requests of their unitaries, every request returns the unitary of the
    parameters as written last — the ordered product of the steps, each
    evaluated at the values its updates and those of the protocols around it
    give — and no request changes any parameter. *)
Theorem C22_unitaries_are_fresh : forall M V (mul : M -> M -> M) one adj shape (veq : V -> V -> bool) leafU dep
    updates u_first u_rest u_val fixed,
  (forall x y, veq x y = true <-> x = y) -> (forall m, mul m one = m) -> (forall o, fixed o = false) ->
  simple_updates updates u_first u_rest -> complete_bounds M V leafU dep ->
  forall rs ops s, separate rs -> requests_in V rs ops -> unused M V s ->
  exists s', history M V mul one adj shape veq leafU dep updates u_first u_rest u_val fixed ops s
             = Ok (expected M V mul one adj leafU updates u_first u_rest u_val ops (env s), s')
    /\ forall p, env s' p = written V ops (env s) p.
Proof. intros. eapply history_fresh_start; eauto. Qed.

(** C21: without updates, the unitary of a protocol is the product
    U(ln) ... U(l1) of all the leaves l1, ..., ln in order, at any nesting. *)
Theorem C21_ordered_product : forall M V (mul : M -> M -> M) one adj leafU updates u_first u_rest u_val,
  (forall a b c, mul a (mul b c) = mul (mul a b) c) -> (forall m, mul one m = m) -> (forall m, mul m one = m) ->
  forall (e : nat -> V) n, plain n -> (forall o, In o (allids n) -> updates o = []) ->
  fresh M V mul one adj leafU updates u_first u_rest u_val e n = ordered M mul one (map (leafU e) (leaves n)).
Proof. intros. now apply flat_product. Qed.
(** C21: and that is what a request returns. *)
Theorem C21_request_returns_product : forall M V (mul : M -> M -> M) one adj shape (veq : V -> V -> bool) leafU dep fixed,
  (forall a b c, mul a (mul b c) = mul (mul a b) c) -> (forall m, mul one m = m) -> (forall m, mul m one = m) ->
  (forall x y, veq x y = true <-> x = y) -> (forall o, fixed o = false) -> complete_bounds M V leafU dep ->
  forall n s, tidy n -> plain n -> unused M V s ->
  exists s', unitary M V mul one adj shape veq leafU dep (fun _ => []) (fun _ => 0) (fun _ => []) (fun _ => env s 0) fixed n s
    = Ok (Some (ordered M mul one (map (leafU (env s)) (leaves n))), s').
Proof.
  intros M V mul one adj shape veq leafU dep fixed As L R Q F B n s T P U.
  destruct (history_fresh_start M V mul one adj shape veq leafU dep (fun _ => []) (fun _ => 0) (fun _ => []) (fun _ => env s 0) fixed)
    with (rs := [n]) (ops := [OUnitary n] : list (op V)) (s := s) as (s' & H & _); auto.
  - repeat split; auto; intros; cbn; try constructor. contradiction.
  - split; [intros n' [<-|[]]; auto|]. cbn. rewrite app_nil_r. now apply tidy_nodup.
  - repeat constructor.
  - cbn in H. destruct (unitary _ _ _ _ _ _ _ _ _ _ _ _ _ _ n s) as [[r s1]|]; cbn in H; [|discriminate].
    injection H as H ->. exists s'. rewrite H. rewrite flat_product; auto.
Qed.

(** C23: whatever is cached, fixed or copied, requesting a unitary leaves every
    parameter as it was, if the updates are simple and no protocol contains
    itself. *)
Theorem C23_updates_undone : forall M V (mul : M -> M -> M) one adj shape (veq : V -> V -> bool) leafU dep
    updates u_first u_rest u_val fixed,
  (forall x y, veq x y = true <-> x = y) -> simple_updates updates u_first u_rest ->
  forall n s r s', nonrec n ->
  unitary M V mul one adj shape veq leafU dep updates u_first u_rest u_val fixed n s = Ok (r, s') ->
  forall p, env s' p = env s p.
Proof. intros. eapply unitary_undone; eauto. Qed.

(** C58: once a fixed step or protocol has a matrix, it keeps it through every
    history of parameter writes and requests (without deletion). *)
Theorem C58_fixed_never_recomputed : forall M V (mul : M -> M -> M) one adj shape (veq : V -> V -> bool) leafU dep
    updates u_first u_rest u_val fixed,
  (forall x y, veq x y = true <-> x = y) ->
  forall o m, fixed o = true -> forall ops s l s', Forall (fun a => a <> ODel) ops ->
  history M V mul one adj shape veq leafU dep updates u_first u_rest u_val fixed ops s = Ok (l, s') ->
  mat s o = Some m -> mat s' o = Some m.
Proof. intros. eapply history_fixed; eauto. Qed.

(** ** Instances: matrices are words (the product is concatenation, the adjoint
    reversal), the matrix of leaf 1 or 2 is [its number; the values of
    parameters 0, 1]. *)
Definition W := list nat.
Definition leafW (e : nat -> nat) (o : nat) : W := match o with 1 | 2 => [o; e 0; e 1] | _ => [o] end.
Definition initW : st W nat := St (fun p => 3) (fun _ => true) (fun _ => None) (fun _ => None) (fun _ => 0).
Section Inst.
Variable dep : nat -> list nat.
Variable updates : nat -> list nat.
Variable u_first : nat -> nat.
Variable u_rest : nat -> list nat.
Variable fixed : nat -> bool.
Definition runW := history W nat (@List.app nat) [] (@rev nat) (fun _ => (1, 1)) Nat.eqb leafW dep updates u_first u_rest (fun u => u + 50) fixed.
Definition expW := expected W nat (@List.app nat) [] (@rev nat) leafW updates u_first u_rest (fun u => u + 50).
Definition resW ops := match runW ops initW with Ok (l, _) => Some l | Err _ => None end.
Definition parW ops p := match runW ops initW with Ok (_, s) => Some (env s p) | Err _ => None end.
End Inst.

(** A protocol with a nested protocol, an update (of parameter 0, by the nested
    protocol 5) and a copy. *)
Definition prW : node := Prot 4 [(None, Leaf 1); (None, Prot 5 [(None, Leaf 2)]); (Some false, Leaf 1)].
Definition depW (p : nat) : list nat := [1; 2].
Definition updW (o : nat) : list nat := if Nat.eqb o 5 then [0] else [].
Definition opsW : list (op nat) := [OUnitary prW; OSet 0 7; OUnitary prW; OGet prW; OSet 1 8; OUnitary prW; ODel; OUnitary prW].

Lemma prW_tidy : tidy prW.
Proof.
  constructor.
  - cbn. repeat constructor; cbn; intuition discriminate.
  - intros c [E|[E|[E|[]]]]; try discriminate; injection E as <-; [constructor|]. constructor.
    + cbn. repeat constructor; cbn; intuition discriminate.
    + intros c [E|[]]. injection E as <-. constructor.
    + intros b h c a E. destruct b as [|? [|? ?]]; discriminate.
  - intros b h c a E. destruct b as [|x0 [|x1 [|x2 b]]]; try discriminate.
    + injection E as <- <- <- <- <-. split; auto. now left.
    + destruct b; discriminate.
Qed.
Lemma simpleW : simple_updates updW (fun _ => 0) (fun _ => []).
Proof.
  split; [auto|split].
  - intros o. unfold updW. destruct (_ =? _); cbn; repeat constructor; auto.
  - intros o o' u. unfold updW. destruct (Nat.eqb_spec o 5), (Nat.eqb_spec o' 5); cbn; try tauto. congruence.
Qed.
Lemma boundsW : complete_bounds W nat leafW depW.
Proof.
  intros e e' o H. unfold leafW. destruct o as [|[|[|o]]]; auto; rewrite (H 0), (H 1); auto; unfold depW; cbn; auto.
Qed.
Example C22_case :
  simple_updates updW (fun _ => 0) (fun _ => []) /\ complete_bounds W nat leafW depW /\
  separate [prW] /\ requests_in nat [prW] opsW /\ unused W nat initW /\
  resW depW updW (fun _ => 0) (fun _ => []) (fun _ => false) opsW = Some (expW updW (fun _ => 0) (fun _ => []) opsW (fun _ => 3)) /\
  expW updW (fun _ => 0) (fun _ => []) [OSet 0 7; OUnitary prW] (fun _ => 3) = [Some [1; 7; 3; 2; 50; 3; 1; 7; 3]] /\
  parW depW updW (fun _ => 0) (fun _ => []) (fun _ => false) opsW 0 = Some 7.
Proof.
  split; [exact simpleW|split; [exact boundsW|split; [|split; [|split; [|split; [|split]]]]]]; try reflexivity.
  - split; [intros n [<-|[]]; apply prW_tidy|]. cbn. repeat constructor; cbn; intuition discriminate.
  - unfold requests_in, opsW. repeat constructor.
  - intros o. reflexivity.
Qed.
Example C21_case : plain prW /\ tidy prW /\ leaves prW = [1; 2; 1] /\
  ordered W (@List.app nat) [] (map (leafW (fun _ => 3)) (leaves prW)) = [1; 3; 3; 2; 3; 3; 1; 3; 3].
Proof. repeat split; try reflexivity; try discriminate; try apply prW_tidy. Qed.
Example C23_case : simple_updates updW (fun _ => 0) (fun _ => []) /\ nonrec prW.
Proof.
  split; [exact simpleW|]. constructor. intros k c [E|[E|[E|[]]]]; injection E as <- <-; (split; [|cbn; intuition discriminate]);
    constructor. intros k c [E|[]]. injection E as <- <-. split; [constructor|cbn; intuition discriminate].
Qed.
Example C58_case : (* prepared at parameter 3, kept when it becomes 7 *)
  resW depW (fun _ => []) (fun _ => 0) (fun _ => []) (fun o => Nat.eqb o 1) [OGet (Leaf 1); OUnitary (Leaf 1); OSet 0 7; OUnitary (Leaf 1)]
  = Some [None; Some [1; 3; 3]; Some [1; 3; 3]].
Proof. reflexivity. Qed.

(** ** What is not so *)

(** C23: two updates of the same parameter on one step: the parameter is left
    at the value of the first update (here 50), not at 3. *)
Theorem C23_same_parameter_twice_refuted : exists updates u_first,
  (forall u, In u (updates 1) -> u_first u = 0) /\
  parW depW updates u_first (fun _ => []) (fun _ => false) [OUnitary (Leaf 1)] 0 = Some 50.
Proof. exists (fun o => if Nat.eqb o 1 then [0; 1] else []), (fun _ => 0). split; [auto|reflexivity]. Qed.
(** C23: one update for two systems whose parameters differ (7 and 3): both are
    left at the first one's value. *)
Theorem C23_several_systems_refuted : exists u_rest, 
  parW depW (fun o => if Nat.eqb o 1 then [0] else []) (fun _ => 0) u_rest (fun _ => false) [OSet 0 7; OUnitary (Leaf 1)] 1 = Some 7.
Proof. exists (fun _ => [1]). reflexivity. Qed.
(** C23: the same update object given to a protocol and to a step of it: the
    parameter is left at the value of the update. *)
Theorem C23_shared_update_refuted : exists updates, 
  parW depW updates (fun _ => 0) (fun _ => []) (fun _ => false) [OUnitary (Prot 5 [(None, Leaf 1)])] 0 = Some 50.
Proof. exists (fun o => [0]). reflexivity. Qed.

(** C22: the adjoint of a step (its hc copy) is not recomputed: after the first
    use it stays at the old parameters (3), while the step itself is at 7. *)
Theorem C22_adjoint_step_refuted : exists n ops,
  resW depW (fun _ => []) (fun _ => 0) (fun _ => []) (fun _ => false) ops
    <> Some (expW (fun _ => []) (fun _ => 0) (fun _ => []) ops (fun _ => 3)) /\
  n = Prot 4 [(None, Leaf 1); (Some true, Leaf 1)] /\ ops = [OUnitary n; OSet 0 7; OUnitary n].
Proof.
  exists (Prot 4 [(None, Leaf 1); (Some true, Leaf 1)]). eexists. split; [|split; reflexivity]. vm_compute. discriminate.
Qed.
(** C22: a parameter of the step itself (for example the angle of a gate) tells
    only the step.  When the step is used in one protocol and copied into
    another, computing the first hides the change from the second. *)
Theorem C22_step_of_two_protocols_refuted : exists ops,
  ops = [OUnitary (Prot 4 [(None, Leaf 1)]); OUnitary (Prot 5 [(Some false, Leaf 1)]); OSet 0 7;
         OUnitary (Prot 4 [(None, Leaf 1)]); OUnitary (Prot 5 [(Some false, Leaf 1)])] /\
  resW (fun _ => [1]) (fun _ => []) (fun _ => 0) (fun _ => []) (fun _ => false) ops
    <> Some (expW (fun _ => []) (fun _ => 0) (fun _ => []) ops (fun _ => 3)).
Proof. eexists. split; [reflexivity|]. vm_compute. discriminate. Qed.
(** C22: a step of a protocol with an update, copied into a second protocol
    without it: the second gets the matrix at the updated value. *)
Theorem C22_update_leaks_to_copy_refuted : exists ops,
  ops = [OUnitary (Prot 5 [(None, Leaf 1)]); OUnitary (Prot 6 [(Some false, Leaf 1)])] /\
  resW depW updW (fun _ => 0) (fun _ => []) (fun _ => false) ops
    <> Some (expW updW (fun _ => 0) (fun _ => []) ops (fun _ => 3)).
Proof. eexists. split; [reflexivity|]. vm_compute. discriminate. Qed.
(** C22: a parameter whose setter tells nobody (the ratio of a step, QPro.py
    150-152; the phase of a rotation): the old unitary is returned. *)
Theorem C22_ratio_refuted : exists ops, ops = [OUnitary (Leaf 1); OSet 0 7; OUnitary (Leaf 1)] /\
  resW (fun _ => []) (fun _ => []) (fun _ => 0) (fun _ => []) (fun _ => false) ops
    <> Some (expW (fun _ => []) (fun _ => 0) (fun _ => []) ops (fun _ => 3)).
Proof. eexists. split; [reflexivity|]. vm_compute. discriminate. Qed.
(** C58: a fixed step that has not been prepared: its first unitary is None. *)
Theorem C58_first_request_refuted : exists o,
  resW depW (fun _ => []) (fun _ => 0) (fun _ => []) (fun x => Nat.eqb x o) [OUnitary (Leaf o)] = Some [None].
Proof. exists 1. reflexivity. Qed.

Print Assumptions C22_unitaries_are_fresh.
Print Assumptions C21_ordered_product.
Print Assumptions C21_request_returns_product.
Print Assumptions C23_updates_undone.
Print Assumptions C58_fixed_never_recomputed.
Print Assumptions C23_same_parameter_twice_refuted.
Print Assumptions C23_several_systems_refuted.
Print Assumptions C23_shared_update_refuted.
Print Assumptions C22_adjoint_step_refuted.
Print Assumptions C22_step_of_two_protocols_refuted.
Print Assumptions C22_update_leaks_to_copy_refuted.
Print Assumptions C22_ratio_refuted.
Print Assumptions C58_first_request_refuted.
