From Verif Require Import Py RecurseModel RecurseSpec.

Section ArgInd.
Context {A : Type} (P : arg A -> Prop).
Hypothesis HL : forall a, P (Leaf a).
Hypothesis HN : forall l, Forall P l -> P (Lst l).
Fixpoint arg_ind' (t : arg A) : P t :=
  match t with
  | Leaf a => HL a
  | Lst l => HN l ((fix go (l : list (arg A)) : Forall P l :=
      match l with [] => Forall_nil _ | x :: r => Forall_cons _ (arg_ind' x) (go r) end) l)
  end.
End ArgInd.

Section Proofs.
Context {A S R : Type} (func : A -> S -> S * result R).

Fixpoint loop (l : list (arg A)) (r : option R) (s : S) : S * result (option R) :=
  match l with
  | [] => (s, Ok r)
  | x :: rest => match recurse func x s with
                 | (s', Ok r') => loop rest r' s'
                 | (s', Err e) => (s', Err e)
                 end
  end.

Lemma recurse_lst l s : recurse func (Lst l) s = loop l None s.
Proof.
  cbn [recurse]. generalize (@None R); revert s.
  induction l as [|x l IH]; intros s r; [reflexivity|].
  cbn [loop]. destruct (recurse func x s) as [s' [r'|e]]; [apply IH|reflexivity].
Qed.

Lemma leaves_lst (l : list (arg A)) : leaves (Lst l) = flat_map leaves l.
Proof. induction l as [|x l IH]; [reflexivity|]. cbn [leaves flat_map] in *. rewrite <- IH; reflexivity. Qed.

Lemma calls_app l1 l2 s last :
  calls func (l1 ++ l2) s last =
  match calls func l1 s last with
  | (s', Ok r) => calls func l2 s' r
  | (s', Err e) => (s', Err e)
  end.
Proof.
  revert s last; induction l1 as [|a l1 IH]; intros s last; cbn [calls app]; [reflexivity|].
  destruct (func a s) as [s' [v|e]]; [apply IH|reflexivity].
Qed.

Lemma calls_last l s r1 r2 : outcome (calls func l s r1) = outcome (calls func l s r2).
Proof.
  revert s r1 r2; induction l as [|a l IH]; intros s r1 r2; cbn [calls]; [reflexivity|].
  destruct (func a s) as [s' [v|e]]; [apply IH|reflexivity].
Qed.

Lemma outcome_eq (x y : S * result (option R)) :
  outcome x = outcome y <->
  fst x = fst y /\ match snd x, snd y with Ok _, Ok _ => True | Err e, Err e' => e = e' | _, _ => False end.
Proof.
  destruct x as [s [v|e]], y as [s' [v'|e']]; unfold outcome; cbn [fst snd]; split; intros H.
  - injection H as ->; auto.
  - destruct H as [-> _]; reflexivity.
  - discriminate.
  - destruct H as [_ []].
  - discriminate.
  - destruct H as [_ []].
  - injection H as -> ->; auto.
  - destruct H as [-> ->]; reflexivity.
Qed.

Lemma recurse_outcome t : forall s, outcome (recurse func t s) = outcome (calls func (leaves t) s None).
Proof.
  induction t as [a|l IH] using arg_ind'; intros s.
  - cbn [recurse leaves calls]. destruct (func a s) as [s' [v|e]]; reflexivity.
  - rewrite recurse_lst, leaves_lst. generalize (@None R) at 1 as r; revert s.
    induction l as [|x l IHl]; intros s r; [reflexivity|].
    inversion IH as [|? ? Hx Hl]; subst. cbn [loop flat_map]. rewrite calls_app.
    specialize (Hx s). apply outcome_eq in Hx.
    destruct (recurse func x s) as [s1 [v1|e1]], (calls func (leaves x) s None) as [s2 [v2|e2]];
      cbn [fst snd] in Hx; destruct Hx as [-> Hx]; try tauto.
    + rewrite (IHl Hl s2 v1). apply calls_last.
    + subst; reflexivity.
Qed.

Lemma recurse_value t : no_empty t -> forall s, recurse func t s = calls func (leaves t) s None.
Proof.
  induction t as [a|l IH] using arg_ind'; intros Hn s.
  - cbn [recurse leaves calls]. destruct (func a s) as [s' [v|e]]; reflexivity.
  - rewrite recurse_lst, leaves_lst. inversion Hn as [|x l' Hx Hl]; subst.
    assert (G : forall l s r, Forall no_empty l ->
        Forall (fun t => no_empty t -> forall s, recurse func t s = calls func (leaves t) s None) l ->
        loop l r s = calls func (flat_map leaves l) s r).
    { clear - func. induction l as [|x l IHl]; intros s r Hn IH; [reflexivity|].
      inversion Hn; inversion IH; subst. cbn [loop flat_map]. rewrite calls_app.
      rewrite (H5 H1 s).
      assert (E : calls func (leaves x) s None = calls func (leaves x) s r).
      { assert (NE : leaves x <> []).
        { clear - H1. induction x as [a|l IH] using arg_ind'; [discriminate|].
          rewrite leaves_lst. inversion H1; subst. inversion IH; subst. simpl.
          intros E; apply app_eq_nil in E; destruct E as [E _]. exact (H4 H0 E). }
        destruct (leaves x) as [|a ls]; [congruence|reflexivity]. }
      rewrite E. destruct (calls func (leaves x) s r) as [s' [v|e]]; [apply IHl; assumption|reflexivity]. }
    apply G; [constructor; assumption|exact IH].
Qed.

(** The effect of a failing call: the calls before it happened, none after. *)
Lemma calls_error l s last s' e : calls func l s last = (s', Err e) ->
  exists l1 a l2 s1 r1, l = l1 ++ a :: l2 /\ calls func l1 s last = (s1, Ok r1) /\ func a s1 = (s', Err e).
Proof.
  revert s last; induction l as [|a l IH]; intros s last; cbn [calls]; [discriminate|].
  destruct (func a s) as [s1 [v|e1]] eqn:E.
  - intros H; destruct (IH _ _ H) as [l1 [b [l2 [s2 [r2 [-> [H1 H2]]]]]]].
    exists (a :: l1), b, l2, s2, r2; cbn [calls app]; rewrite E; auto.
  - intros H; injection H as -> ->. exists [], a, l, s, last; auto.
Qed.
End Proofs.

Lemma recurse_failure {A S R} (func : A -> S -> S * result R) inp s s' e :
  outcome (recurse func inp s) = (s', Err e) ->
  exists l1 a l2 s1, leaves inp = l1 ++ a :: l2
    /\ outcome (calls func l1 s None) = (s1, Ok tt) /\ func a s1 = (s', Err e).
Proof.
  rewrite recurse_outcome. destruct (calls func (leaves inp) s None) as [s2 [v|e2]] eqn:E;
    unfold outcome; simpl; intros H; [discriminate|injection H as -> ->].
  destruct (calls_error func _ _ _ _ _ E) as [l1 [a [l2 [s1 [r1 [E1 [E2 E3]]]]]]].
  exists l1, a, l2, s1; rewrite E2; auto.
Qed.
