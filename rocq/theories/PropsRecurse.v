(** C06: list arguments. *)
From Verif Require Import Py RecurseModel RecurseSpec RecurseProofs.

(** C06.  For every method, every state and every nested list: the effect and
    the raised exception are those of calling the method once per leaf from
    left to right until one call fails. *)
Theorem C06_nested_list_is_sequence_of_calls :
  forall (A S R : Type) (func : A -> S -> S * result R) (inp : arg A) (s : S),
    outcome (recurse func inp s) = outcome (calls func (leaves inp) s None).
Proof. exact (@recurse_outcome). Qed.
Print Assumptions C06_nested_list_is_sequence_of_calls.

(** The returned value is that of the last call when no list is empty. *)
Theorem C06_returns_last_value :
  forall (A S R : Type) (func : A -> S -> S * result R) (inp : arg A) (s : S),
    no_empty inp -> recurse func inp s = calls func (leaves inp) s None.
Proof. exact (fun A S R func inp s H => recurse_value func inp H s). Qed.
Print Assumptions C06_returns_last_value.

(** With an empty trailing list the value of the last call is lost. *)
Theorem C06_returns_last_value_refuted :
  exists (func : nat -> nat -> nat * result nat) (inp : arg nat) (s : nat),
    leaves inp <> [] /\ snd (recurse func inp s) = Ok None
    /\ snd (calls func (leaves inp) s None) = Ok (Some 7).
Proof.
  exact (ex_intro _ (fun a s => (a + s, Ok a))
    (ex_intro _ (Lst [Leaf 7; Lst []]) (ex_intro _ 0
      (conj (fun H => nil_cons (eq_sym H)) (conj eq_refl eq_refl))))).
Qed.
Print Assumptions C06_returns_last_value_refuted.

(** When it fails, the leaves before the failing one were applied and those
    after it were not. *)
Theorem C06_failure_keeps_prefix :
  forall (A S R : Type) (func : A -> S -> S * result R) (inp : arg A) (s s' : S) (e : exn),
    outcome (recurse func inp s) = (s', Err e) ->
    exists l1 a l2 s1, leaves inp = l1 ++ a :: l2
      /\ outcome (calls func l1 s None) = (s1, Ok tt) /\ func a s1 = (s', Err e).
Proof. exact (@recurse_failure). Qed.
Print Assumptions C06_failure_keeps_prefix.

Example C06_sample :
  recurse (fun a s => if Nat.eqb a 3 then (s, Err ValueError) else (s ++ [a], Ok a))
          (Lst [Leaf 1; Lst [Leaf 2; Lst [Leaf 3]; Leaf 4]; Leaf 5]) []
  = ([1; 2], Err ValueError).
Proof. reflexivity. Qed.
