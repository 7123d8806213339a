(** What a user reads after a run. *)
From Verif Require Import Py ResModel.

Section S.
Context {A : Type}.
(** obj.states[k] and obj.results[k] of the i-th object, if there is such a key. *)
Definition states (qs : list (qres A)) (i : nat) (k : string) : option (pv A) :=
  match nth_error qs i with Some q => dget (q_states q) k | None => None end.
Definition results (qs : list (qres A)) (i : nat) (k : string) : option (pv A) :=
  match nth_error qs i with Some q => dget (q_results q) k | None => None end.
(** The keys of a dictionary are different, which Python dictionaries are by construction. *)
Definition uniqueKeys (q : qres A) : Prop := NoDup (map fst (q_states q)) /\ NoDup (map fst (q_stLast q)).
End S.
