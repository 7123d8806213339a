(** Common vocabulary: Python results as values. *)
From Coq Require Export List Arith Bool ZArith Lia String.
Export ListNotations.
#[global] Open Scope list_scope.

(** The exception classes raised by the modelled code
    (exceptions.py 45-75: ValueError / TypeError; KeyError, IndexError,
    AttributeError, ZeroDivisionError from the interpreter;
    RecursionError stands for exhausted recursion). *)
Inductive exn :=
| KeyError | ValueError | TypeError | IndexError | AttributeError
| ZeroDivisionError | RecursionError | AssertionError | UnboundLocalError.

(** Result of a call: a value or a raised exception. *)
Inductive result (A : Type) := Ok (a : A) | Err (e : exn).
Arguments Ok {A} a.
Arguments Err {A} e.

Definition bind {A B} (r : result A) (f : A -> result B) : result B :=
  match r with Ok a => f a | Err e => Err e end.

Definition is_ok {A} (r : result A) : bool :=
  match r with Ok _ => true | Err _ => false end.
