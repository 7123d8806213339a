(** What C84 says about dissipators and thermal baths. *)
From mathcomp Require Import all_ssreflect all_algebra.
From Verif Require Py.
From Verif Require Import MatModel OperModel EnvModel.
Set Implicit Arguments.
Unset Strict Implicit.
Unset Printing Implicit Defensive.
Import GRing.Theory Num.Theory.
Local Open Scope ring_scope.

Section Spec.
Variable C : numClosedFieldType.
Variable nB : C -> C -> result C.

Definition reachable (s : st C) : Prop := exists dims free os, s = run nB (start C dims free) os.

(** The rate of a dissipator with what is set now: rate (n + type), n for the frequency and the temperature of its
    bath. *)
Definition rateNow (d : nat) (s : st C) : result C :=
  let x := diss s d in let b := baths s (d_bath x) in
  do n <- nB (b_freq b) (b_temp b); Ok (d_rate x * (n + d_type x)).

(** The rate of [d] in the protocol [p]. *)
Definition rateIn (p d : nat) (s : st C) : option C :=
  omap snd (ohead [seq e <- p_dis (pros s p) | e.1 == d]).

(** Operations that hand a dissipator to the protocol [p]; [free] are the free evolutions. *)
Definition handsTo (free : nat -> nat) (p : nat) (o : op C) : bool :=
  match o with AddTo _ q => q == p | SetSystem _ y => free y == p | _ => false end.
(** The system of [d] is not given again, and its operators have more than one row. *)
Definition plain (d : nat) (o : op C) : bool :=
  match o with SetSystem e _ => e != d | SetOp e m => (e == d) ==> (1 < rows m)%N | _ => true end.

(** The matrix of [d] is missing, or it is its operator extended to the system it has. *)
Definition rightMat (d : nat) (s : st C) : Prop :=
  match d_mat (diss s d) with
  | None => True
  | Some A => exists m y, [/\ d_op (diss s d) = Some m, d_sys (diss s d) = Some y
                            & compositeOp m (s_before (syss s y)) (s_after (syss s y)) = Ok A]
  end.
(** The system knows of the dissipator. *)
Definition known (d : nat) (s : st C) : Prop := if d_sys (diss s d) is Some y then d \in s_bound (syss s y) else True.

(** Only rates and types that are not negative are set. *)
Definition nonneg (o : op C) : Prop :=
  match o with SetRate _ r => 0 <= r | SetType _ t => 0 <= t | _ => True end.
End Spec.
