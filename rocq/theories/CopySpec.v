(** Specification of copies. *)
From Verif Require Import Py CopyModel.

Section Spec.
Variables (F W O : Type).
Variable isPauli : O -> bool.
Notation sys := (sys F W O).
Notation term := (term F W O).

(** Two terms say the same: systems (by position), operators, orders, frequency. *)
Definition sameTerm (t t' : term) : Prop :=
  t_on t = t_on t' /\ t_op t = t_op t' /\ t_order t = t_order t' /\ t_freq t = t_freq t'.

(** Two systems say the same: class, type, dimension, initial state, terms and
    sub-systems, all the way down; for single systems also the dimension and the
    kind of coefficients. *)
Inductive same : sys -> sys -> Prop :=
| Same i i' k c d d' b b' ini l l' ts ts' :
    (c <> Some true -> d = d' /\ b = b') -> Forall2 same l l' -> Forall2 sameTerm ts ts' ->
    same (Sys i k c d b ini l ts) (Sys i' k c d' b' ini l' ts').

(** The objects a system consists of. *)
Fixpoint objects (s : sys) : list nat :=
  match s with Sys i _ _ _ _ _ l ts => i :: flat_map objects l ++ map t_id ts end.

(** A Pauli operator has a system of dimension 2 (or 1). *)
Definition dimOk (d : nat) (o : option O) : Prop :=
  match o with Some o => isPauli o = true -> d = 2 \/ d = 1 | None => True end.

(** The initial state of a composite system, if it was given as a list, is what
    the sub-systems have. *)
Definition agrees (d : nat) (l : list sys) (v : inp) : Prop :=
  match v with
  | IVal _ => False
  | IMat r _ => r = d
  | IList vs => map init l = map (@Some inp) vs
  end.

(** The systems that can be copied. *)
Inductive copyable : sys -> Prop :=
| CopySingle i k d b ini ts : 0 < d ->
    (* a term on the system itself: at most one, exactly one for the classes that
       are created with one *)
    (ts = [] /\ k = Generic \/
     exists t o w, ts = [t] /\ t_on t = None /\ t_op t = One o /\ t_order t = One w /\ dimOk d o) ->
    (* the initial state *)
    match ini with
    | None => True
    | Some (IMat r _) => k = QubitK /\ r = 2 /\ d = 2
    | Some _ => k <> Generic
    end ->
    copyable (Sys i k (Some false) d b ini [] ts)
| CopyComposite i d b ini l ts : l <> [] -> Forall copyable l ->
    (ts = [] \/ exists t, ts = [t] /\
       ((t_on t = None /\ exists o w, t_op t = One o /\ t_order t = One w /\
          dimOk (dimension (Sys i Generic (Some true) d b ini l ts)) o) \/
        exists ps os ws, t_on t = Some ps /\ t_op t = Many os /\ t_order t = Many ws /\
          List.length os = List.length ps /\ List.length ws = List.length ps /\
          (* a coupling of direct sub-systems *)
          Forall2 (fun p o => snd p = [] /\ exists x, nth_error l (fst p) = Some x /\ dimOk (dimension x) o) ps os)) ->
    match ini with None => True | Some v => agrees (dimension (Sys i Generic (Some true) d b ini l ts)) l v end ->
    copyable (Sys i Generic (Some true) d b ini l ts).
End Spec.
