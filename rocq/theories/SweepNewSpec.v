(** Vocabulary for the creation of sweeps. *)
From Verif Require Import Py SweepModel SweepSpec SweepNewModel.

(** The systems a call is about. *)
Definition about {V} (owner : option (option nat)) (c : call V) (l : list nat) : Prop :=
  match c_what c with
  | Given l' => l = l'
  | Default => exists o, owner = Some (Some o) /\ l = [o]
  | AuxObject _ => False
  end.

(** The call names an attribute k that all its systems have. *)
Definition attribute {V} (owner : option (option nat)) (c : call V) (l : list nat) (k : string) : Prop :=
  about owner c l /\ l <> [] /\ c_key c = Some k /\ forall o, In o l -> c_has c o k = true.

(** The call names something the first of its systems does not have. *)
Definition unknown {V} (owner : option (option nat)) (c : call V) (l : list nat) (k : string) : Prop :=
  about owner c l /\ c_key c = Some k /\ exists o l', l = o :: l' /\ c_has c o k = false.

(** The sweep sw is what the call asked for: its values, its flag, and exactly
    the attribute of each of its systems, each once. *)
Definition made {V} (owner : option (option nat)) (c : call V) (sw : sweep V) : Prop :=
  sw_comb sw = c_comb c /\ sw_list sw = c_vals c /\ NoDup (sw_targets sw) /\
  exists l k, attribute owner c l k /\ forall t, In t (sw_targets sw) <-> exists o, In o l /\ t = TAttr o k.
