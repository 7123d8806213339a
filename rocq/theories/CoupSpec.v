(** What the couplings of a composite system mean, level by level. *)
From mathcomp Require Import all_ssreflect all_algebra.
From Verif Require Import MatModel OperModel MatSpec CoupModel.
Set Implicit Arguments.
Unset Strict Implicit.
Unset Printing Implicit Defensive.
Import GRing.Theory Num.Theory.
Local Open Scope ring_scope.

Section Spec.
Variable C : numClosedFieldType.

Definition subAt (s : comp C) (k : nat) : sub C := nth (sub0 C) (c_subs s) k.
Definition dims (s : comp C) : seq nat := map (@s_dim C) (c_subs s).

(** ** Which systems are coupled *)
(** Without a choice of the user: the first cavity and the first spin or qubit; nothing if one of them is missing,
    and nothing if the first spin is a qubit and a spin that is no qubit lies between it and the cavity. *)
Definition picked (s : comp C) : option (nat * nat) :=
  let ks := map (@s_kind C) (c_subs s) in
  let c := find isCav ks in
  let q := find isSpin ks in
  let plain k := if k is KSpin then true else false in
  if [&& (c < size ks)%N, (q < size ks)%N &
         ~~ ((if nth KOther ks q is KQubit then true else false) && has plain (take (c - q) (drop q ks)))]
  then Some (c, q) else None.

(** With a choice of the user: a spin with a cavity, in any order; if only one system is given that is no spin,
    it is ignored. *)
Definition wanted (s : comp C) (a1 a2 : option arg) : option (arg * arg) :=
  let auto := omap (fun p => (In p.1, In p.2)) (picked s) in
  let k := argKind s in
  match a1, a2 with
  | Some x, Some y => if isSpin (k x) && isCav (k y) then Some (y, x)
                      else if isCav (k x) && isSpin (k y) then Some (x, y) else None
  | Some x, None | None, Some x => if isSpin (k x) then None else auto
  | None, None => auto
  end.

(** ** The ledger of couplings: kind, cavity, spin, frequency *)
Inductive shape := Exchange | Swap | FlipX | FlipJ.
Record entry := Entry { e_shape : shape; e_cav : nat; e_spin : nat; e_g : C }.

(** What a call adds: the systems must be in the composite, the spin have [Jz] or [sigmaz] as its operator for Rabi
    and Dicke, and two levels for Rabi. *)
Definition added (s : comp C) (w : coupling) (g : C) (a1 a2 : option arg) : option entry :=
  if wanted s a1 a2 is Some (In c, In q) then
    let z := zOper (s_oper (subAt s q)) in
    match w with
    | CJC => Some (Entry (if z then Exchange else Swap) c q g)
    | CRabi => if z && (s_dim (subAt s q) \in [:: 2; 1]%N) then Some (Entry FlipX c q g) else None
    | CDicke => if z then Some (Entry FlipJ c q g) else None
    end
  else None.
Definition post (s : comp C) (L : seq entry) (c : call C) : seq entry :=
  match c with
  | Couple w g a1 a2 => if added s w g a1 a2 is Some e then rcons L e else L
  | Freq k g => mkseq (fun i => let e := nth (Entry Swap 0 0 0) L i in
                                if i == k then Entry (e_shape e) (e_cav e) (e_spin e) g else e) (size L)
  end.
Definition ledger (s : comp C) (l : seq (call C)) : seq entry := foldl (post s) [::] l.

(** ** Matrix elements *)
(** [<n| a |n'>] *)
Definition lower (n n' : nat) : C := (n' == n.+1)%:R * sqrtC n'%:R.
(** [<i| J+ |i'>] of a spin with [d] levels; level [i] has [m = (d-1)/2 - i]. *)
Definition raise (d i i' : nat) : C := (i' == i.+1)%:R * sqrtC ((d - i') * i')%N%:R.
(** The levels [u] and [v] agree except at two systems. *)
Definition same (s : comp C) (c q : nat) (u v : seq nat) : bool :=
  all (fun k => [|| k == c, k == q | nth 0%N u k == nth 0%N v k]) (iota 0 (size (c_subs s))).

(** [<u| coupling |v>] at frequency 1, where cavity and spin go from [n'] to [n] and from [i'] to [i]. *)
Definition shapeEnt (w : shape) (d n n' i i' : nat) : C :=
  match w with
  | Exchange => lower n n' * raise d i i' + lower n' n * raise d i' i
  | Swap => lower n n' * lower i' i + lower n' n * lower i i'
  | FlipX => (lower n n' + lower n' n) * (i != i')%:R
  | FlipJ => (lower n n' + lower n' n) * ((raise d i i' + raise d i' i) / 2%:R)
  end.
Definition entryEnt (s : comp C) (e : entry) (u v : seq nat) : C :=
  (same s (e_cav e) (e_spin e) u v)%:R *
  shapeEnt (e_shape e) (s_dim (subAt s (e_spin e))) (nth 0%N u (e_cav e)) (nth 0%N v (e_cav e))
           (nth 0%N u (e_spin e)) (nth 0%N v (e_spin e)).

(** The eigenvalue of a level for the operators number, [Jz] and [sigmaz]. *)
Definition value (o : oper) (d i : nat) : C :=
  match o with
  | ONumber => i%:R
  | OJz => (d.-1)%:R / 2%:R - i%:R
  | OSigmaz => if i == 0%N then 1 else -1
  | _ => 0
  end.
Definition freeEnergy (s : comp C) (u : seq nat) : C :=
  \sum_(k < size (c_subs s)) odflt 0 (s_freq (subAt s k)) * value (s_oper (subAt s k)) (s_dim (subAt s k)) (nth 0%N u k).

(** A new composite: sub-systems of more than one level with frequencies and with one of these operators. *)
Definition plainSub (x : sub C) : bool :=
  [&& (1 < s_dim x)%N, s_freq x != None &
      match s_oper x with ONumber | OJz => true | OSigmaz => s_dim x == 2%N | _ => false end].
Definition fresh (s : comp C) : Prop := c_subs s <> [::] /\ c_terms s = [::] /\ all plainSub (c_subs s).

(** ** Excitations: the level of a system, counted from below for a spin *)
Definition excitation (x : sub C) (i : nat) : nat :=
  if isSpin (s_kind x) && zOper (s_oper x) then ((s_dim x).-1 - i)%N else i.
Definition excitations (s : comp C) (u : seq nat) : nat :=
  (\sum_(k < size (c_subs s)) excitation (subAt s k) (nth 0 u k))%N.

(** A matrix has the elements [E u v] between the levels [u] and [v] of the sub-systems. *)
Definition hasEnts (s : comp C) (E : seq nat -> seq nat -> C) (M : mat C) : Prop :=
  square (prodn (dims s)) M /\
  forall u v, isIdx (dims s) u -> isIdx (dims s) v -> ent M (enc (dims s) u) (enc (dims s) v) = E u v.

(** Histories with Jaynes-Cummings couplings only, and with real frequencies. *)
Definition onlyJC (c : call C) : bool := match c with Couple CJC _ _ _ | Freq _ _ => true | _ => false end.
Definition realCall (c : call C) : bool := match c with Couple _ g _ _ | Freq _ g => g \is Num.real end.
Definition realSub (x : sub C) : bool := odflt 0 (s_freq x) \is Num.real.
End Spec.
