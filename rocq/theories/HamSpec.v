(** Specification of the qubit-cavity Hamiltonians. *)
From mathcomp Require Import all_ssreflect all_algebra.
From Verif Require Py.
From Verif Require Import MatModel MatSpec.
Set Implicit Arguments.
Unset Strict Implicit.
Unset Printing Implicit Defensive.
Import GRing.Theory Num.Theory.
Local Open Scope ring_scope.

Section Spec.
Variable C : numClosedFieldType.

(** A matrix of the qubit (excited state 0, ground state 1) and a cavity of
    dimension [d] has entry [f q n q' n'] between [|q,n>] and [|q',n'>]. *)
Definition qubCav (d : nat) (f : nat -> nat -> nat -> nat -> C) (H : mat C) : Prop :=
  square (2 * d) H /\
  forall q n q' n', (q < 2)%N -> (q' < 2)%N -> (n < d)%N -> (n' < d)%N ->
    ent H (q * d + n) (q' * d + n') = f q n q' n'.

(** [sigma_z]: 1 in the excited and -1 in the ground state. *)
Definition zsign (q : nat) : C := if q == 0%N then 1 else -1.

(** Number of excitations: photons, and one in the excited state of the qubit. *)
Definition excitations (q n : nat) : nat := (n + (q == 0))%N.

(** The matrix elements [<n'|a + a^+|n>]: one photon more or less. *)
Definition hop (n n' : nat) : C :=
  if n' == n.+1 then sqrtC n'%:R else if n == n'.+1 then sqrtC n%:R else 0.

(** A matrix applied to a vector. *)
Definition act (n : nat) (M : mat C) (v : nat -> C) (i : nat) : C := \sum_(j < n) ent M i j * v j.

(** [v] is an eigenvector (or zero). *)
Definition eigen (n : nat) (M : mat C) (l : C) (v : nat -> C) : Prop :=
  forall i, (i < n)%N -> act n M v i = l * v i.

(** The order of the basis in UJC: [|g,0>, |e,0>, |g,1>, |e,1>, ...]; this is
    the position of its [i]-th state in the order qubit x cavity. *)
Definition ujcPos (d i : nat) : nat := ((~~ odd i) * d + i./2)%N.
Definition relabelled (d : nat) (H H' : mat C) : Prop :=
  square (2 * d) H' /\
  forall i j, (i < 2 * d)%N -> (j < 2 * d)%N -> ent H' i j = ent H (ujcPos d i) (ujcPos d j).

(** [exp(-i(E+x)) = exp(-iE) (cos x - i sin x)] and the same for [-x], for given
    functions at given arguments. *)
Definition eulerAt (cosf sinf cexp : C -> C) (E x : C) : Prop :=
  cexp (- 'i * (E + x)) = cexp (- 'i * E) * (cosf x - 'i * sinf x) /\
  cexp (- 'i * (E - x)) = cexp (- 'i * E) * (cosf x + 'i * sinf x).

(** Cosine and sine of a real angle. *)
Definition circleAt (cosf sinf : C -> C) (x : C) : Prop :=
  [/\ (cosf x)^* = cosf x, (sinf x)^* = sinf x & cosf x ^+ 2 + sinf x ^+ 2 = 1].

(** The frequency of the oscillations between [|e,k-1>] and [|g,k>]. *)
Definition rabiFreq (wq wc g : C) (k : nat) : C := sqrtC (k%:R * g ^+ 2 + (wq - wc) ^+ 2 / 4%:R).

(** The addition theorem of the exponential function at the arguments needed
    for a cavity of dimension [d]: the energies of [|g,0>], of [|e,d-1>] and of
    the pairs in between. *)
Definition eulerJC (cosf sinf cexp : C -> C) (wq wc g t : C) (d : nat) : Prop :=
  [/\ eulerAt cosf sinf cexp (- (wc * (1 / 2%:R) * t)) ((wq - wc) / 2%:R * t),
      eulerAt cosf sinf cexp (wc * (d%:R - 1 / 2%:R) * t) ((wq - wc) / 2%:R * t) &
      forall k, (1 <= k < d)%N ->
        eulerAt cosf sinf cexp (wc * (k%:R - 1 / 2%:R) * t) (rabiFreq wq wc g k * t)].

(** [U = exp(-i H t)]: it multiplies every eigenvector of [H] by the phase of
    its eigenvalue. *)
Definition evolves (n : nat) (cexp : C -> C) (H : mat C) (t : C) (U : mat C) : Prop :=
  square n U /\
  forall l v, eigen n H l v -> eigen n U (cexp (- 'i * (l * t))) v.

End Spec.
