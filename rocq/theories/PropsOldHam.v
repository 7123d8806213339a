(** C95: the Hamiltonians of the older system classes are those of the parameters that are assigned. *)
From Verif Require Import Py.
From mathcomp Require Import all_ssreflect.
From Verif Require Import OldHamModel OldHamSpec OldHamProofs.
Set Implicit Arguments.
Unset Strict Implicit.
Unset Printing Implicit Defensive.

Section Fresh.
Variables (F O M : Type).
Variable eqF : F -> F -> bool.
Variable eqO : O -> O -> bool.
Variable base : O -> nat -> nat -> nat -> result M.
Variable mpow : M -> nat -> result M.
Variable scale : F -> M -> result M.
Variable add : M -> M -> result M.
Variable zero : M.
Notation run := (run eqF eqO base mpow scale add zero).

(** After any session of additions of terms, new frequencies, operators and orders, new dimensions, additions of systems to
    the composite system and removals from it, and readings of Hamiltonians at any time, some of which may have raised
    exceptions, every Hamiltonian that is read is the sum over the terms as they are now, and raises what that sum raises. *)
Theorem C95_fresh (ds : nat -> nat) (l : seq (op F O)) :
  (forall f g, eqF f g -> f = g) -> (forall f g, eqO f g -> f = g) -> powers base mpow ->
  fine [::] (newWorld F O ds) l ->
  let w := foldl (@next F O) (newWorld F O ds) l in
  let: (c, a) := run (start F O M ds) l in
  [/\ (compHam base mpow scale add zero c a).2 = compValue base mpow scale add zero w,
      forall s, (sysHam base mpow scale add zero c s a).2 = sysValue base mpow scale add zero w s,
      forall s k t, ohead (drop k (terms c s)) = Some t ->
        (freeMat base mpow c s k t a).2 = termValue base mpow w s (t_freq t, t_op t, t_ord t),
      forall s, [seq (t_freq t, t_op t, t_ord t) | t <- terms c s] = termsOf w s &
      members c = inside w /\ dims c =1 dimOf w].
Proof.
move=> hF hO hP hl w; have := run_iv hF hP hO (start_iv base mpow scale add zero ds) (start_sim F O M ds) hl.
rewrite -surjective_pairing -/w; case e: (run _ _) => [c a] /= [iv sm]; have [e1 e2 e3] := sm; split=> //.
- by case e4: compHam => [a' r] /=; have [-> _] := compHamP iv e4; exact: sim_comp.
- by move=> s; case e4: sysHam => [a' r] /=; have [-> _] := sysHamP iv e4; exact: sim_sys.
- by move=> s k t n; case e4: freeMat => [a' r] /=; have [-> _ _ _] := freeMatP iv n e4; exact: sim_term.
Qed.

(** The same for two sessions with the same outcome: what was read in between, and in which order things were assigned, makes no
    difference. *)
Theorem C95_history (ds ds' : nat -> nat) (l l' : seq (op F O)) :
  (forall f g, eqF f g -> f = g) -> (forall f g, eqO f g -> f = g) -> powers base mpow ->
  fine [::] (newWorld F O ds) l -> fine [::] (newWorld F O ds') l' ->
  foldl (@next F O) (newWorld F O ds) l = foldl (@next F O) (newWorld F O ds') l' ->
  let: (c, a) := run (start F O M ds) l in let: (c', a') := run (start F O M ds') l' in
  (compHam base mpow scale add zero c a).2 = (compHam base mpow scale add zero c' a').2 /\
  forall s, (sysHam base mpow scale add zero c s a).2 = (sysHam base mpow scale add zero c' s a').2.
Proof.
move=> hF hO hP h1 h2 e; have := C95_fresh hF hO hP h1; have := C95_fresh hF hO hP h2; rewrite e.
case: (run _ l) => [c a]; case: (run _ l') => [c' a'] /= [e1 e2 _ _ _] [e3 e4 _ _ _].
by split=> [|s]; rewrite ?e3 ?e4.
Qed.

(** removeTerm of a system that is, or ever was, in a composite system raises AttributeError and changes nothing. *)
Theorem C95_removeTerm_refuted (x : st F O M) s k : s \in bound x.1 -> k < size (terms x.1 s) ->
  does eqF eqO base mpow scale add zero x (RemoveTerm s k) = (x, Err AttributeError).
Proof.
case: x => [c a] /= h hk; rewrite /does /onTerm /=; case e: (drop k (terms c s)) => [|t l] /=; last by rewrite h.
by move/(congr1 size): e; rewrite size_drop => /eqP; rewrite subn_eq0 leqNgt hk.
Qed.
End Fresh.

(** ** Cases *)
(** Numbers instead of matrices: the operator [o] of dimension [d] at the place between [b] and [a] is o + 2 d + 3 b + 5 a, and
    _matPower raises for 0 and otherwise gives the power. *)
Definition baseE (o d b a : nat) : result nat := if d == 0 then Err ValueError else Ok (o + 2 * d + 3 * b + 5 * a).
Definition powE (m n : nat) : result nat := if n == 0 then Err AssertionError else Ok (m ^ n).
Definition sessE (l : seq (op nat nat)) := run eqn eqn baseE powE (fun f m => Ok (f * m)) (fun x y => Ok (x + y)) 0 (start nat nat nat (fun _ => 2)) l.
Definition sysE (x : st nat nat nat) s := (sysHam baseE powE (fun f m => Ok (f * m)) (fun x y => Ok (x + y)) 0 x.1 s x.2).2.
Definition compE (x : st nat nat nat) := (compHam baseE powE (fun f m => Ok (f * m)) (fun x y => Ok (x + y)) 0 x.1 x.2).2.
Lemma powersE : powers baseE powE.
Proof. by move=> o d b a m n _; rewrite /powE; case: n => // n _; exists (m ^ n.+1). Qed.

(** Two systems with three terms; everything is read before it is changed, and system 3 is added last. *)
Definition lE : seq (op nat nat) :=
  [:: AddTerm 1 1 5 1; AddTerm 1 2 7 1; AddTerm 2 3 4 1; AddTerm 3 1 1 1; ReadSys 1; Add 1; Add 2; ReadComp; Freq 1 1 4; ReadComp;
      Dim 2 3; ReadComp; Oper 2 0 9; Order 1 0 2; ReadSys 2; ReadComp; ReadSys 3; Add 3; Freq 9 0 1].
Example C95_ex : fine [::] (newWorld nat nat (fun _ => 2)) lE /\
  compE (sessE lE) = Ok ((5 + 4 + 3 + 30) ^ 2 + 4 * (7 + 4 + 3 + 30) + 3 * (9 + 6 + 6 + 10) + (1 + 4 + 18 + 5) + 0) /\
  sysE (sessE (take 5 lE)) 1 = Ok ((5 + 4 + 3 + 5) + 2 * (7 + 4 + 3 + 5)).
Proof. by split; [|split]; vm_compute; reflexivity. Qed.
(** Taking a system out, with what is read before and after. *)
Example C95_ex_out : let l := lE ++ [:: ReadComp; Remove 1] in fine [::] (newWorld nat nat (fun _ => 2)) l /\
  compE (sessE l) = Ok (3 * (9 + 6 + 3 + 10) + (1 + 4 + 9 + 5) + 0).
Proof. by split; vm_compute; reflexivity. Qed.
(** A reading that raises an exception, and what is read after the cause is gone: dimension 0. *)
Example C95_ex_raise : let l := [:: AddTerm 1 1 5 1; Add 1; ReadComp; Dim 1 0] in fine [::] (newWorld nat nat (fun _ => 2)) (l ++ [:: ReadComp; Dim 1 3]) /\
  compE (sessE l) = Err ValueError /\ compE (sessE (l ++ [:: ReadComp; Dim 1 3])) = Ok (5 + 6 + 3 + 5 + 0).
Proof. by split; [|split]; vm_compute; reflexivity. Qed.

(** removeTerm of a system that is in no composite system takes the term out, but a Hamiltonian that was read before is kept. *)
Theorem C95_stale_refuted : exists l, l = [:: AddTerm 1 1 5 1; AddTerm 1 2 7 1; ReadSys 1; RemoveTerm 1 1] /\
  terms (sessE l).1 1 = [:: Term 1 5 1] /\
  sysE (sessE l) 1 = Ok ((5 + 4 + 3 + 5) + 2 * (7 + 4 + 3 + 5)) /\
  sysE (sessE [:: AddTerm 1 1 5 1]) 1 = Ok (5 + 4 + 3 + 5).
Proof. by eexists; split; [reflexivity|]; split; [|split]; vm_compute; reflexivity. Qed.
(** An order that is not positive raises when the matrix was read before, but stays assigned, and the Hamiltonian stays what it was;
    when it was not read before, nothing raises until it is. *)
Theorem C95_order_refuted : exists l p, l = [:: AddTerm 1 1 5 2; ReadSys 1] /\ p = Order 1 0 0 /\
  (does eqn eqn baseE powE (fun f m => Ok (f * m)) (fun x y => Ok (x + y)) 0 (sessE l) p).2 = Err AssertionError /\
  terms (sessE (l ++ [:: p])).1 1 = [:: Term 1 5 0] /\ sysE (sessE (l ++ [:: p])) 1 = sysE (sessE l) 1 /\
  sysE (sessE [:: AddTerm 1 1 5 2; p]) 1 = Err AssertionError.
Proof. by do 2 eexists; split; [reflexivity|]; split; [reflexivity|]; split; [|split; [|split]]; vm_compute; reflexivity. Qed.

Print Assumptions C95_fresh.
Print Assumptions C95_history.
Print Assumptions C95_removeTerm_refuted.
Print Assumptions C95_stale_refuted.
Print Assumptions C95_order_refuted.
