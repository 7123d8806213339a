(** C92: which object an attribute of a system or protocol reads and assigns. *)
From Coq Require Import QArith Qround.
From Verif Require Import Py TimeModel TimeProofs PropsTime FwdModel FwdSpec.
#[local] Open Scope string_scope.
#[local] Open Scope nat_scope.
#[local] Open Scope list_scope.

Section General.
Variables W V : Type.
Variable attrs : nat -> string -> option (desc W V).
Variable isComp : nat -> bool.
Variable simOf : W -> nat -> option nat.
Notation get := (getattr W V attrs isComp simOf).
Notation put := (setattr W V attrs isComp simOf).
Notation run := (session W V attrs isComp simOf).

(** C92: an attribute which the class of the object has is the object's own,
    whatever its simulation has under that name, as long as the getter or setter
    does not raise AttributeError; every other exception comes out as it is. *)
Theorem C92_own : forall q n d w, attrs q n = Some d ->
  (snd (d_get W V d w) <> Err AttributeError -> get q n w = d_get W V d w) /\
  (forall f v, d_set W V d = Some f -> snd (f v w) <> Err AttributeError -> put q n v w = f v w).
Proof.
  intros q n d w A. split.
  - intros N. unfold getattr, ownGet. rewrite A. destruct (isComp q); [|reflexivity].
    destruct (d_get W V d w) as [w1 [x|[]]]; try reflexivity. now elim N.
  - intros f v F N. unfold setattr, ownSet. rewrite A, F. destruct (isComp q); [|reflexivity].
    destruct (f v w) as [w1 [x|[]]]; try reflexivity. now elim N.
Qed.

(** C92: an attribute which the class does not have is the one of the simulation,
    to read and to assign, with the same effects, results and exceptions. *)
Theorem C92_forward : forall q s n w, attrs q n = None -> isComp q = true -> simOf w q = Some s -> isComp s = false ->
  get q n w = get s n w /\ (forall v, put q n v w = put s n v w).
Proof.
  intros q s n w A C S N. unfold getattr, setattr. rewrite C, N. split; [|intros v].
  - unfold ownGet at 1. rewrite A, S. destruct (ownGet W V attrs s n w) as [w1 [x|[]]]; reflexivity.
  - unfold ownSet at 1. rewrite A, S. destruct (ownSet W V attrs s n v w) as [w1 [x|[]]]; reflexivity.
Qed.

(** C92: an attribute which neither has cannot be read and cannot be assigned, and
    trying changes nothing: a misspelt parameter is always reported. *)
Theorem C92_unknown : forall q s n w, attrs q n = None -> attrs s n = None -> simOf w q = Some s ->
  get q n w = (w, Err AttributeError) /\ (forall v, put q n v w = (w, Err AttributeError)).
Proof.
  intros q s n w A B S. unfold getattr, setattr, ownGet, ownSet. rewrite A, S, B.
  split; [|intros v]; destruct (isComp q); reflexivity.
Qed.

Lemma does_sims : forall o a w, keepsSims attrs simOf (about a) ->
  simOf (fst (does W V attrs isComp simOf o a w)) = simOf w.
Proof.
  intros o [n|n v] w K; cbn [about] in K.
  - assert (G : forall p u, simOf (fst (ownGet W V attrs p n u)) = simOf u).
    { intros p u. unfold ownGet. destruct (attrs p n) as [d|] eqn:E; [|reflexivity]. now destruct (K p d E). }
    unfold does, getattr. destruct (isComp o).
    + generalize (G o w). destruct (ownGet W V attrs o n w) as [w1 [x|[]]]; cbn; intros E; try exact E.
      destruct (simOf w1 o) as [s|]; [|exact E]. generalize (G s w1).
      destruct (ownGet W V attrs s n w1) as [w2 [x|[]]]; cbn; intros E2; now rewrite E2.
    + generalize (G o w). now destruct (ownGet W V attrs o n w).
  - assert (G : forall p u, simOf (fst (ownSet W V attrs p n v u)) = simOf u).
    { intros p u. unfold ownSet. destruct (attrs p n) as [d|] eqn:E; [|reflexivity].
      destruct (d_set W V d) as [f|] eqn:F; [|reflexivity]. destruct (K p d E) as [_ K2]. now apply K2. }
    unfold does, setattr. destruct (isComp o).
    + generalize (G o w). destruct (ownSet W V attrs o n v w) as [w1 [x|[]]]; cbn; intros E; try exact E.
      destruct (simOf w1 o) as [s|]; [|exact E]. generalize (G s w1).
      destruct (ownSet W V attrs s n v w1) as [w2 [x|[]]]; cbn; intros E2; now rewrite E2.
    + generalize (G o w). now destruct (ownSet W V attrs o n v w).
Qed.

(** C92: in any session of reads and assignments, made on any objects in any
    order, each access to an attribute that the class of a system does not have
    can be made on the system's simulation instead: the results, the exceptions
    and the final state are the same. *)
Theorem C92_session : forall l l' w, Forall2 (sameButFor attrs isComp simOf w) l l' ->
  (forall x, In x l -> keepsSims attrs simOf (about (snd x))) -> run l w = run l' w.
Proof.
  intros l l' w F. assert (G : forall u, simOf u = simOf w ->
    (forall x, In x l -> keepsSims attrs simOf (about (snd x))) -> run l u = run l' u).
  { induction F as [|[o a] [o' a'] l l' [A B] F IH]; [reflexivity|]. cbn in A, B. subst a'. intros u U K.
    assert (D : does W V attrs isComp simOf o a u = does W V attrs isComp simOf o' a u).
    { destruct B as [->|(C & N & S & I)]; [reflexivity|]. rewrite <- U in S.
      destruct (C92_forward o o' (about a) u N C S I) as [P Q].
      destruct a as [n|n v]; cbn [about] in *; unfold does; [now rewrite P|now rewrite Q]. }
    cbn [session]. rewrite <- D.
    pose proof (does_sims o a u (K (o, a) (or_introl eq_refl))) as E.
    destruct (does W V attrs isComp simOf o a u) as [u1 x]. cbn in E.
    rewrite (IH u1); [reflexivity|now rewrite E|]. intros y Y. apply K. now right. }
  intros K. now apply G.
Qed.

(** C92: the exception that leads to the simulation may come from inside the
    object's own getter or setter, or from a property without a setter.  What the
    object had done until then stays done, the attribute of the simulation is
    read or assigned instead, and the exception is lost. *)
Theorem C92_masked : forall q s n d w w1, attrs q n = Some d -> isComp q = true -> simOf w1 q = Some s ->
  isComp s = false ->
  (d_get W V d w = (w1, Err AttributeError) -> get q n w = get s n w1) /\
  (forall f v, d_set W V d = Some f -> f v w = (w1, Err AttributeError) -> put q n v w = put s n v w1) /\
  (forall v, d_set W V d = None -> w1 = w -> put q n v w = put s n v w).
Proof.
  intros q s n d w w1 A C S N. unfold getattr, setattr, ownGet, ownSet. rewrite A, C, N. repeat split.
  - intros ->. rewrite S. destruct (attrs s n) as [e|]; [|reflexivity]. now destruct (d_get W V e w1) as [w2 [x|[]]].
  - intros f v -> ->. rewrite S. destruct (attrs s n) as [e|]; [|reflexivity].
    destruct (d_set W V e) as [g|]; [|reflexivity]. now destruct (g v w1) as [w2 [x|[]]].
  - intros v -> ->. rewrite S. destruct (attrs s n) as [e|]; [|reflexivity].
    destruct (d_set W V e) as [g|]; [|reflexivity]. now destruct (g v w) as [w2 [x|[]]].
Qed.

(** C92: before the object has its simulation, an attribute it does not have
    gives a RecursionError instead of an AttributeError. *)
Theorem C92_early : forall q n w, attrs q n = None -> isComp q = true -> simOf w q = None ->
  get q n w = (w, Err RecursionError) /\ (forall v, put q n v w = (w, Err RecursionError)).
Proof.
  intros q n w A C S. unfold getattr, setattr, ownGet, ownSet. rewrite A, C, S. split; reflexivity.
Qed.
End General.

(** C92: the object's own attribute does not always win: one assignment can
    change both objects. *)
Theorem C92_own_refuted : exists (attrs : nat -> string -> option (desc (nat * nat) nat)) q n d f v w,
  attrs q n = Some d /\ d_set _ _ d = Some f /\ f v w = ((7, 0), Err AttributeError) /\ w = (0, 0) /\
  setattr _ _ attrs Nat.even (fun _ o => Some (S o)) q n v w = ((7, 7), Ok tt).
Proof.
  exists (fun o _ => Some (if Nat.even o
             then Desc (fun w => (w, Ok (fst w))) (Some (fun v w => ((v, snd w), Err AttributeError)))
             else Desc (fun w => (w, Ok (snd w))) (Some (fun v w => ((fst w, v), Ok tt))))), 0, "x".
  eexists _, _, 7, (0, 0). repeat split.
Qed.

(** ** The time parameters *)

Lemma isSys_sim : forall q, isSys q = true -> isSys (simFor q) = false.
Proof. intros q E. unfold isSys, simFor in *. rewrite Nat.even_succ, <- Nat.negb_even, E. reflexivity. Qed.

Lemma tset_sim : forall lim s k x h, isSys s = false -> tset lim s (nameOf k) (VNum (Some x)) h = set_prop lim s k x h.
Proof.
  intros lim s k x h N. unfold tset, setattr, ownSet, table. rewrite N.
  destruct k; reflexivity.
Qed.
Lemma tset_sys : forall lim q k x h, isSys q = true ->
  tset lim q (nameOf k) (VNum (Some x)) h = set_prop lim (simFor q) k x h.
Proof.
  intros lim q k x h C. rewrite <- (tset_sim lim (simFor q) k x h (isSys_sim q C)).
  unfold tset. apply (C92_forward heap val (table lim) isSys (fun _ o => Some (simFor o)) q (simFor q)); auto using isSys_sim.
  unfold table. rewrite C. now destruct k.
Qed.
Lemma tset_alias : forall lim q k x h, isSys q = true ->
  tset lim q (simNameOf k) (VNum (Some x)) h = set_prop lim (simFor q) k x h.
Proof.
  intros lim q k x h C. unfold tset, setattr, ownSet, table. rewrite C, (isSys_sim q C).
  destruct k; cbn [simNameOf compAttrs simDesc timeDesc d_set String.eqb Ascii.eqb Bool.eqb];
    match goal with |- context [match ?m with (_, _) => _ end] =>
      change m with (set_prop lim (simFor q) ltac:(first [exact KSize|exact KTotal|exact KCount|exact KSamples]) x h) || idtac end.
  all: cbn; match goal with |- match ?m with _ => _ end = _ => destruct m as [w1 [u|[]]]; reflexivity end.
Qed.
Lemma assign_sim : forall lim q y k x h, isSys q = true ->
  assign lim q (y, k, x) h = set_prop lim (simFor q) k x h.
Proof.
  intros lim q [] k x h C; cbn [assign]; [now apply tset_sys|now apply tset_alias|].
  unfold mbind. replace (tget lim q "simulation" h) with (h, @Ok val (VObj (simFor q))).
  - apply tset_sim. now apply isSys_sim.
  - unfold tget, getattr, ownGet, table. now rewrite C.
Qed.

(** C92: whichever way each assignment of a time parameter is made, q.totalTime =
    x, q.simTotalTime = x or q.simulation.totalTime = x, for any systems in any
    order, the simulations end with the same parameters and the same assignments
    raise. *)
Theorem C92_time : forall lim l h, Forall (fun a => Nat.Even (fst a)) l -> assignAll lim l h = onSims lim l h.
Proof.
  intros lim l. induction l as [|[q [[y k] x]] l IH]; intros h F; [reflexivity|].
  cbn [assignAll onSims]. rewrite assign_sim.
  - change (simFor q) with (S q). destruct (set_prop lim (S q) k x h) as [h1 r]. rewrite IH; [reflexivity|now inversion F].
  - inversion F; subst. now apply Nat.even_spec.
Qed.

(** C92: q.totalTime, q.stepSize, q.stepCount and q.samples read the parameters
    of the simulation of q. *)
Theorem C92_time_read : forall lim q k h, Nat.Even q ->
  tget lim q (nameOf k) h = tget lim (S q) (nameOf k) h /\
  tget lim (S q) (nameOf k) h =
    (let (h', r) := match k with KCount => get_stepCount lim (S q) h | _ => (h, value lim h k (S q)) end in
     (h', match r with Ok x => Ok (VNum x) | Err e => Err e end)).
Proof.
  intros lim q k h E. apply Nat.even_spec in E. pose proof (isSys_sim q E) as N. split.
  - unfold tget. apply (C92_forward heap val (table lim) isSys (fun _ o => Some (simFor o)) q (simFor q)); auto.
    unfold table. change (isSys q) with (Nat.even q). rewrite E. now destruct k.
  - unfold tget, getattr, ownGet, table. change (S q) with (simFor q). rewrite N.
    destruct k; cbn [nameOf simAttrs timeDesc d_get String.eqb Ascii.eqb Bool.eqb]; unfold num, mbind at 1, get_prop.
    1,2,4: unfold read; now destruct (value lim h _ (simFor q)).
    now destruct (get_stepCount lim (simFor q) h) as [h' [x|e]].
Qed.

(** C92: so a system's total time and step size, given in any of these ways and
    in either order, give the step count floor(T/s)+1 read through the system. *)
Theorem C92_time_count : forall lim q y z T s h, Nat.Even q ->
  (forall k, exists v, value lim h k (S q) = Ok v) -> ~ (s == 0)%Q ->
  forall l, l = (q, (y, KTotal, T)) :: (q, (z, KSize, s)) :: nil \/ l = (q, (z, KSize, s)) :: (q, (y, KTotal, T)) :: nil ->
  exists h' n, tget lim q "stepCount" (fst (assignAll lim l h)) = (h', Ok (VNum (Some n))) /\
    (n == inject_Z (Qfloor (T / s)) + 1)%Q.
Proof.
  intros lim q y z T s h E R N l L. destruct (C19_total_and_size lim (S q) T s h R N) as [A B].
  rewrite C92_time by (destruct L as [->| ->]; repeat constructor; exact E).
  destruct (C92_time_read lim q KCount (fst (onSims lim l h)) E) as [P Q]. cbn [nameOf] in P, Q. rewrite P, Q.
  destruct L as [->| ->]; cbn [onSims set_prop fst].
  - destruct A as (h3 & n & A & X). destruct (set_totalTime lim (S q) T h) as [h1 r1]. cbn [fst] in A.
    destruct (set_stepSize lim (S q) s h1) as [h2 r2]. cbn [fst] in A. cbn [fst]. rewrite A. now exists h3, n.
  - destruct B as (h3 & n & B & X). destruct (set_stepSize lim (S q) s h) as [h1 r1]. cbn [fst] in B.
    destruct (set_totalTime lim (S q) T h1) as [h2 r2]. cbn [fst] in B. cbn [fst]. rewrite B. now exists h3, n.
Qed.

(** C92: but q.simTotalTime cannot be read back: it gives the tuple of all the
    parameters, or raises when one of them has no value yet. *)
Theorem C92_alias_read_refuted :
  (forall lim q k h, Nat.Even q -> exists h' r, tget lim q (simNameOf k) h = (h', r) /\ forall x, r <> Ok (VNum x)) /\
  (exists h, assign 10 0 (Alias, KTotal, 2%Q) (fun _ => fresh) = (h, Ok tt) /\
     snd (tget 10 0 "totalTime" h) = Ok (VNum (Some 2%Q)) /\ snd (tget 10 0 "simTotalTime" h) = Err ValueError).
Proof.
  split.
  - intros lim q k h E. apply Nat.even_spec in E.
    assert (T : tget lim q (simNameOf k) h = match simParameters lim (simFor q) h with
                | (w1, Err AttributeError) => (w1, Err AttributeError) | r => r end).
    { unfold tget, getattr, ownGet, table. pose proof (isSys_sim q E) as N. change (isSys q) with (Nat.even q).
      rewrite E, N. destruct k; cbn; destruct (simParameters lim (simFor q) h) as [w [x|[]]]; reflexivity. }
    rewrite T. eexists _, _. split; [apply surjective_pairing|]. intros x.
    assert (P : forall y, snd (simParameters lim (simFor q) h) = Ok y -> exists l, y = VTuple l).
    { unfold simParameters, mbind. intros y.
      repeat match goal with |- context [let (_, _) := ?m in _] => destruct m as [? [?|?]] | |- context [match ?m with (_, _) => _ end] => destruct m as [? [?|?]] end;
        cbn; intros D; try discriminate. injection D as <-. eauto. }
    destruct (simParameters lim (simFor q) h) as [w [y|e]].
    + destruct (P y eq_refl) as [l ->]. discriminate.
    + destruct e; discriminate.
  - eexists. split; [reflexivity|]. split; vm_compute; reflexivity.
Qed.

(** C92: what q.simParameters gives is total time, step size, step count and samples of its simulation, in this order. *)
Theorem C92_parameters : forall lim q h h1 h2 h3 h4 a b c d, Nat.Even q ->
  get_prop lim KTotal (S q) h = (h1, Ok a) -> get_prop lim KSize (S q) h1 = (h2, Ok b) ->
  get_prop lim KCount (S q) h2 = (h3, Ok c) -> get_prop lim KSamples (S q) h3 = (h4, Ok d) ->
  tget lim q "simParameters" h = (h4, Ok (VTuple (a :: b :: c :: d :: nil))).
Proof.
  intros lim q h h1 h2 h3 h4 a b c d E A B C D. apply Nat.even_spec in E.
  assert (T : tget lim q "simParameters" h = match simParameters lim (simFor q) h with
              | (w1, Err AttributeError) => (w1, Err AttributeError) | r => r end).
  { unfold tget, getattr, ownGet, table. pose proof (isSys_sim q E) as N. change (isSys q) with (Nat.even q).
    rewrite E, N. cbn; destruct (simParameters lim (simFor q) h) as [w [x|[]]]; reflexivity. }
  rewrite T. unfold simParameters, mbind, simFor. rewrite A, B, C, D. reflexivity.
Qed.

Definition ex_l : list (nat * (way * key * Q)) :=
  (0, (Direct, KTotal, 6%Q)) :: (2, (Alias, KSamples, 3%Q)) :: (0, (Alias, KSize, 2%Q)) :: (2, (Simulation, KCount, 0%Q)) :: (2, (Direct, KTotal, 1%Q)) :: nil.
Example C92_ex_hyp : Forall (fun a => Nat.Even (fst a)) ex_l.
Proof. repeat constructor; cbn; [now exists 0|now exists 1|now exists 0|now exists 1|now exists 1]. Qed.
Example C92_ex : snd (tget 10 0 "stepCount" (fst (assignAll 10 ex_l (fun _ => fresh)))) = Ok (VNum (Some 4%Q)) /\
  snd (tget 10 2 "samples" (fst (assignAll 10 ex_l (fun _ => fresh)))) = Ok (VNum (Some 3%Q)) /\
  snd (tget 10 0 "samples" (fst (assignAll 10 ex_l (fun _ => fresh)))) = Ok (VNum (Some 1%Q)) /\
  snd (tget 10 0 "totalTim" (fst (assignAll 10 ex_l (fun _ => fresh)))) = Err AttributeError.
Proof. vm_compute. repeat split. Qed.
Example C92_ex_parameters : snd (tget 10 0 "simParameters" (fst (assignAll 10 ex_l (fun _ => fresh)))) =
  Ok (VTuple (Some 6%Q :: Some 2%Q :: Some 4%Q :: Some 1%Q :: nil)).
Proof. vm_compute. reflexivity. Qed.
Example C92_ex_session : Forall2 (sameButFor (table 10) isSys (fun _ o => Some (simFor o)) (fun _ => fresh))
  ((0, Put "stepSize" (VNum (Some 1%Q))) :: (0, Get "stepSize") :: (0, Get "simulation") :: nil)
  ((1, Put "stepSize" (VNum (Some 1%Q))) :: (0, Get "stepSize") :: (0, Get "simulation") :: nil) /\
  (forall n, keepsSims (table 10) (fun _ o => Some (simFor o)) n).
Proof.
  split; [|intros n o d _; split; reflexivity].
  constructor; [split; [reflexivity|right; repeat split]|].
  repeat (constructor; [split; [reflexivity|now left]|]). constructor.
Qed.

Print Assumptions C92_own.
Print Assumptions C92_forward.
Print Assumptions C92_parameters.
Print Assumptions C92_unknown.
Print Assumptions C92_session.
Print Assumptions C92_masked.
Print Assumptions C92_early.
Print Assumptions C92_own_refuted.
Print Assumptions C92_time.
Print Assumptions C92_time_read.
Print Assumptions C92_time_count.
Print Assumptions C92_alias_read_refuted.
