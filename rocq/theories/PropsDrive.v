(** C52: drives and pulses. *)
From mathcomp Require Import all_ssreflect all_algebra.
From Coq Require Permutation.
From Verif Require Py.
From Verif Require Import DriveModel DriveSpec DriveProofs.
Set Implicit Arguments. Unset Strict Implicit. Unset Printing Implicit Defensive.
Import Order.TTheory GRing.Theory Num.Theory.
Local Open Scope ring_scope.
Import Py(result, Ok, Err, TypeError, ZeroDivisionError, KeyError).

Section Props.
Variable R : realFieldType.
Variable pi : R.
Implicit Types (p : pulse R) (d : drive R) (a b s t c : R).

(** A pulse contributes factor times function strictly inside its window and 0
    elsewhere, where the function is not called; an error of the function is
    the error of the pulse. *)
Theorem C52_window p a b f t : t0 p = Some a -> t1 p = Some b -> func p = Some f ->
  [/\ (forall v, a < t -> t < b -> f t = Ok v -> applyPulse p t = Ok (scale p * v)),
      (forall e, a < t -> t < b -> f t = Err e -> applyPulse p t = Err e),
      (t <= a -> applyPulse p t = Ok 0),
      (b <= t -> applyPulse p t = Ok 0)
    & (b <= a -> applyPulse p t = Ok 0)].
Proof.
move=> E0 E1 Ef; rewrite /applyPulse E0 E1 Ef /=; split.
- by move=> v -> -> /= ->.
- by move=> e -> -> /= ->.
- by rewrite leNgt => /negbTE ->; case: (t < b).
- by rewrite leNgt => /negbTE ->.
- move=> Hba; case: ltP => //= Htb; case: ltP => //= Hat.
  by move: (lt_trans Hat Htb); rewrite ltNge Hba.
Qed.

(** Attributes that are not set: TypeError, except at and after t1 if t0 or the
    function is missing. *)
Theorem C52_unset p t :
  [/\ (t1 p = None -> applyPulse p t = Err TypeError),
      (forall b, t1 p = Some b -> t0 p = None -> applyPulse p t = if t < b then Err TypeError else Ok 0)
    & (forall a b, t1 p = Some b -> t0 p = Some a -> func p = None ->
        applyPulse p t = if inside a b t then Err TypeError else Ok 0)].
Proof.
rewrite /applyPulse; split=> [->|b -> ->|a b -> -> ->] //=; first by case: ifP.
by rewrite /inside; case: (t < b); rewrite /= ?andbF // andbT; case: ifP.
Qed.

(** A drive is the sum of its pulses: it has a value exactly if all of them do,
    and then the value is their sum, whatever their order. *)
Theorem C52_sum d t :
  (forall val : nat * pulse R -> R, (forall x, List.In x (pulses d) -> applyPulse x.2 t = Ok (val x)) ->
     applyDrive d t = Ok (\sum_(x <- pulses d) val x)) /\
  (forall v, applyDrive d t = Ok v -> forall x, List.In x (pulses d) -> exists w, applyPulse x.2 t = Ok w).
Proof.
split; first by move=> val H; rewrite /applyDrive (sumPulsesE _ H) add0r.
by move=> v; apply: sumPulses_ok.
Qed.

Theorem C52_order d d' t v : Permutation.Permutation (pulses d) (pulses d') ->
  applyDrive d t = Ok v -> applyDrive d' t = Ok v.
Proof.
move=> P E. pose val (x : nat * pulse R) := if applyPulse x.2 t is Ok w then w else 0.
have H : forall x, List.In x (pulses d) -> applyPulse x.2 t = Ok (val x).
  by move=> x /(sumPulses_ok E)[w Ew]; rewrite /val Ew.
have H' : forall x, List.In x (pulses d') -> applyPulse x.2 t = Ok (val x).
  by move=> x Hx; apply: H; apply: Permutation.Permutation_in Hx; apply: Permutation.Permutation_sym.
case: (C52_sum d t) (C52_sum d' t) => /(_ val H) S _ [/(_ val H') S' _].
rewrite S' -E S; congr (Ok _). elim: P => {S S' H H' E} [|x l l' _ IH|x y l|l1 l2 l3 _ IH1 _ IH2].
- by [].
- by rewrite !big_cons IH.
- by rewrite !big_cons addrCA.
- by rewrite IH2 IH1.
Qed.

(** Pulses outside their windows do not matter. *)
Theorem C52_inactive d t : (forall x, List.In x (pulses d) -> exists a b, [/\ t0 x.2 = Some a, t1 x.2 = Some b & ~~ inside a b t]) ->
  applyDrive d t = Ok 0.
Proof.
move=> H. case: (C52_sum d t) => S _. rewrite (S (fun=> 0)) ?big1 // => x /H[a [b [E0 E1]]].
rewrite /inside /applyPulse E0 E1 /=. case: (t < b) => //=; by rewrite andbT => /negbTE ->.
Qed.

(** integrateShape is the midpoint rule. *)
Theorem C52_integral p a b g f pts : t0 p = Some a -> t1 p = Some b -> func p = Some f ->
  (forall t, a < t -> t < b -> f t = Ok (g t)) ->
  integrateShape p pts = Ok (midpoint (value a b (scale p) g) pts).
Proof.
move=> E0 E1 Ef Hf. rewrite /integrateShape (@integrateE _ p a b g) ?add0r //.
by split=> //; exists f => // t /andP[]; apply: Hf.
Qed.

(** It is exact for constant and linear shapes on any increasing list of points
    from one end of the window to the other. *)
Theorem C52_exact p a b c s f pts : t0 p = Some a -> t1 p = Some b -> func p = Some f ->
  (forall t, a < t -> t < b -> f t = Ok (c + s * t)) -> increasing a b pts ->
  integrateShape p pts = Ok (scale p * (c * (b - a) + s * (b ^+ 2 - a ^+ 2) / 2%:R)).
Proof.
move=> E0 E1 Ef Hf I. rewrite (C52_integral pts E0 E1 Ef Hf) midpoint_scale; congr (Ok (_ * _)).
rewrite (@eq_midpoint _ _ (fun t => c + s * t)); last first.
  by move=> i Hi; rewrite /value (mid_inside I Hi) mul1r.
by case: I => Hs <- <- _; rewrite midpoint_affine.
Qed.

(** A pulse added with a rotation angle: the angle is 2 pi times its integral
    over the 1001 points, and the drive has one more pulse. *)
Theorem C52_rotation theta a b g f n d : (forall t, a < t -> t < b -> f t = Ok (g t)) ->
  let I := midpoint (value a b 1 g) (grid 1001 a b) in
  (2%:R * pi * I != 0 -> exists p,
     [/\ addPulse pi (Some theta) (Some a) (Some b) (Some f) n d = (Drive (rcons (pulses d) (n, p)) true (dshape d), Ok tt),
         [/\ t0 p = Some a, t1 p = Some b, func p = Some f & pflag p],
         exists2 J, integrateShape p (grid 1001 a b) = Ok J & 2%:R * pi * J = theta
       & forall t, applyPulse p t = Ok (theta / (2%:R * pi * I) * value a b 1 g t)]) /\
  (2%:R * pi * I = 0 ->
     addPulse pi (Some theta) (Some a) (Some b) (Some f) n d = (Drive (pulses d) true (dshape d), Err ZeroDivisionError)).
Proof.
move=> Hf I.
have L s fl sh : like (Pulse (Some a) (Some b) (Some f) s fl sh) a b g.
  by split=> //; exists f => // t /andP[]; apply: Hf.
have E s fl sh pts : integrateShape (Pulse (Some a) (Some b) (Some f) s fl sh) pts = Ok (midpoint (value a b s g) pts).
  by rewrite (C52_integral (a := a) (b := b) (g := g) (f := f)).
split=> [N|Z]; last by rewrite /addPulse /newPulse /gridOf /t0 /t1 /DriveModel.bind !E -/I Z eqxx.
exists (Pulse (Some a) (Some b) (Some f) (theta / (2%:R * pi * I)) true None); split=> //.
- by rewrite /addPulse /newPulse /gridOf /t0 /t1 /DriveModel.bind !E -/I (negbTE N).
- rewrite E. eexists; first by reflexivity. by rewrite midpoint_scale -/I mulrCA divfK.
- by move=> t; rewrite (applyE t (L _ _ _)) value_scale.
Qed.

Lemma grid_increasing a b : a < b -> increasing a b (grid 1001 a b).
Proof.
move=> H. have P : (0 : R) < 1000%:R by rewrite ltr0n.
have S : size (grid 1001 a b) = 1001%N by rewrite /grid size_map size_iota.
have N i : (i < 1001)%N -> (grid 1001 a b)`_i = a + i%:R * ((b - a) / 1000%:R).
  by move=> Hi; rewrite /grid (nth_map 0%N) ?size_iota // nth_iota.
split; first by rewrite S.
- by rewrite N // mul0r addr0.
- by rewrite S N // mulrC divfK ?addrNK // ?gt_eqF // addrC subrK.
- move=> i; rewrite S => Hi. rewrite !N // ?(ltnW Hi) // ltr_add2l ltr_pmul2r ?ltr_nat //.
  by rewrite divr_gt0 // subr_gt0.
Qed.

(** A square pulse of height 1 with angle theta has amplitude theta / (2 pi (b - a)). *)
Theorem C52_square theta a b n d : pi != 0 -> a < b ->
  exists p, addPulse pi (Some theta) (Some a) (Some b) (Some (fun=> Ok 1)) n d = (Drive (rcons (pulses d) (n, p)) true (dshape d), Ok tt) /\
  forall t, applyPulse p t = Ok (if inside a b t then theta / (2%:R * pi * (b - a)) else 0).
Proof.
move=> Npi Hab. have Hf : forall t, a < t -> t < b -> (fun=> Ok 1 : result R) t = Ok ((fun=> 1) t) by [].
have I1 : midpoint (value a b 1 (fun=> 1)) (grid 1001 a b) = b - a.
  pose p := Pulse (Some a) (Some b) (Some (fun=> Ok 1)) 1 true None : pulse R.
  have Hg : forall t, a < t -> t < b -> (fun=> Ok 1 : result R) t = Ok (1 + 0 * t) by move=> t _ _; rewrite mul0r addr0.
  have := @C52_exact p a b 1 0 (fun=> Ok 1) (grid 1001 a b) erefl erefl erefl Hg (grid_increasing Hab).
  rewrite (@C52_integral p a b (fun=> 1) (fun=> Ok 1)) //= => /(@Ok_inj _ _ _) ->.
  by rewrite !mul1r !mul0r addr0.
have N : 2%:R * pi * (b - a) != 0.
  by rewrite !mulf_neq0 // ?pnatr_eq0 // subr_eq0 gt_eqF.
case: (C52_rotation theta n d Hf) => + _. rewrite I1 => /(_ N)[p [E _ _ H]]. exists p; split=> // t.
by rewrite H /value; case: inside; rewrite ?mulr0 // !mulr1.
Qed.

(** Without an angle the factor is 1; in every case the pulses already there stay
    as they are. *)
Theorem C52_add r (a b : option R) f n d : let '(d', x) := addPulse pi r a b f n d in
  if x is Ok _ then exists p, [/\ pulses d' = rcons (pulses d) (n, p), t0 p = a, t1 p = b, func p = f & (r = None -> scale p = 1)]
  else pulses d' = pulses d.
Proof.
rewrite /addPulse. case: r => [th|] /=; last by exists (newPulse a b f).
case: (DriveModel.bind _ _) => [s|e] //=. by eexists; split.
Qed.

(** totalShape always agrees with the current pulses, after any history of
    additions, removals, changes (also the ones that do not flag the drive) and
    earlier calls with other times. *)
Theorem C52_shape xs ts d' x : totalShape (acts pi xs (newDrive R)) ts = (d', x) ->
  let d := acts pi xs (newDrive R) in
  pulses d' = pulses d /\
  (forall vs, x = Ok vs <-> List.Forall2 (fun t v => applyDrive d t = Ok v) ts vs).
Proof.
move=> E d. have F : dflag d by apply: acts_flag.
move: E; rewrite /totalShape -/d F orbT.
case S : (shape (applyDrive d) ts) => [vs|e] [<- <-]; split=> // ws; rewrite -shapeE S; split=> //.
Qed.

(** The same for a pulse. *)
Theorem C52_shape_pulse p ts : pflag p ->
  forall vs, (totalShapePulse p ts).2 = Ok vs <-> List.Forall2 (fun t v => applyPulse p t = Ok v) ts vs.
Proof.
move=> F vs; rewrite /totalShapePulse F orbT -shapeE. by case: shape.
Qed.
Theorem C52_pulse_flag (c : change R) p : pflag p -> pflag (changePulse c p).1 /\ forall ts, pflag (totalShapePulse p ts).1.
Proof.
move=> F; split; first by case: c => [v|v|f []|f] /=; try case: ifP.
by move=> ts; rewrite /totalShapePulse F orbT; case: shape.
Qed.
End Props.

(** Non-vacuity: rational times, the pulse 3 + t on (0, 2), and a drive of two
    square pulses, one of which is changed after a first call. *)
Section Ex.
Notation Q := rat_realFieldType.
Definition ramp : pulse Q := Pulse (Some 0) (Some 2%:R) (Some (fun t => Ok (3%:R + t))) 1 true None.
Example ramp_inside : applyPulse ramp 1 = Ok 4%:R. Proof. by vm_compute. Qed.
Example ramp_edge : applyPulse ramp 0 = Ok 0 /\ applyPulse ramp 2%:R = Ok 0. Proof. by split; vm_compute. Qed.
Example ramp_integral : exists2 J, integrateShape ramp [:: 0; 1 / 2%:R; 2%:R] = Ok J & J = 8%:R.
Proof. by eexists; first reflexivity; apply/eqP; vm_compute. Qed.
Example ramp_points : increasing (0 : Q) 2%:R [:: 0; 1 / 2%:R; 2%:R].
Proof. by split=> // -[|[|i]]. Qed.
Definition history : seq (action Q) :=
  [:: Add None (Some 0) (Some 2%:R) (Some (fun=> Ok 1)) 0; Add None (Some 1) (Some 3%:R) (Some (fun=> Ok 2%:R)) 1;
      Shape [:: 0; 1 / 2%:R]; Set_ 0 (SetArgs (Some (fun=> Ok 5%:R)))].
Example history_shape : exists v w, (totalShape (acts (3%:R : Q) history (newDrive Q)) [:: 1 / 2%:R; 3%:R / 2%:R]).2 = Ok [:: v; w] /\ (v = 5%:R /\ w = 7%:R).
Proof.
do 2 eexists; split; first by reflexivity.
by split; apply/eqP; vm_compute.
Qed.
End Ex.

Print Assumptions C52_window.
Print Assumptions C52_unset.
Print Assumptions C52_sum.
Print Assumptions C52_order.
Print Assumptions C52_inactive.
Print Assumptions C52_integral.
Print Assumptions C52_exact.
Print Assumptions C52_rotation.
Print Assumptions C52_square.
Print Assumptions C52_add.
Print Assumptions C52_shape.
Print Assumptions C52_shape_pulse.
