(** Model of drives and pulses (src/quanguru/classes/QDrive.py). *)
From mathcomp Require Import all_ssreflect all_algebra.
From Verif Require Py.
Set Implicit Arguments. Unset Strict Implicit. Unset Printing Implicit Defensive.
Import GRing.Theory Num.Theory.
Local Open Scope ring_scope.
Import Py(result, Ok, Err, TypeError, ZeroDivisionError, KeyError).

Section Drive.
(** Times and amplitudes.  Simplification: exact arithmetic. *)
Variable R : realFieldType.
(** numpy.pi *)
Variable pi : R.

Definition bind A B (x : result A) (f : A -> result B) : result B :=
  match x with Ok a => f a | Err e => Err e end.
Local Notation "'do' x <- e ; f" := (bind e (fun x => f)) (at level 200, x name, e at level 100, f at level 200).

(** A pulse: t0, t1, func with its arguments and keyword arguments already
    given (the function may raise), _scale, the update flag and the stored
    shape (QDrive.py pulse 88-99, baseClasses.py 135-143). *)
Record pulse := Pulse { t0 : option R; t1 : option R; func : option (R -> result R);
                        scale : R; pflag : bool; pshape : option (seq R) }.

(** QDrive.py pulse.__init__ 89-97 with the keyword arguments t0, t1 and func.
    The flag is True from paramBoundBase.__init__. *)
Definition newPulse (a b : option R) (f : option (R -> result R)) : pulse := Pulse a b f 1 true None.

(** [t1 > time > t0]: the first comparison, then the second only if the first
    holds; comparing None raises TypeError. *)
Definition gtNum (x : option R) (time : R) : result bool :=
  match x with Some v => Ok (time < v) | None => Err TypeError end.
Definition ltNum (x : option R) (time : R) : result bool :=
  match x with Some v => Ok (v < time) | None => Err TypeError end.

(** QDrive.py pulse.apply 123-124; genericDrive.apply 41-42 is the 0 *)
Definition applyPulse (p : pulse) (time : R) : result R :=
  do c1 <- gtNum (t1 p) time;
  do c <- (if c1 then ltNum (t0 p) time else Ok false);
  if c then
    match func p with
    | None => Err TypeError                      (* 'NoneType' object is not callable *)
    | Some f => do v <- f time; Ok (scale p * v)
    end
  else Ok 0.

(** QDrive.py pulse.integrateShape 126-130: the loop over neighbouring points *)
Fixpoint integrate (p : pulse) (acc : R) (pts : seq R) : result R :=
  match pts with
  | a :: ((b :: _) as rest) =>
      do v <- applyPulse p ((b + a) / 2%:R);
      integrate p (acc + v * (b - a)) rest
  | _ => Ok acc
  end.
Definition integrateShape (p : pulse) (pts : seq R) : result R := integrate p 0 pts.

(** [p.t0 + i*((p.t1 - p.t0)/1000) for i in range(n)] (QDrive.py 67-68) *)
Definition grid (n : nat) (a b : R) : seq R := [seq a + i%:R * ((b - a) / 1000%:R) | i <- iota 0 n].
Definition gridOf (n : nat) (p : pulse) : result (seq R) :=
  match t0 p, t1 p with
  | Some a, Some b => Ok (grid n a b)
  | _, _ => if n is 0 then Ok [::] else Err TypeError
  end.

(** A drive with its pulses (the dictionary subSys, in order of insertion), the
    update flag and the stored shape. *)
Record drive := Drive { pulses : seq (nat * pulse); dflag : bool; dshape : option (seq R) }.
Definition newDrive : drive := Drive [::] true None.

(** [self.subSys[p.name] = p] for a new pulse, whose name is not in use *)
Definition insert (d : drive) (name : nat) (p : pulse) : drive :=
  Drive (rcons (pulses d) (name, p)) (dflag d) (dshape d).

(** QDrive.py qDrive.addPulse 64-72.  The flag is set first, so it is set even if
    the rest fails; the first integral is only printed. *)
Definition addPulse (rotation : option R) (a b : option R) (f : option (R -> result R)) (name : nat) (d : drive)
    : drive * result unit :=
  let d := Drive (pulses d) true (dshape d) in
  let p := newPulse a b f in
  match rotation with
  | None => (insert d name p, Ok tt)
  | Some theta =>
      match (do g <- gridOf 1000 p; do _ <- integrateShape p g;
             do g' <- gridOf 1001 p; do i <- integrateShape p g';
             if 2%:R * pi * i == 0 then Err ZeroDivisionError else Ok (theta / (2%:R * pi * i))) with
      | Ok s => (insert d name (Pulse a b f s (pflag p) (pshape p)), Ok tt)
      | Err e => (d, Err e)
      end
  end.

(** QDrive.py qDrive.apply 74-78 *)
Fixpoint sumPulses (l : seq (nat * pulse)) (coef time : R) : result R :=
  match l with
  | [::] => Ok coef
  | (_, p) :: l => do v <- applyPulse p time; sumPulses l (coef + v) time
  end.
Definition applyDrive (d : drive) (time : R) : result R := sumPulses (pulses d) 0 time.

(** [for time in timeList: shapeList.append(self.apply(time))] *)
Fixpoint shape (app : R -> result R) (ts : seq R) : result (seq R) :=
  match ts with
  | [::] => Ok [::]
  | t :: ts => do v <- app t; do vs <- shape app ts; Ok (v :: vs)
  end.

(** QDrive.py genericDrive.totalShape 33-39, of a drive and of a pulse.  The
    flag is not reset. *)
Definition totalShape (d : drive) (ts : seq R) : drive * result (seq R) :=
  if (dshape d == None) || dflag d then
    match shape (applyDrive d) ts with
    | Ok vs => (Drive (pulses d) (dflag d) (Some vs), Ok vs)
    | Err e => (d, Err e)
    end
  else (d, if dshape d is Some vs then Ok vs else Err TypeError).
Definition totalShapePulse (p : pulse) (ts : seq R) : pulse * result (seq R) :=
  if (pshape p == None) || pflag p then
    match shape (applyPulse p) ts with
    | Ok vs => (Pulse (t0 p) (t1 p) (func p) (scale p) (pflag p) (Some vs), Ok vs)
    | Err e => (p, Err e)
    end
  else (p, if pshape p is Some vs then Ok vs else Err TypeError).

(** Changing a pulse of the drive.  The setters of t0, t1 and func (QDrive.py
    101-123 with QSimBase.py setAttr 39-47) flag the pulse and, through its
    paramBound, the drive; an equal value changes nothing.  funcArgs and
    funcKwargs are plain attributes, so assigning them flags nothing. *)
Inductive change := SetT0 (v : option R) | SetT1 (v : option R)
  | SetFunc (f : option (R -> result R)) (same : bool)   (* whether == holds between the functions *)
  | SetArgs (f : option (R -> result R)).                (* the function with its new arguments *)
Definition changePulse (c : change) (p : pulse) : pulse * bool :=
  match c with
  | SetT0 v => if v == t0 p then (p, false) else (Pulse v (t1 p) (func p) (scale p) true (pshape p), true)
  | SetT1 v => if v == t1 p then (p, false) else (Pulse (t0 p) v (func p) (scale p) true (pshape p), true)
  | SetFunc f same => if same then (p, false) else (Pulse (t0 p) (t1 p) f (scale p) true (pshape p), true)
  | SetArgs f => (Pulse (t0 p) (t1 p) f (scale p) (pflag p) (pshape p), false)
  end.
Fixpoint changeAt (name : nat) (c : change) (l : seq (nat * pulse)) : seq (nat * pulse) * bool :=
  match l with
  | [::] => ([::], false)
  | (n, p) :: l =>
      if n == name then let: (p', b) := changePulse c p in ((n, p') :: l, b)
      else let: (l', b) := changeAt name c l in ((n, p) :: l', b)
  end.
Definition setPulse (name : nat) (c : change) (d : drive) : drive :=
  let: (l, b) := changeAt name c (pulses d) in Drive l (b || dflag d) (dshape d).

(** base.py removeSubSys 686-693 on a pulse; nothing is flagged *)
Definition removePulse (name : nat) (d : drive) : drive * result unit :=
  if name \in [seq x.1 | x <- pulses d]
  then (Drive [seq x <- pulses d | x.1 != name] (dflag d) (dshape d), Ok tt)
  else (d, Err KeyError).

(** Everything a user does with a drive. *)
Inductive action :=
| Add (rotation a b : option R) (f : option (R -> result R)) (name : nat)
| Set_ (name : nat) (c : change)
| Remove (name : nat)
| Shape (ts : seq R).
Definition act (x : action) (d : drive) : drive :=
  match x with
  | Add r a b f n => (addPulse r a b f n d).1
  | Set_ n c => setPulse n c d
  | Remove n => (removePulse n d).1
  | Shape ts => (totalShape d ts).1
  end.
Definition acts (xs : seq action) (d : drive) : drive := foldl (fun d x => act x d) d xs.
End Drive.
