(** Dissipators and thermal baths: classes/environment.py, and the use that protocols make of
    them (classes/QPro.py). *)
From mathcomp Require Import all_ssreflect all_algebra.
From Verif Require Py.
From Verif Require Import MatModel OperModel.
Set Implicit Arguments.
Unset Strict Implicit.
Unset Printing Implicit Defensive.
Import GRing.Theory Num.Theory.
Local Open Scope ring_scope.

Section Env.
Variable C : numClosedFieldType.
(** nBarThermal(charFreq, temperature) (thermodynamics.py; ThermModel.v) *)
Variable nB : C -> C -> result C.

(** thermalBath (environment.py 117-201).  Baths are named: [(true, d)] is the one that the
    dissipator [d] makes for itself (65), [(false, b)] one of the user. *)
Definition bathId : Type := (bool * nat)%type.
Record bath := Bath { b_temp : C; b_freq : C; b_nbar : C; b_upd : bool; b_bound : seq nat; b_subs : seq nat }.
(** thermalBath.__init__ (132-139) *)
Definition newBath : bath := Bath 0 1 0 true [::] [::].

(** dissipatorObj (environment.py 50-115) and its __init__ (61-66).  [d_mat] is jOperMatrix (101-102), [d_bound] the
    protocols in its paramBound dictionary. *)
Record dis := Dis { d_type : C; d_rate : C; d_bath : bathId; d_op : option (mat C); d_mat : option (mat C);
                    d_upd : bool; d_sys : option nat; d_bound : seq nat }.
Definition newDis (d : nat) : dis := Dis 1 0 (true, d) None None true None [::].

(** A protocol: its dictionary of dissipators and rates (QPro.py 103), and whether it has been told
    of a change. *)
Record pro := Pro { p_dis : seq (nat * C); p_upd : bool }.
(** A system: the dimensions before and after it, the dissipators in its paramBound dictionary, and its
    free evolution. *)
Record sys := Sys { s_before : nat; s_after : nat; s_bound : seq nat; s_free : nat }.

Record st := St { baths : bathId -> bath; diss : nat -> dis; pros : nat -> pro; syss : nat -> sys }.
Definition upd (K : eqType) T (f : K -> T) (k : K) (x : T) : K -> T := fun j => if j == k then x else f j.
Definition setB (s : st) b x := St (upd (baths s) b x) (diss s) (pros s) (syss s).
Definition setD (s : st) d x := St (baths s) (upd (diss s) d x) (pros s) (syss s).
Definition setP (s : st) p x := St (baths s) (diss s) (upd (pros s) p x) (syss s).
Definition setS (s : st) y x := St (baths s) (diss s) (pros s) (upd (syss s) y x).

(** A key is added to a dictionary, or stays. *)
Definition keyAdd (x : nat) (l : seq nat) : seq nat := if x \in l then l else rcons l x.

(** paramBoundBase._paramUpdated = True (baseClasses.py 198-202) along the dictionaries of this model.
    What a protocol tells further is not modelled here (C08). *)
Definition tellPros (ps : seq nat) (s : st) : st :=
  St (baths s) (diss s) (fun p => if p \in ps then Pro (p_dis (pros s p)) true else pros s p) (syss s).
Definition tellDis (s : st) (d : nat) : st :=
  let x := diss s d in
  tellPros (d_bound x) (setD s d (Dis (d_type x) (d_rate x) (d_bath x) (d_op x) (d_mat x) true (d_sys x) (d_bound x))).
Definition tellAll (ds : seq nat) (s : st) : st := foldl tellDis s ds.

(** setAttr (QSimBase.py 39-47) of the temperature (environment.py 177-179) and of the characteristic
    frequency (188-190) of a bath, and of its nbar; [_paramUpdated] is told to the dissipators. *)
Definition setTemp (b : bathId) (t : C) (s : st) : st :=
  let x := baths s b in
  if t != b_temp x then tellAll (b_bound x) (setB s b (Bath t (b_freq x) (b_nbar x) true (b_bound x) (b_subs x))) else s.
Definition setFreq (b : bathId) (w : C) (s : st) : st :=
  let x := baths s b in
  if w != b_freq x then tellAll (b_bound x) (setB s b (Bath (b_temp x) w (b_nbar x) true (b_bound x) (b_subs x))) else s.
Definition setNbar (b : bathId) (n : C) (s : st) : st :=
  let x := baths s b in
  if n != b_nbar x then tellAll (b_bound x) (setB s b (Bath (b_temp x) (b_freq x) n true (b_bound x) (b_subs x))) else s.
Definition clearB (b : bathId) (s : st) : st :=
  let x := baths s b in setB s b (Bath (b_temp x) (b_freq x) (b_nbar x) false (b_bound x) (b_subs x)).

(** thermalBath.nBar (environment.py 192-201) *)
Definition nBar (b : bathId) (s : st) : st * result C :=
  let x := baths s b in
  if b_upd x then
    match nB (b_freq x) (b_temp x) with
    | Ok n => let s1 := clearB b (setNbar b n s) in (s1, Ok (b_nbar (baths s1 b)))
    | Err e => (s, Err e)
    end
  else (s, Ok (b_nbar x)).

(** dissipatorObj.jRate (environment.py 88-90) *)
Definition jRate (d : nat) (s : st) : st * result C :=
  let x := diss s d in
  let r := nBar (d_bath x) s in
  match r.2 with Ok n => (r.1, Ok (d_rate x * (n + d_type x))) | Err e => (r.1, Err e) end.
(** jRate's setter (92-94) and the attribute type (53) *)
Definition setRate (d : nat) (r : C) (s : st) : st :=
  let x := diss s d in
  if r != d_rate x then
    tellPros (d_bound x) (setD s d (Dis (d_type x) r (d_bath x) (d_op x) (d_mat x) true (d_sys x) (d_bound x)))
  else s.
Definition setType (d : nat) (t : C) (s : st) : st :=
  let x := diss s d in setD s d (Dis t (d_rate x) (d_bath x) (d_op x) (d_mat x) (d_upd x) (d_sys x) (d_bound x)).

(** [dictionary[d] = rate]: an existing key keeps its place. *)
Definition rset (l : seq (nat * C)) (d : nat) (r : C) : seq (nat * C) :=
  if d \in map fst l then [seq if e.1 == d then (d, r) else e | e <- l] else rcons l (d, r).
(** addToProtocol (environment.py 84-86) *)
Definition addTo (d p : nat) (s : st) : st * result unit :=
  let a := jRate d s in
  match a.2 with
  | Err e => (a.1, Err e)
  | Ok r =>
      let s1 := setP a.1 p (Pro (rset (p_dis (pros a.1 p)) d r) (p_upd (pros a.1 p))) in
      let x := diss s1 d in
      (setD s1 d (Dis (d_type x) (d_rate x) (d_bath x) (d_op x) (d_mat x) (d_upd x) (d_sys x) (keyAdd p (d_bound x))), Ok tt)
  end.
(** The system of a dissipator (environment.py 41-48 and 79-82) *)
Definition setSystem (d y : nat) (s : st) : st * result unit :=
  let x := diss s d in
  let s1 := setD s d (Dis (d_type x) (d_rate x) (d_bath x) (d_op x) (d_mat x) (d_upd x) (Some y) (d_bound x)) in
  let z := syss s1 y in
  let s2 := setS s1 y (Sys (s_before z) (s_after z) (keyAdd d (s_bound z)) (s_free z)) in
  addTo d (s_free z) s2.

(** thermalBath.dissipator = d (environment.py 159-168): the subSys dictionary is reset first (base.py 653-656). *)
Definition attach (b : bathId) (d : nat) (s : st) : st :=
  let x := baths s b in
  let s1 := setB s b (Bath (b_temp x) (b_freq x) (b_nbar x) (b_upd x) (keyAdd d (b_bound x)) [:: d]) in
  let y := diss s1 d in
  setD s1 d (Dis (d_type y) (d_rate y) b (d_op y) (d_mat y) (d_upd y) (d_sys y) (d_bound y)).

(** [val != oldVal] in setAttr (QSimBase.py 45) for sparse matrices: True for None or another shape; otherwise a
    sparse matrix, which has a truth value for one entry only (scipy). *)
Definition neOp (new : mat C) (old : option (mat C)) : result bool :=
  match old with
  | None => Ok true
  | Some o => if (rows new != rows o) || (cols new != cols o) then Ok true
              else if (rows new == 1%N) && (cols new == 1%N) then Ok (ent new 0 0 != ent o 0 0) else Err Py.ValueError
  end.
(** jOperMatrix's setter (environment.py 104-109) with None: setAttr again, so the new matrix is compared with the
    old one, and the flag is cleared in the end.  The operator has been given: compositeOp of None is not modelled
    (nothing is done here). *)
Definition makeMat (d : nat) (s : st) : st * result unit :=
  let x := diss s d in
  match d_op x, d_sys x with
  | _, None => (s, Err Py.AttributeError)
  | None, _ => (s, Ok tt)
  | Some op, Some y =>
      match compositeOp op (s_before (syss s y)) (s_after (syss s y)) with
      | Ok m =>
          match neOp m (d_mat x) with
          | Err e => (s, Err e)
          | Ok ne =>
              let s1 := if ne then tellPros (d_bound x) s else s in
              (setD s1 d (Dis (d_type x) (d_rate x) (d_bath x) (d_op x) (if ne then Some m else d_mat x) false (d_sys x) (d_bound x)), Ok tt)
          end
      | Err e => (s, Err e)
      end
  end.
(** jOper's setter (environment.py 111-115) *)
Definition setOp (d : nat) (op : mat C) (s : st) : st * result unit :=
  let x := diss s d in
  match neOp op (d_op x) with
  | Err e => (s, Err e)
  | Ok ne =>
      let s1 := if ne then tellPros (d_bound x)
                  (setD s d (Dis (d_type x) (d_rate x) (d_bath x) (Some op) (d_mat x) true (d_sys x) (d_bound x)))
                else s in
      if d_upd (diss s1 d) then makeMat d s1 else (s1, Ok tt)
  end.

(** delMatrices of a system (baseClasses.py 204-236) as far as its dissipators go: removing a term, for example
    (QSystem.py 634). *)
Definition delMat (y : nat) (s : st) : st :=
  St (baths s) (fun d => let x := diss s d in
        if d \in s_bound (syss s y)
        then Dis (d_type x) (d_rate x) (d_bath x) (d_op x) None (d_upd x) (d_sys x) (d_bound x) else x)
     (pros s) (syss s).
(** Another dimension before or after a system: the matrices are deleted and the change is told (QSystem.py 273-315 and 408). *)
Definition setDims (y b a : nat) (s : st) : st :=
  let z := syss s y in
  tellAll (s_bound z) (delMat y (setS s y (Sys b a (s_bound z) (s_free z)))).

(** What a protocol hands to LiouvillianExp (QPro.py 196-197 and 210-214), and the creation of its unitary
    (genericProtocol.getUnitary 208-224), which clears its flag. *)
Definition collapseOps (p : nat) (s : st) : seq (option (mat C)) := [seq d_mat (diss s e.1) | e <- p_dis (pros s p)].
Definition decayRates (p : nat) (s : st) : seq C := map snd (p_dis (pros s p)).
Definition create (p : nat) (s : st) : st := setP s p (Pro (p_dis (pros s p)) false).

Inductive op :=
| SetTemp (b : bathId) (t : C) | SetFreq (b : bathId) (w : C) | ReadNBar (b : bathId)
| SetDTemp (d : nat) (t : C) | SetRate (d : nat) (r : C) | SetType (d : nat) (t : C) | ReadRate (d : nat)
| AddTo (d p : nat) | SetSystem (d y : nat) | Attach (b : bathId) (d : nat)
| SetOp (d : nat) (m : mat C) | MakeMat (d : nat) | DelMat (y : nat) | SetDims (y b a : nat) | Create (p : nat).
(** Histories.  The temperature of a dissipator is the one of its bath (environment.py 75-77). *)
Definition step (s : st) (o : op) : st :=
  match o with
  | SetTemp b t => setTemp b t s
  | SetFreq b w => setFreq b w s
  | ReadNBar b => (nBar b s).1
  | SetDTemp d t => setTemp (d_bath (diss s d)) t s
  | SetRate d r => setRate d r s
  | SetType d t => setType d t s
  | ReadRate d => (jRate d s).1
  | AddTo d p => (addTo d p s).1
  | SetSystem d y => (setSystem d y s).1
  | Attach b d => attach b d s
  | SetOp d m => (setOp d m s).1
  | MakeMat d => (makeMat d s).1
  | DelMat y => delMat y s
  | SetDims y b a => setDims y b a s
  | Create p => create p s
  end.
Definition run (s : st) (os : seq op) : st := foldl step s os.

(** Nothing has been done: systems with their dimensions and free evolutions. *)
Definition start (dims : nat -> nat * nat) (free : nat -> nat) : st :=
  St (fun _ => newBath) newDis (fun _ => Pro [::] true) (fun y => Sys (dims y).1 (dims y).2 [::] (free y)).
End Env.
