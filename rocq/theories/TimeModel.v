(** Model of the bound parameters and of the time parameters of simulations
    (src/quanguru/classes/QSimBase.py 49-130, 291-498;
    src/quanguru/classes/QSim.py 123-128).

    Numbers are exact rationals; the rounding of floating point numbers is not
    modelled. *)
From Coq Require Import QArith Qround.
From Verif Require Import Py.
#[local] Open Scope nat_scope.

(** The private _parameter attributes of timeBase (QSimBase.py 319-327);
    _bound ties a parameter to the one with the same name of another object
    (QSimBase.py 496), so a bound is given by the object. *)
Inductive key := KSize | KTotal | KCount | KSamples.
Definition key_eqb (a b : key) : bool :=
  match a, b with KSize, KSize | KTotal, KTotal | KCount, KCount | KSamples, KSamples => true | _, _ => false end.

Inductive bnd := BNone | BFalse | BObj (o : nat).
(** class _parameter (QSimBase.py 104-112): _value and _bound. *)
Record par := Par { p_val : option Q; p_bound : bnd }.

(** One timeBase object: its parameters, the object it is bound to
    (__bound), the objects registered in its paramBound dictionary, and whether
    it has flagged an update. *)
Record tobj := TObj { t_par : key -> par; t_bound : option nat; t_deps : list nat; t_upd : bool }.
Definition heap := nat -> tobj.

(** timeBase.__init__ (QSimBase.py 316-330). *)
Definition fresh : tobj :=
  TObj (fun k => match k with KSamples => Par (Some 1%Q) BNone | _ => Par None BNone end) None [] false.

Definition hput (h : heap) (o : nat) (x : tobj) : heap := fun i => if Nat.eqb i o then x else h i.
Definition kput (f : key -> par) (k : key) (p : par) : key -> par := fun j => if key_eqb j k then p else f j.
Definition set_par (h : heap) (o : nat) (k : key) (p : par) : heap :=
  hput h o (TObj (kput (t_par (h o)) k p) (t_bound (h o)) (t_deps (h o)) (t_upd (h o))).

(** _parameter.value getter (QSimBase.py 114-125) with a recursion limit.
    hasattr(self._bound, 'value') evaluates the getter of the bound parameter
    once, and 'return self._bound.value' a second time. *)
Fixpoint value (lim : nat) (h : heap) (k : key) (o : nat) : result (option Q) :=
  match lim with
  | O => Err RecursionError
  | S l => match p_bound (t_par (h o) k) with
           | BObj o' => bind (value l h k o') (fun _ => value l h k o')
           | _ => Ok (p_val (t_par (h o) k))
           end
  end.
(** The number of getter evaluations of that call. *)
Fixpoint cost (lim : nat) (h : heap) (k : key) (o : nat) : nat :=
  match lim with
  | O => 1
  | S l => match p_bound (t_par (h o) k) with
           | BObj o' => 1 + cost l h k o' + (if is_ok (value l h k o') then cost l h k o' else 0)
           | _ => 1
           end
  end.

(** _parameter.value setter (QSimBase.py 127-130). *)
Definition set_value (o : nat) (k : key) (v : option Q) (h : heap) : heap := set_par h o k (Par v BFalse).

(** Statements that read and write the heap and may raise. *)
Definition M (X : Type) := heap -> heap * result X.
Definition ret {X} (x : X) : M X := fun h => (h, Ok x).
Definition raise {X} (e : exn) : M X := fun h => (h, Err e).
Definition mbind {X Y} (m : M X) (f : X -> M Y) : M Y :=
  fun h => match m h with (h', Ok x) => f x h' | (h', Err e) => (h', Err e) end.
Notation "x <- m ;; f" := (mbind m (fun x => f)) (at level 61, m at next level, right associativity).
Notation "m ;;; f" := (mbind m (fun _ => f)) (at level 61, right associativity).
Definition modify (f : heap -> heap) : M unit := fun h => (f h, Ok tt).

Section Lim.
Variable lim : nat.
Definition read (k : key) (o : nat) : M (option Q) := fun h => (h, value lim h k o).
Definition raw (k : key) (o : nat) : M par := fun h => (h, Ok (t_par (h o) k)).

(** Remove an object from another's paramBound dictionary. *)
Definition drop_dep (b o : nat) (h : heap) : heap :=
  hput h b (TObj (t_par (h b)) (t_bound (h b)) (filter (fun x => negb (Nat.eqb x o)) (t_deps (h b))) (t_upd (h b))).
Definition clear_bound (o : nat) (h : heap) : heap :=
  hput h o (TObj (t_par (h o)) None (t_deps (h o)) (t_upd (h o))).
Definition flag (o : nat) (h : heap) : heap :=
  hput h o (TObj (t_par (h o)) (t_bound (h o)) (t_deps (h o)) true).

(** setAttrParam (QSimBase.py 49-63); the propagation of _paramUpdated to the
    dependents is in ParamModel.v. *)
Definition opt_eqb (a : option Q) (v : Q) : bool := match a with Some x => Qeq_bool v x | None => false end.
Definition setAttrParam (o : nat) (k : key) (v : Q) : M unit :=
  old <- read k o ;;
  modify (fun h => match t_bound (h o) with
                   | Some b => clear_bound o (drop_dep b o h)
                   | None => h
                   end) ;;;
  if opt_eqb old v then ret tt
  else modify (set_value o k (Some v)) ;;; modify (flag o).

(** x // y and x / y of Python numbers. *)
Definition floordiv (x y : Q) : result Q :=
  if Qeq_bool y 0 then Err ZeroDivisionError else Ok (inject_Z (Qfloor (x / y))).
Definition truediv (x y : Q) : result Q := if Qeq_bool y 0 then Err ZeroDivisionError else Ok (x / y)%Q.
Definition lift {X} (r : result X) : M X := fun h => (h, r).
(** int((T // s) + 1) *)
Definition countOf (T s : Q) : result Q := bind (floordiv T s) (fun f => Ok (f + 1)%Q).

(** if self.<k>._bound not in (None, False): self.<k>._value = self.<k>._bound._value
    (QSimBase.py 346-347, 375-376, 396-397). *)
Definition pull (o : nat) (k : key) (h : heap) : heap :=
  match p_bound (t_par (h o) k) with
  | BObj b => set_par h o k (Par (p_val (t_par (h b) k)) (BObj b))
  | _ => h
  end.

(** totalTime setter (QSimBase.py 344-350). *)
Definition set_totalTime (o : nat) (T : Q) : M unit :=
  modify (pull o KSize) ;;;
  setAttrParam o KTotal T ;;;
  s <- read KSize o ;;
  match s with
  | None => ret tt
  | Some s => c <- lift (countOf T s) ;; modify (set_value o KCount (Some c))
  end.
(** stepSize setter (QSimBase.py 394-400). *)
Definition set_stepSize (o : nat) (s : Q) : M unit :=
  modify (pull o KTotal) ;;;
  setAttrParam o KSize s ;;;
  T <- read KTotal o ;;
  match T with
  | None => ret tt
  | Some T => c <- lift (countOf T s) ;; modify (set_value o KCount (Some c))
  end.
(** stepCount setter (QSimBase.py 373-379). *)
Definition set_stepCount (o : nat) (n : Q) : M unit :=
  modify (pull o KTotal) ;;;
  setAttrParam o KCount n ;;;
  T <- read KTotal o ;;
  match T with
  | None => ret tt
  | Some T => s <- lift (truediv T n) ;; modify (set_value o KSize (Some s))
  end.
(** samples setter (QSimBase.py 411-413). *)
Definition set_samples (o : nat) (n : Q) : M unit := setAttrParam o KSamples n.

(** stepCount getter (QSimBase.py 352-371); the bare except turns every
    exception of the division into a ValueError. *)
Definition get_stepCount (o : nat) : M (option Q) :=
  T <- read KTotal o ;;
  (match T with
   | Some _ => ret tt
   | None => s <- read KSize o ;; n <- read KCount o ;;
             match s, n with
             | None, None => ret tt
             | Some s, Some n => modify (set_value o KTotal (Some (n * s)%Q))
             | _, _ => raise TypeError
             end
   end) ;;;
  T <- read KTotal o ;; s <- read KSize o ;;
  match T, s with
  | Some T, Some s => match countOf T s with
                      | Ok c => modify (set_value o KCount (Some c)) ;;; read KCount o
                      | Err _ => raise ValueError
                      end
  | _, _ => raise ValueError
  end.

(** timeList (QSim.py 123-128): [x*stepSize for x in range(stepCount+1)]. *)
Definition timeList (o : nat) : M (list Q) :=
  n <- get_stepCount o ;; s <- read KSize o ;;
  match n, s with
  | Some n, Some s => ret (map (fun x => (inject_Z (Z.of_nat x) * s)%Q) (seq 0 (Z.to_nat (Qfloor n + 1))))
  | _, _ => raise TypeError
  end.

(** setattr(self, keysProp[i], v). *)
Definition set_prop (o : nat) (k : key) (v : Q) : M unit :=
  match k with
  | KSize => set_stepSize o v | KTotal => set_totalTime o v
  | KCount => set_stepCount o v | KSamples => set_samples o v
  end.

(** _boundTree (QSimBase.py 424-437). *)
Fixpoint boundTree (l : nat) (h : heap) (o : nat) : result (list nat) :=
  match l with
  | O => Err RecursionError
  | S l => match t_bound (h o) with
           | Some b => bind (boundTree l h b) (fun t => Ok (b :: t))
           | None => Ok []
           end
  end.

Definition timeKeys : list key := [KSize; KTotal; KCount].

(** The inner loop of _bound (QSimBase.py 486-491): the first time parameter
    that is untouched here and has a value in other is copied. *)
Fixpoint copyFirst (ks : list key) (self other : nat) : M unit :=
  match ks with
  | [] => ret tt
  | k :: r => fun h =>
      match p_bound (t_par (h self) k), p_val (t_par (h other) k) with
      | BNone, Some v => set_prop self k v h
      | _, _ => copyFirst r self other h
      end
  end.
(** The outer loop (QSimBase.py 480-492). *)
Fixpoint boundLoop (ks : list key) (bounding : bool) (self other : nat) : M unit :=
  match ks with
  | [] => ret tt
  | k :: r => fun h =>
      match p_bound (t_par (h self) k) with
      | BFalse =>
          ((match p_val (t_par (h other) k), p_val (t_par (h self) k) with
            | Some _, Some v => set_prop self k v
            | Some _, None => raise TypeError   (* a parameter set to None by hand *)
            | None, _ => ret tt
            end) ;;;
           (if bounding then copyFirst timeKeys self other else ret tt) ;;;
           boundLoop r false self other) h
      | _ => boundLoop r bounding self other h
      end
  end.
(** The last loop (QSimBase.py 493-498); the parameters for the initial state
    are treated in the same way and are left out. *)
Definition bindKey (re : bool) (self other : nat) (h : heap) (k : key) : heap :=
  match p_bound (t_par (h self) k), re with
  | BNone, _ | _, true => set_par h self k (Par (p_val (t_par (h self) k)) (BObj other))
  | _, _ => h
  end.

(** _bound (QSimBase.py 439-498). *)
Definition bindTo (re : bool) (self other : nat) : M unit :=
  fun h =>
  match boundTree lim h other with
  | Err e => (h, Err e)
  | Ok t =>
      if existsb (Nat.eqb self) t then (h, Ok tt)
      else
        (modify (fun h => hput h other (TObj (t_par (h other)) (t_bound (h other))
                   (filter (fun x => negb (Nat.eqb x self)) (t_deps (h other)) ++ [self]) (t_upd (h other)))) ;;;
         modify (fun h => hput h self (TObj (t_par (h self)) (Some other) (t_deps (h self)) (t_upd (h self)))) ;;;
         boundLoop timeKeys true self other ;;;
         modify (fun h => fold_left (bindKey re self other) [KSize; KTotal; KCount; KSamples] h)) h
  end.

(** Histories. *)
Inductive top := Set_ (o : nat) (k : key) (v : Q) | ReadCount (o : nat) | Times (o : nat)
              | Bind (re : bool) (self other : nat).
Definition step (op : top) (h : heap) : heap :=
  match op with
  | Set_ o k v => fst (set_prop o k v h)
  | ReadCount o => fst (get_stepCount o h)
  | Times o => fst (timeList o h)
  | Bind re a b => fst (bindTo re a b h)
  end.
Definition history (ops : list top) : heap := fold_left (fun h op => step op h) ops (fun _ => fresh).
End Lim.
