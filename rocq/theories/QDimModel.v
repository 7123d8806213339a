(** Model of the sub-system structure and of the dimension bookkeeping of
    quantum systems (src/quanguru/classes/QSystem.py, QTerms.py).

    A quantum system is an object with an identity (a number).  The heap maps
    identities to the attributes that the modelled methods read and write.  The
    cached matrices (delMatrices) and the simulation objects are not part of
    this model.  Every method that calls itself through other objects takes the
    recursion limit of the interpreter as its first argument. *)
From Verif Require Import Py.
#[local] Open Scope Z_scope.

(** Python floats: int(a / b) for a >= 0 and b > 0, where / is the true
    division of integers, correctly rounded to 53 binary digits (round half to
    even) and int truncates (QSystem.py 292, 294, 314).  Quotients of 2^1024 or
    more (OverflowError in Python) are not modelled. *)
Definition rne (n d : Z) : Z :=
  let q := n / d in let r := n mod d in
  if 2 * r <? d then q else if d <? 2 * r then q + 1 else if Z.even q then q else q + 1.
Definition scaled (a b k : Z) : Z * Z := if 0 <=? k then (a * 2 ^ k, b) else (a, b * 2 ^ (- k)).
Definition intdiv (a b : Z) : result Z :=
  if b =? 0 then Err ZeroDivisionError
  else if a <=? 0 then Ok 0
  else
    let k0 := 52 - (Z.log2 a - Z.log2 b) in
    let '(n0, d0) := scaled a b k0 in
    let k := if d0 * 2 ^ 52 <=? n0 then k0 else k0 + 1 in
    let '(n, d) := scaled a b k in
    let m := rne n d in
    Ok (if 0 <=? k then m / 2 ^ k else m * 2 ^ (- k)).

Definition oid := nat.

(** A term of a system (QTerms.py 43-71): its quantum system(s) and, for every
    operator, whether it is one of the five Pauli operators
    (_isOperPauli, QTerms.py 261-265); frequencies and orders are not used here. *)
Inductive term := TSingle (q : oid) (pauli : bool) | TMulti (qs : list oid) (paulis : list bool).

(** QuantumSystem.__init__ (QSystem.py 76-101): __compSys, __dimension,
    __dimsBefore, __dimsAfter, the values of the subSys dictionary (keys are the
    unique names), superSys, the values of the terms dictionary, _paramUpdated. *)
Record qsys := QSys { comp : option bool; dim : Z; dB : Z; dA : Z; subs : list oid; sup : option oid;
                      terms : list term; upd : bool }.
Definition heap := oid -> qsys.

(** The classes QuantumSystem, Cavity (QSystem.py 760-779), Spin (781-814) and
    Qubit (816-836); operator number or Jz is not a Pauli operator.
    Simplification: all objects of a history exist from the start, which is
    equivalent because constructors do not touch other systems. *)
Inductive kind := KSystem | KCavity | KSpin | KQubit.
Definition fresh (i : oid) (k : kind) : qsys :=
  match k with
  | KSystem => QSys None 1 1 1 [] None [] true
  | KCavity | KSpin => QSys (Some false) 1 1 1 [] None [TSingle i false] true
  | KQubit => QSys (Some false) 2 1 1 [] None [TSingle i false] true
  end.
Definition init (ks : oid -> kind) : heap := fun i => fresh i (ks i).

Definition put (h : heap) (i : oid) (x : qsys) : heap := fun j => if Nat.eqb j i then x else h j.
Definition set_comp (c : option bool) (x : qsys) := QSys c (dim x) (dB x) (dA x) (subs x) (sup x) (terms x) (upd x).
Definition set_dimF (d : Z) (x : qsys) := QSys (comp x) d (dB x) (dA x) (subs x) (sup x) (terms x) (upd x).
Definition set_dB (d : Z) (x : qsys) := QSys (comp x) (dim x) d (dA x) (subs x) (sup x) (terms x) (upd x).
Definition set_dA (d : Z) (x : qsys) := QSys (comp x) (dim x) (dB x) d (subs x) (sup x) (terms x) (upd x).
Definition set_subs (l : list oid) (x : qsys) := QSys (comp x) (dim x) (dB x) (dA x) l (sup x) (terms x) (upd x).
Definition set_sup (s : option oid) (x : qsys) := QSys (comp x) (dim x) (dB x) (dA x) (subs x) s (terms x) (upd x).
Definition set_terms (t : list term) (x : qsys) := QSys (comp x) (dim x) (dB x) (dA x) (subs x) (sup x) t (upd x).
Definition set_upd (b : bool) (x : qsys) := QSys (comp x) (dim x) (dB x) (dA x) (subs x) (sup x) (terms x) b.
Definition upf (i : oid) (f : qsys -> qsys) (h : heap) : heap := put h i (f (h i)).

(** Statements that read and write the heap and may raise. *)
Definition M (X : Type) := heap -> heap * result X.
Definition ret {X} (x : X) : M X := fun h => (h, Ok x).
Definition raise {X} (e : exn) : M X := fun h => (h, Err e).
Definition mbind {X Y} (m : M X) (f : X -> M Y) : M Y :=
  fun h => match m h with (h', Ok x) => f x h' | (h', Err e) => (h', Err e) end.
Notation "x <- m ;; f" := (mbind m (fun x => f)) (at level 61, m at next level, right associativity).
Notation "m ;;; f" := (mbind m (fun _ => f)) (at level 61, right associativity).
Definition get (i : oid) : M qsys := fun h => (h, Ok (h i)).
Definition modify (i : oid) (f : qsys -> qsys) : M unit := fun h => (upf i f h, Ok tt).
Definition lift {X} (r : result X) : M X := fun h => (h, r).
Definition look {X} (f : heap -> result X) : M X := fun h => (h, f h).
(** for x in l: body x *)
Fixpoint for_ {X} (l : list X) (body : X -> M unit) : M unit :=
  match l with [] => ret tt | x :: l' => body x ;;; for_ l' body end.

Definition isComp (x : qsys) : bool := match comp x with Some true => true | _ => false end.
Definition memb (i : oid) (l : list oid) : bool := existsb (Nat.eqb i) l.

(** dimension getter (QSystem.py 228-239).  Simplification: a composite system
    recomputes the product at every read, so the copy it stores in __dimension
    is never observed and is not written here. *)
Definition prodR (f : oid -> result Z) : list oid -> result Z :=
  fix go l := match l with [] => Ok 1 | s :: l' => bind (f s) (fun d => bind (go l') (fun r => Ok (d * r))) end.
Fixpoint dimension (lim : nat) (h : heap) (i : oid) : result Z :=
  match lim with
  | O => Err RecursionError
  | S l => if isComp (h i) then prodR (dimension l h) (subs (h i)) else Ok (dim (h i))
  end.

(** setAttr (QSimBase.py 39-47) on an integer attribute: assigns and flags only
    if the value differs.  The propagation of the flag to the paramBound
    dictionary only sets flags of other objects, see [flag]. *)
Definition flag (i : oid) : M unit := modify i (set_upd true).
Definition setAttrZ (i : oid) (fld : qsys -> Z) (wr : Z -> qsys -> qsys) (v : Z) : M unit :=
  x <- get i ;; if fld x =? v then ret tt else modify i (wr v) ;;; flag i.

(** __dimsABUpdate (QSystem.py 298-314) for _dimsBefore ([true]) or _dimsAfter,
    which is the setter of both properties (324-339). *)
Definition fldAB (before : bool) (x : qsys) : Z := if before then dB x else dA x.
Definition wrAB (before : bool) (v : Z) (x : qsys) : qsys := if before then set_dB v x else set_dA v x.
Fixpoint setAB (lim : nat) (before : bool) (i : oid) (v : Z) : M unit :=
  match lim with
  | O => raise RecursionError
  | S l =>
      x <- get i ;;
      let old := fldAB before x in
      setAttrZ i (fldAB before) (wrAB before) v ;;;
      for_ (subs x) (fun s =>
        y <- get s ;;
        w <- lift (intdiv (fldAB before y * v) old) ;;
        setAB l before s w)
  end.

(** list.index: position of an object in a list, ValueError if absent. *)
Fixpoint index (i : oid) (l : list oid) : result nat :=
  match l with
  | [] => Err ValueError
  | j :: l' => if Nat.eqb i j then Ok O else bind (index i l') (fun n => Ok (S n))
  end.
(** ind (QSystem.py 359-370). *)
Definition ind (h : heap) (i : oid) : result nat :=
  match sup (h i) with None => Ok O | Some p => index i (subs (h p)) end.

(** _updateDimension (QSystem.py 273-296).  The matrices are deleted by
    delMatrices, which is not modelled here. *)
Fixpoint updateDimension (lim : nat) (p s : oid) (new old : Z) : M unit :=
  match lim with
  | O => raise RecursionError
  | S l =>
      x <- get p ;;
      for_ (subs x) (fun q =>
        iq <- look (fun h => ind h q) ;;
        is <- look (fun h => ind h s) ;;
        (if Nat.ltb iq is then
           y <- get q ;; w <- lift (intdiv (dA y * new) old) ;; setAB l false q w
         else ret tt) ;;;
        iq' <- look (fun h => ind h q) ;;
        is' <- look (fun h => ind h s) ;;
        (if Nat.ltb is' iq' then
           y <- get q ;; w <- lift (intdiv (dB y * new) old) ;; setAB l true q w
         else ret tt)) ;;;
      y <- get p ;;
      match sup y with None => ret tt | Some g => updateDimension l g p new old end
  end.

(** _isCorrectPauliDim (QTerms.py 268-278) with an explicit dimension: with a
    list of systems, every operator is checked against the same dimension. *)
Definition badPauli (d : Z) (pauli : bool) : bool := pauli && negb ((d =? 2) || (d =? 1)).
Fixpoint checkMulti (d : Z) (qs : list oid) (ps : list bool) : result unit :=
  match qs, ps with
  | [], _ => Ok tt
  | _ :: _, [] => Err IndexError
  | _ :: qs', p :: ps' => if badPauli d p then Err ValueError else checkMulti d qs' ps'
  end.
Definition checkTermDim (d : Z) (t : term) : result unit :=
  match t with
  | TSingle _ p => if badPauli d p then Err ValueError else Ok tt
  | TMulti qs ps => checkMulti d qs ps
  end.
(** _hasConsistentDimensionTerm (QSystem.py 241-245).  The checker returns None,
    which is false, so all(...) stops after the first term, and the superSys is
    consulted only when there is no term. *)
Fixpoint hasConsistent (lim : nat) (h : heap) (i : oid) (d : Z) : result bool :=
  match lim with
  | O => Err RecursionError
  | S l =>
      match terms (h i) with
      | t :: _ => bind (checkTermDim d t) (fun _ => Ok false)
      | [] => match sup (h i) with None => Ok true | Some p => hasConsistent l h p d end
      end
  end.

(** dimension setter (QSystem.py 248-263). *)
Definition setDim (lim : nat) (i : oid) (d : Z) : M unit :=
  x <- get i ;;
  match comp x with
  | None => modify i (set_comp (Some (negb (Nat.eqb (List.length (subs x)) 0))))
  | Some _ => ret tt
  end ;;;
  x <- get i ;;
  if isComp x then ret tt
  else if d <=? 0 then raise ValueError
  else
    look (fun h => hasConsistent lim h i d) ;;;
    let old := dim x in
    setAttrZ i dim set_dimF d ;;;
    x <- get i ;;
    if upd x then
      match sup x with None => ret tt | Some p => updateDimension lim p i d old end
    else ret tt.

(** addSubSys (QSystem.py 382-409) with __addSub (372-380). *)
Definition addSub (lim : nat) (p c : oid) : M unit :=
  y <- get c ;;
  if memb p (subs y) then raise ValueError else
  x <- get p ;;
  match comp x with
  | None => modify p (set_comp (Some true))
  | Some false => raise TypeError
  | Some true => ret tt
  end ;;;
  (if memb c (subs x) then ret tt
   else for_ (subs x) (fun s =>
          dc <- look (fun h => dimension lim h c) ;;
          z <- get s ;; setAB lim false s (dA z * dc) ;;;
          ds <- look (fun h => dimension lim h s) ;;
          z <- get c ;; setAB lim true c (dB z * ds))) ;;;
  modify c (set_sup (Some p)) ;;;
  flag p ;;;
  modify p (fun x => set_subs (if memb c (subs x) then subs x else subs x ++ [c]) x).

(** _removeTermIfQSysInList (QTerms.py 117-124) for all terms of a system. *)
Definition mentions (c : oid) (t : term) : bool :=
  match t with TSingle _ _ => false | TMulti qs _ => memb c qs end.
Definition dropTerms (c : oid) (x : qsys) : qsys := set_terms (filter (fun t => negb (mentions c t)) (terms x)) x.

(** _removeSubSysExc (QSystem.py 450-518); the set of excluded objects is the
    mutable list _exclude, threaded through the calls. *)
Fixpoint addAll (lim : nat) (p : oid) (l : list oid) : M unit :=
  match l with [] => ret tt | c :: l' => addSub lim p c ;;; addAll lim p l' end.
Fixpoint rmSub (lim : nat) (p c : oid) (exc : list oid) : M (list oid) :=
  match lim with
  | O => raise RecursionError
  | S l =>
      x <- get p ;;
      match comp x with
      | Some false => raise ValueError
      | _ =>
          exc' <-
            (if memb c (subs x) then
               let exc := exc ++ [p] in
               y <- get c ;;
               exc <-
                 (if isComp y then
                    exc <- (fix each qs exc := match qs with
                            | [] => ret exc
                            | q :: qs' => exc' <- rmSub l c q exc ;; each qs' exc'
                            end) (subs y) exc ;;
                    modify p (fun x => set_subs (filter (fun s => negb (Nat.eqb s c)) (subs x)) x) ;;;
                    addAll lim c (subs y) ;;;
                    ret exc
                  else
                    let old := dim y in
                    setDim lim c 1 ;;;
                    modify p (fun x => set_subs (filter (fun s => negb (Nat.eqb s c)) (subs x)) x) ;;;
                    setAttrZ p dim set_dimF old ;;;
                    ret exc) ;;
               modify c (set_sup None) ;;;
               setAB lim false c 1 ;;;
               setAB lim true c 1 ;;;
               ret (exc ++ [c])
             else if memb p exc then ret exc
             else
               let exc := exc ++ [p] in
               r <- (fix each qs exc := match qs with
                     | [] => ret (exc, false)
                     | q :: qs' =>
                         z <- get q ;;
                         if isComp z then
                           exc' <- rmSub l q c exc ;;
                           if memb c exc' then ret (exc', true) else each qs' exc'
                         else each qs' exc
                     end) (subs x) exc ;;
               let '(exc, broke) := r in
               if (broke : bool) then ret exc
               else z <- get p ;; match sup z with None => ret exc | Some g => rmSub l g c exc end) ;;
          (if Nat.eqb c p then ret tt else modify p (dropTerms c)) ;;;
          flag p ;;;
          ret exc'
      end
  end.
(** removeSubSys (base.py 686-693). *)
Definition removeSub (lim : nat) (p c : oid) : M unit := rmSub lim p c [] ;;; ret tt.

(** createTerm (QSystem.py 548-587) with QTerm._createTerm (QTerms.py 127-155),
    the operator setter (157-190, 199-205) and addTerms (599-612).
    _hasInSubs (QSystem.py 352-356). *)
Definition anyR (f : oid -> result bool) : list oid -> result bool :=
  fix go l := match l with [] => Ok false | s :: l' => bind (f s) (fun b => if b : bool then Ok true else go l') end.
Fixpoint hasInSubs (lim : nat) (h : heap) (i o : oid) : result bool :=
  match lim with
  | O => Err RecursionError
  | S l => if memb o (subs (h i)) then Ok true else anyR (fun s => hasInSubs l h s o) (subs (h i))
  end.
Definition checkOp (lim : nat) (h : heap) (q : oid) (pauli : bool) : result unit :=
  bind (dimension lim h q) (fun d => if badPauli d pauli then Err ValueError else Ok tt).
Fixpoint checkOps (lim : nat) (h : heap) (qs : list oid) (ps : list bool) : result unit :=
  match qs, ps with
  | q :: qs', p :: ps' => bind (checkOp lim h q p) (fun _ => checkOps lim h qs' ps')
  | _, _ => Ok tt
  end.
Definition addTerm (i : oid) (t : term) : M unit :=
  modify i (fun x => set_terms (terms x ++ [t]) x) ;;; flag i.
Definition createTerm (lim : nat) (i : oid) (pauli : bool) : M unit :=
  look (fun h => checkOp lim h i pauli) ;;; addTerm i (TSingle i pauli).
Definition createCoupling (lim : nat) (i : oid) (qs : list oid) (ps : list bool) : M unit :=
  x <- get i ;;
  if negb (isComp x) then raise ValueError else
  for_ qs (fun q => b <- look (fun h => hasInSubs lim h i q) ;; if b : bool then ret tt else raise ValueError) ;;;
  (if negb (Nat.eqb (List.length ps) (List.length qs)) then raise ValueError else
   look (fun h => checkOps lim h qs ps) ;;; addTerm i (TMulti qs ps)).
(** The operator setter of the k-th term of a system when that term belongs to
    one system (QTerms.py 157-190, 199-205). *)
Fixpoint replace {X} (k : nat) (v : X) (l : list X) : list X :=
  match l, k with [], _ => [] | _ :: l', O => v :: l' | y :: l', S k' => y :: replace k' v l' end.
Definition setOperator (lim : nat) (i : oid) (k : nat) (pauli : bool) : M unit :=
  x <- get i ;;
  match nth_error (terms x) k with
  | Some (TSingle q _) =>
      look (fun h => checkOp lim h q pauli) ;;;
      modify i (fun x => set_terms (replace k (TSingle q pauli) (terms x)) x) ;;; flag i
  | Some (TMulti _ _) => raise TypeError
  | None => raise IndexError
  end.

(** A history: calls by the user; a call that raises keeps the effects it had
    until then.  OClear is any read that clears the _paramUpdated flag of a
    system (e.g. totalHamiltonian, QSystem.py 201-208), OFlag any update that
    sets it (paramBoundBase._paramUpdated, baseClasses.py 189-193). *)
Inductive op :=
| OSetDim (i : oid) (d : Z)
| OAdd (p c : oid)
| ORemove (p c : oid)
| OTerm (i : oid) (pauli : bool)
| OCoupling (i : oid) (qs : list oid) (ps : list bool)
| OOperator (i : oid) (k : nat) (pauli : bool)
| OClear (i : oid)
| OFlag (i : oid).
Definition exec (lim : nat) (o : op) : M unit :=
  match o with
  | OSetDim i d => setDim lim i d
  | OAdd p c => addSub lim p c
  | ORemove p c => removeSub lim p c
  | OTerm i p => createTerm lim i p
  | OCoupling i qs ps => createCoupling lim i qs ps
  | OOperator i k p => setOperator lim i k p
  | OClear i => modify i (set_upd false)
  | OFlag i => flag i
  end.
Fixpoint run (lim : nat) (os : list op) (h : heap) : heap :=
  match os with [] => h | o :: os' => run lim os' (fst (exec lim o h)) end.
