(** Model of copying quantum systems (src/quanguru/classes/QSystem.py 715-757). *)
From Verif Require Import Py.

Section Copy.
(** Frequencies, orders and operator functions. *)
Variables (F W O : Type).
Variable one : W.
(** QTerms.py _isOperPauli 260-265 *)
Variable isPauli : O -> bool.
(** operators.number and operators.Jz *)
Variables numberOp jzOp : O.

(** The classes QuantumSystem, Cavity, Spin and Qubit. *)
Inductive kind := Generic | CavityK | SpinK | QubitK.

(** A value, or a list of values for a coupling. *)
Inductive tval (A : Type) := One (a : A) | Many (l : list A).
Arguments One {A} a. Arguments Many {A} l.

(** A term (QTerms.py 43-74).  Its qSystem is the system that has the term (None)
    or, for couplings, a list of systems inside it, each given by its position
    (the positions from the composite system downwards, last one first).
    Simplification: timeDependency and the stored matrices are left out; copy
    does not look at them. *)
Record term := Term { t_id : nat; t_on : option (list (nat * list nat)); t_op : tval (option O);
                      t_order : tval W; t_freq : option F }.

(** Inputs of initial states: numbers, lists and dictionaries for a single system
    (left opaque), a state vector with its number of rows, or a list of inputs
    for the sub-systems. *)
Inductive inp := IVal (v : nat) | IMat (rows : nat) (v : nat) | IList (l : list inp).

(** A system: identity, class, whether it is composite (None: not known yet),
    dimension (of single systems), _inpCoef, the input of its initial state,
    sub-systems and terms, in order. *)
Inductive sys := Sys (s_id : nat) (s_kind : kind) (s_comp : option bool) (s_dim : nat) (s_coef : bool)
                     (s_init : option inp) (s_subs : list sys) (s_terms : list term).
Definition sid (s : sys) := let 'Sys i _ _ _ _ _ _ _ := s in i.
Definition skind (s : sys) := let 'Sys _ k _ _ _ _ _ _ := s in k.
Definition comp (s : sys) := let 'Sys _ _ c _ _ _ _ _ := s in c.
Definition coef (s : sys) := let 'Sys _ _ _ _ b _ _ _ := s in b.
Definition init (s : sys) := let 'Sys _ _ _ _ _ i _ _ := s in i.
Definition subs (s : sys) := let 'Sys _ _ _ _ _ _ l _ := s in l.
Definition terms (s : sys) := let 'Sys _ _ _ _ _ _ _ l := s in l.

(** QSystem.py dimension 227-239 *)
Fixpoint dimension (s : sys) : nat :=
  match s with
  | Sys _ _ (Some true) _ _ _ l _ => fold_left (fun n x => n * dimension x) l 1
  | Sys _ _ _ d _ _ _ _ => d
  end.

Definition bind2 {A B} (x : result A) (f : A -> result B) : result B :=
  match x with Ok a => f a | Err e => Err e end.
Notation "'do' x <- e ; f" := (bind2 e (fun x => f)) (at level 200, x pattern, e at level 100, f at level 200).

(** type(self)(): QSystem.py __init__ 75-101, Cavity 775-779, Spin 795-803, Qubit
    830-836.  [n] is the next free identity; the constructors of the single
    systems assign an operator, which creates the first term (662-669). *)
Definition construct (k : kind) (n : nat) : sys * nat :=
  match k with
  | Generic => (Sys n Generic None 1 false None [] [], n + 1)
  | CavityK => (Sys n CavityK (Some false) 1 false None [] [Term (n + 1) None (One (Some numberOp)) (One one) None], n + 2)
  | SpinK => (Sys n SpinK (Some false) 1 false None [] [Term (n + 1) None (One (Some jzOp)) (One one) None], n + 2)
  | QubitK => (Sys n QubitK (Some false) 2 false None [] [Term (n + 1) None (One (Some jzOp)) (One one) None], n + 2)
  end.

(** addSubSys (QSystem.py 383-411) with a system that is not there yet; the
    dimensions before and after are the subject of C26 and C27. *)
Definition addSub (s x : sys) : result sys :=
  match s with
  | Sys _ _ (Some false) _ _ _ _ _ => Err TypeError
  | Sys i k _ d b ini l ts => Ok (Sys i k (Some true) d b ini (l ++ [x]) ts)
  end.

(** [qsys.name + "_" + subSysList[qsys.ind].name] for the systems of a coupling
    (724-728).  [qsys.ind] is the position in its own super-system. *)
Fixpoint names (l : list sys) (on : list (nat * list nat)) : result (list (nat * list nat)) :=
  match on with
  | [] => Ok []
  | (i, up) :: on => if (i <? List.length l)%nat then do r <- names l on; Ok ((i, up) :: r) else Err IndexError
  end.
(** Finding the systems by these names: only the copies of the direct
    sub-systems have such an alias (719), so that no object is found for a system
    that is deeper. *)
Fixpoint resolve (on : list (nat * list nat)) : result (list (nat * list nat)) :=
  match on with
  | [] => Ok []
  | (i, []) :: on => do r <- resolve on; Ok ((i, []) :: r)
  | (_, _ :: _) :: _ => Err ValueError
  end.

(** QTerms.py _isCorrectPauliDim 267-278 *)
Definition pauliFits (d : nat) (o : option O) : bool :=
  match o with Some o => negb (isPauli o && negb ((d =? 2)%nat || (d =? 1)%nat)) | None => true end.

(** _checkAndUpdateParamsWhenMultiple (QTerms.py 157-190) on the operators: they
    have to be as many as the systems, and the Pauli operators need dimension 2
    (or 1). *)
Fixpoint pauliAll (l : list sys) (on : list (nat * list nat)) (ops : list (option O)) : bool :=
  match on, ops with
  | (i, _) :: on, o :: ops =>
      match nth_error l i with Some x => pauliFits (dimension x) o | None => false end && pauliAll l on ops
  | _, _ => true
  end.
Definition checkOps (s : sys) (on : option (list (nat * list nat))) (op : tval (option O)) : result unit :=
  match on, op with
  | None, Many _ => Err TypeError
  | None, One o => if pauliFits (dimension s) o then Ok tt else Err ValueError
  | Some _, One _ => Err TypeError
  | Some l, Many ops =>
      if negb (List.length ops =? List.length l)%nat then Err ValueError
      else if pauliAll (subs s) l ops then Ok tt else Err ValueError
  end.
(** The same for the orders. *)
Definition checkOrd (on : option (list (nat * list nat))) (ord : tval W) : result unit :=
  match on, ord with
  | None, Many _ => Err TypeError
  | None, One _ => Ok tt
  | Some _, One _ => Err TypeError
  | Some l, Many os => if (List.length os =? List.length l)%nat then Ok tt else Err ValueError
  end.

(** One round of the loop 722-739.  Without a first term, createTerm makes one
    (which takes an identity, and one for each of the internal terms of a
    coupling); with a first term its attributes are overwritten. *)
Definition copyTerm (new : sys) (n : nat) (t : term) : result (sys * nat) :=
  match new with
  | Sys i k c d b ini l ts =>
      do on <- (match t_on t with
                | None => Ok None
                | Some ps => do r <- names l ps; do r' <- resolve r; Ok (Some r')
                end);
      do _ <- checkOps new on (t_op t);
      do _ <- checkOrd on (t_order t);
      let inner := match on with None => 0 | Some ps => List.length ps end in
      match ts with
      | [] => Ok (Sys i k c d b ini l [Term n on (t_op t) (t_order t) (t_freq t)], n + 1 + inner)
      | f :: rest => Ok (Sys i k c d b ini l (Term (t_id f) on (t_op t) (t_order t) (t_freq t) :: rest), n + inner)
      end
  end.
Fixpoint copyTerms (new : sys) (n : nat) (ts : list term) : result (sys * nat) :=
  match ts with
  | [] => Ok (new, n)
  | t :: ts => do (new', n') <- copyTerm new n t; copyTerms new' n' ts
  end.

(** The initialState setter (QSystem.py 173-192, QSimBase.py 224-228).  A vector
    has to have as many rows as the dimension (45-48); a list is given to the
    sub-systems.  Simplification: superPos does not raise. *)
Fixpoint setInit (s : sys) (v : inp) {struct s} : result sys :=
  match s with
  | Sys _ _ None _ _ _ _ _ => Err ValueError
  | Sys i k (Some false) d b _ l ts =>
      match v with
      | IMat r _ => if (r =? d)%nat then Ok (Sys i k (Some false) d b (Some v) l ts) else Err ValueError
      | _ => Ok (Sys i k (Some false) d b (Some v) l ts)
      end
  | Sys i k (Some true) d b _ l ts =>
      match v with
      | IMat r _ => if (r =? dimension s)%nat then Ok (Sys i k (Some true) d b (Some v) l ts) else Err ValueError
      | IVal _ => Err TypeError
      | IList vs =>
          if negb (List.length vs =? List.length l)%nat then Err ValueError
          else
            do l' <- (fix each (l : list sys) (vs : list inp) : result (list sys) :=
                        match l, vs with
                        | x :: l, v :: vs => do x' <- setInit x v; do r <- each l vs; Ok (x' :: r)
                        | _, _ => Ok []
                        end) l vs;
            Ok (Sys i k (Some true) d b (Some v) l' ts)
      end
  end.

(** The dimension setter (QSystem.py 247-264), with _hasConsistentDimensionTerm
    (241-245), which looks at the first term only (the check returns None, which
    is false for [all]). *)
Definition setDim (s : sys) (m : nat) : result sys :=
  match s with
  | Sys i k c d b ini l ts =>
      let c := match c with None => Some (negb (List.length l =? 0)%nat) | _ => c end in
      match c with
      | Some true => Ok (Sys i k c d b ini l ts)
      | _ =>
          if negb (0 <? m)%nat then Err ValueError
          else match ts with
               | Term _ None (One o) _ _ :: _ => if pauliFits m o then Ok (Sys i k c m b ini l ts) else Err ValueError
               | _ => Ok (Sys i k c m b ini l ts)
               end
      end
  end.
Definition setCoef (s : sys) (b : bool) : sys :=
  match s with Sys i k c d _ ini l ts => Sys i k c d b ini l ts end.

(** QSystem.py copy 715-746 without keyword arguments. *)
Fixpoint copy (s : sys) (n : nat) {struct s} : result (sys * nat) :=
  match s with
  | Sys _ k c d b ini l ts =>
      let (new, n) := construct k n in
      do (new, n) <-
        (fix each (l : list sys) (new : sys) (n : nat) : result (sys * nat) :=
           match l with
           | [] => Ok (new, n)
           | x :: l => do (x', n') <- copy x n; do new' <- addSub new x'; each l new' n'
           end) l new n;
      do (new, n) <- copyTerms new n ts;
      do new <- (match ini with None => Ok new | Some v => setInit new v end);
      match c with
      | Some true => Ok (new, n)
      | _ => do new <- setDim new d; Ok (setCoef new b, n)
      end
  end.

(** QSystem.py __rmul__ 748-757 *)
Fixpoint addCopies (m : nat) (s c : sys) (n : nat) : result (sys * nat) :=
  match m with
  | 0 => Ok (c, n)
  | S m => do (x, n') <- copy s n; do c' <- addSub c x; addCopies m s c' n'
  end.
Definition rmul (m : nat) (s : sys) (n : nat) : result (sys * nat) :=
  let (c, n) := construct Generic n in
  do c <- addSub c s;
  addCopies (m - 1) s c n.

End Copy.
Arguments One {A} a. Arguments Many {A} l.
Arguments Term {F W O}. Arguments Sys {F W O}.
Arguments t_id {F W O} t. Arguments t_on {F W O} t. Arguments t_op {F W O} t. Arguments t_order {F W O} t. Arguments t_freq {F W O} t.
Arguments sid {F W O} s. Arguments skind {F W O} s. Arguments comp {F W O} s. Arguments coef {F W O} s. Arguments init {F W O} s.
Arguments subs {F W O} s. Arguments terms {F W O} s. Arguments dimension {F W O} s.
