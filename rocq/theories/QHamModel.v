(** Model of the Hamiltonians of quantum systems and of their caches
    (src/quanguru/classes/QSystem.py, QTerms.py, baseClasses.py).

    Systems and terms are objects with an identity (a number).  Matrices,
    frequencies and operators are abstract: [alg] lists what the code does with
    them. *)
From Verif Require Import Py ParamModel.
#[local] Open Scope nat_scope.

(** [embed (before, dim, after) op order]: _dimInput (QTerms.py 281-302);
    [prod]: _matMulInputs (QuantumToolbox/linearAlgebra.py 367-403);
    [pauliOk dim op]: the condition of _isCorrectPauliDim (QTerms.py 267-278);
    [zero] is the integer 0 that sum() starts from; the two equality tests are
    those of setAttr (QSimBase.py 44-45). *)
Record alg := Alg {
  freqT : Type; opT : Type; matT : Type;
  freqEqb : freqT -> freqT -> bool;
  opEqb : opT -> opT -> bool;
  zero : matT;
  add : matT -> matT -> matT;
  scale : freqT -> matT -> matT;
  prod : list matT -> matT;
  embed : Z * Z * Z -> opT -> Z -> result matT;
  pauliOk : Z -> opT -> bool }.

Section Ham.
Variable A : alg.
Variable lim : nat.   (* recursion limit of the interpreter *)

(** What a term contains (QTerm.__init__, QTerms.py 43-71): the system,
    operator and order of a single-system term; for a coupling the sub-terms
    (system, operator, order), and the lists stored in its own operator and
    order attributes. *)
Inductive content :=
| COne (q : nat) (op : option (opT A)) (ord : Z)
| CMany (parts : list (nat * opT A * Z)) (ops : list (opT A)) (ords : list Z).

(** Structure: number of objects created so far, which of them are systems,
    subSys, superSys, terms, __firstTerm, __paramBound.  Only systems are listed
    in [bound]: the other bound objects (protocols, simulations) have no
    Hamiltonian; the internal free evolution is represented by [pflag] and
    [pmat]. *)
Record struct := Struct { next : nat; isSys : nat -> bool; subs : nat -> list nat; sup : nat -> option nat;
                          terms : nat -> list nat; first : nat -> option nat; bound : nat -> list nat }.
(** Parameters: (dimsBefore, dimension, dimsAfter) of the systems; content and
    frequency of the terms. *)
Record params := Params { dims : nat -> Z * Z * Z; cont : nat -> content; freq : nat -> option (freqT A) }.
(** Caches: __matrix and __paramUpdated of systems and terms, __HamiltonianTerm of
    terms; of the internal free evolution of a system the flag and whether it
    has a matrix. *)
Record caches := Caches { mat : nat -> option (matT A); ham : nat -> option (matT A); flag : nat -> bool;
                          pflag : nat -> bool; pmat : nat -> bool }.
Record hst := HS { S_ : struct; P_ : params; C_ : caches }.

Definition set_next n s := Struct n (isSys s) (subs s) (sup s) (terms s) (first s) (bound s).
Definition set_isSys f s := Struct (next s) f (subs s) (sup s) (terms s) (first s) (bound s).
Definition set_subs f s := Struct (next s) (isSys s) f (sup s) (terms s) (first s) (bound s).
Definition set_sup f s := Struct (next s) (isSys s) (subs s) f (terms s) (first s) (bound s).
Definition set_terms f s := Struct (next s) (isSys s) (subs s) (sup s) f (first s) (bound s).
Definition set_first f s := Struct (next s) (isSys s) (subs s) (sup s) (terms s) f (bound s).
Definition set_bound f s := Struct (next s) (isSys s) (subs s) (sup s) (terms s) (first s) f.
Definition set_dims f p := Params f (cont p) (freq p).
Definition set_cont f p := Params (dims p) f (freq p).
Definition set_freq f p := Params (dims p) (cont p) f.
Definition set_mat f c := Caches f (ham c) (flag c) (pflag c) (pmat c).
Definition set_ham f c := Caches (mat c) f (flag c) (pflag c) (pmat c).
Definition set_flag f c := Caches (mat c) (ham c) f (pflag c) (pmat c).
Definition set_pflag f c := Caches (mat c) (ham c) (flag c) f (pmat c).
Definition set_pmat f c := Caches (mat c) (ham c) (flag c) (pflag c) f.

Definition upS (f : struct -> struct) (st : hst) := HS (f (S_ st)) (P_ st) (C_ st).
Definition upP (f : params -> params) (st : hst) := HS (S_ st) (f (P_ st)) (C_ st).
Definition upC (f : caches -> caches) (st : hst) := HS (S_ st) (P_ st) (f (C_ st)).
Definition upd {V} (o : nat) (v : V) (f : nat -> V) : nat -> V := put f o v.

(** Statements; None: the recursion limit is exceeded (what is left behind then
    is not modelled). *)
Definition M (X : Type) := hst -> option (hst * result X).
Definition ret {X} (x : X) : M X := fun st => Some (st, Ok x).
Definition raise {X} (e : exn) : M X := fun st => Some (st, Err e).
Definition mbind {X Y} (m : M X) (f : X -> M Y) : M Y :=
  fun st => match m st with
            | None => None
            | Some (st', Ok x) => f x st'
            | Some (st', Err e) => Some (st', Err e)
            end.
Notation "x <- m ;; f" := (mbind m (fun x => f)) (at level 61, m at next level, right associativity).
Notation "m ;;; f" := (mbind m (fun _ => f)) (at level 61, right associativity).
Definition get {X} (f : hst -> X) : M X := fun st => Some (st, Ok (f st)).
Definition modify (f : hst -> hst) : M unit := fun st => Some (f st, Ok tt).
Definition lift {X} (f : hst -> result X) : M X := fun st => Some (st, f st).
Fixpoint for_ {X} (l : list X) (body : X -> M unit) : M unit :=
  match l with [] => ret tt | x :: l' => body x ;;; for_ l' body end.

Definition sys (st : hst) (s : nat) : bool := isSys (S_ st) s.
Definition trm (st : hst) (t : nat) : bool := (t <? next (S_ st)) && negb (isSys (S_ st) t).
Definition memb (i : nat) (l : list nat) : bool := existsb (Nat.eqb i) l.
(** Using an object that is not of the right class. *)
Definition needSys (s : nat) : M unit := fun st => if sys st s then ret tt st else raise AttributeError st.
Definition needTrm (t : nat) : M unit := fun st => if trm st t then ret tt st else raise AttributeError st.

(** The _paramUpdated setter with True (baseClasses.py 198-202); the free
    evolution of a system is in the paramBound of that system only. *)
Definition flagUp (o : nat) : M unit := fun st =>
  match setUpdated (bound (S_ st)) lim true o (flag (C_ st)),
        setUpdated (bound (S_ st)) lim true o (pflag (C_ st)) with
  | Some f, Some g => Some (upC (fun c => set_pflag g (set_flag f c)) st, Ok tt)
  | _, _ => None
  end.

(** delMatrices(_exclude=[]) (ParamModel).  The simulations are represented by
    one object (number 0) without links: the links of real simulations lead to
    more objects whose matrices are deleted.  Deleting reaches the free evolution
    of every visited system. Returns the exclusion list, i.e. the visited
    objects. *)
Definition objGraph (s : struct) : graph :=
  Graph (fun n => match n with O => KSim | S x => if isSys s x then KSys else KPlain end)
        (fun n => match n with O => [] | S x => map S (bound s x) end)
        (fun n => match n with O => [] | S x => map S (subs s x) end)
        (fun _ => None) (fun _ => O)
        (fun n => match n with O => [] | S x => map S (terms s x) end).
Definition delM (o : nat) : M (list nat) := fun st =>
  let d := DState (fun n => match n with O => None | S x => mat (C_ st) x end)
                  (fun _ => None) (fun _ => None) (fun _ => None) [] in
  match delMatrices (objGraph (S_ st)) (2 * S (next (S_ st)) + 2) (S o) d with
  | None => None
  | Some d' =>
      let gone x := memb (S x) (d_ex d') in
      Some (upC (fun c => set_pmat (fun x => pmat c x && negb (gone x)) (set_mat (fun x => d_mat d' (S x)) c)) st,
            Ok (flat_map (fun n => match n with O => [] | S x => [x] end) (d_ex d')))
  end.

(** ** Reading *)

Fixpoint mapR {X Y} (f : X -> result Y) (l : list X) : result (list Y) :=
  match l with [] => Ok [] | x :: l' => bind (f x) (fun y => bind (mapR f l') (fun r => Ok (y :: r))) end.

(** QTerm._constructMatrices (QTerms.py 304-318).  A term without an operator
    raises in _dimInput (ValueError if its system has dimension 1, otherwise
    TypeError; both are TypeError here). *)
Definition construct (p : params) (t : nat) : result (matT A) :=
  match cont p t with
  | COne q None _ => Err TypeError
  | COne q (Some op) ord => embed A (dims p q) op ord
  | CMany parts _ _ =>
      bind (mapR (fun x => embed A (dims p (fst (fst x))) (snd (fst x)) (snd x)) parts)
           (fun es => Ok (prod A es))
  end.

Definition isSome {X} (o : option X) : bool := match o with Some _ => true | None => false end.

(** QTerm.totalHamiltonian (QTerms.py 232-242) with _freeMatrix (244-258). *)
Definition readTerm (t : nat) : M (matT A) := fun st =>
  match freq (P_ st) t with
  | None => Some (st, Err TypeError)
  | Some f =>
      match ham (C_ st) t, flag (C_ st) t, mat (C_ st) t with
      | Some h, false, Some _ => Some (st, Ok h)
      | _, _, m =>
          match (match m with Some m => Ok m | None => construct (P_ st) t end) with
          | Err e => Some (st, Err e)
          | Ok m => let h := scale A f m in
                    Some (upC (fun c => set_flag (upd t false (flag c))
                                       (set_ham (upd t (Some h) (ham c))
                                       (set_mat (upd t (Some m) (mat c)) c))) st, Ok h)
          end
      end
  end.

(** sum(f(x) for x in l), continued from [acc] *)
Fixpoint sumM (f : nat -> M (matT A)) (l : list nat) (acc : matT A) : M (matT A) :=
  match l with [] => ret acc | x :: l' => v <- f x ;; sumM f l' (add A acc v) end.

(** val.operator is not None (QSystem.py 215) *)
Definition active (p : params) (t : nat) : bool :=
  match cont p t with COne _ None _ => false | _ => true end.

(** QuantumSystem.totalHamiltonian (QSystem.py 200-208), _subSysHamiltonian
    (193-198), _termHamiltonian (210-215). *)
Fixpoint readSys (n : nat) (s : nat) : M (matT A) := fun st =>
  match n with
  | O => None
  | S n' =>
      match flag (C_ st) s, mat (C_ st) s with
      | false, Some m => Some (st, Ok m)
      | _, _ =>
          (x <- sumM (readSys n') (subs (S_ st) s) (zero A) ;;
           ts <- get (fun st => filter (active (P_ st)) (terms (S_ st) s)) ;;
           y <- sumM readTerm ts (zero A) ;;
           modify (upC (fun c => set_flag (upd s false (flag c)) (set_mat (upd s (Some (add A x y)) (mat c)) c))) ;;;
           ret (add A x y)) st
      end
  end.

(** QuantumSystem.unitary (QSystem.py 529-535) with genericProtocol.unitary
    (QPro.py 195-206) for the internal free evolution: it reads the Hamiltonian
    when it has to be created again.  [fixed] is the attribute of the free
    evolution (QPro.py 179-185). *)
Definition unitary (fixed : bool) (s : nat) : M unit :=
  let create := readSys lim s ;;;
                modify (upC (fun c => set_pflag (upd s false (pflag c)) (set_pmat (upd s true (pmat c)) c))) in
  pf <- get (fun st => pflag (C_ st) s) ;;
  pm <- get (fun st => pmat (C_ st) s) ;;
  (if pf : bool then (if fixed then ret tt else create)
   else if pm : bool then ret tt else create) ;;;
  modify (upC (fun c => set_flag (upd s false (flag c)) c)).

(** ** Creating and attaching terms *)

(** QuantumSystem.addTerms (QSystem.py 599-612). *)
Definition addTerms (h t : nat) : M unit :=
  modify (fun st => if Nat.eqb (List.length (terms (S_ st) h)) 0
                    then upS (fun s => set_first (upd h (Some t) (first s)) s) st else st) ;;;
  modify (upS (fun s => set_terms (upd h (if memb t (terms s h) then terms s h else terms s h ++ [t]) (terms s)) s)) ;;;
  flagUp h ;;;
  modify (upS (fun s => set_bound (upd t (if memb h (bound s t) then bound s t else bound s t ++ [h]) (bound s)) s)).

(** A new object. *)
Definition newObj (isS : bool) (b : list nat) (k : content) : M nat :=
  n <- get (fun st => next (S_ st)) ;;
  modify (upS (fun s => set_next (S n) (set_isSys (upd n isS (isSys s)) (set_subs (upd n [] (subs s))
            (set_sup (upd n None (sup s)) (set_terms (upd n [] (terms s)) (set_first (upd n None (first s))
            (set_bound (upd n b (bound s)) s)))))))) ;;;
  modify (upP (fun p => set_dims (upd n (1, 1, 1)%Z (dims p)) (set_cont (upd n k (cont p)) (set_freq (upd n None (freq p)) p)))) ;;;
  modify (upC (fun c => set_mat (upd n None (mat c)) (set_ham (upd n None (ham c)) (set_flag (upd n true (flag c))
            (set_pflag (upd n true (pflag c)) (set_pmat (upd n false (pmat c)) c)))))) ;;;
  ret n.

Definition dimOf (p : params) (q : nat) : Z := snd (fst (dims p q)).
Definition okOp (p : params) (q : nat) (op : option (opT A)) : bool :=
  match op with None => true | Some o => pauliOk A (dimOf p q) o end.

(** createTerm (QSystem.py 548-587) on system h for one system q, with
    QTerm._createTerm (QTerms.py 126-155).  The term first gets h and q in its
    paramBound; assigning its system flags both. *)
Definition createOne (h q : nat) (op : option (opT A)) (ord : Z) (f : option (freqT A)) : M nat :=
  needSys h ;;; needSys q ;;;
  t <- newObj false [h; q] (COne q None 1) ;;
  flagUp t ;;;
  ok <- get (fun st => okOp (P_ st) q op) ;;
  (if negb ok then raise ValueError else
   modify (upP (fun p => set_cont (upd t (COne q op ord) (cont p)) (set_freq (upd t f (freq p)) p))) ;;;
   flagUp t ;;;
   addTerms q t ;;; ret t).

(** _hasInSubs (QSystem.py 351-355) *)
Fixpoint hasIn (n : nat) (st : hst) (i o : nat) : option bool :=
  match n with
  | O => None
  | S n' =>
      if memb o (subs (S_ st) i) then Some true
      else (fix any l := match l with
                         | [] => Some false
                         | q :: l' => match hasIn n' st q o with
                                      | None => None
                                      | Some true => Some true
                                      | Some false => any l'
                                      end
                         end) (subs (S_ st) i)
  end.

(** createTerm for a list of systems (a coupling); the checks that h is a
    composite system and that the numbers of systems, operators and orders
    agree are left out: parts come as triples and a system without sub-systems
    fails the test below unless the list is empty. *)
Definition createMany (h : nat) (parts : list (nat * opT A * Z)) (f : option (freqT A)) : M nat :=
  needSys h ;;;
  for_ parts (fun x => needSys (fst (fst x)) ;;;
     (fun st => match hasIn lim st h (fst (fst x)) with
                | None => None
                | Some true => Some (st, Ok tt)
                | Some false => Some (st, Err ValueError)
                end)) ;;;
  t <- newObj false [h] (CMany parts (map (fun x => snd (fst x)) parts) (map snd parts)) ;;
  flagUp t ;;;
  for_ parts (fun x => flagUp (fst (fst x))) ;;;
  ok <- get (fun st => forallb (fun x => okOp (P_ st) (fst (fst x)) (Some (snd (fst x)))) parts) ;;
  (if negb ok then raise ValueError else
   modify (upP (fun p => set_freq (upd t f (freq p)) p)) ;;;
   addTerms h t ;;; ret t).

(** ** Changing terms *)

Definition optEqb {X} (e : X -> X -> bool) (a b : option X) : bool :=
  match a, b with None, None => true | Some x, Some y => e x y | _, _ => false end.
Fixpoint listEqb {X} (e : X -> X -> bool) (a b : list X) : bool :=
  match a, b with [] , [] => true | x :: a', y :: b' => e x y && listEqb e a' b' | _, _ => false end.

(** frequency setter (QTerms.py 224-230); the sub-terms of a coupling have the
    same frequency, assigning it flags their systems. *)
Definition partSys (k : content) : list nat :=
  match k with COne _ _ _ => [] | CMany parts _ _ => map (fun x => fst (fst x)) parts end.
Definition setFreq (t : nat) (f : option (freqT A)) : M unit :=
  needTrm t ;;;
  same <- get (fun st => optEqb (freqEqb A) f (freq (P_ st) t)) ;;
  (if same : bool then ret tt
   else modify (upP (fun p => set_freq (upd t f (freq p)) p)) ;;;
        flagUp t ;;;
        qs <- get (fun st => partSys (cont (P_ st) t)) ;; for_ qs flagUp).

(** QTerms.py 189-190 *)
Definition dropIfFlagged (t : nat) : M unit :=
  modify (fun st => if flag (C_ st) t then upC (fun c => set_mat (upd t None (mat c)) c) st else st).
Definition setCont (t : nat) (k : content) : M unit := modify (upP (fun p => set_cont (upd t k (cont p)) p)).

(** operator setter of a single-system term (QTerms.py 157-190, 199-205) *)
Definition setOp (t : nat) (op : option (opT A)) : M unit :=
  needTrm t ;;;
  k <- get (fun st => cont (P_ st) t) ;;
  match k with
  | CMany _ _ _ => raise TypeError
  | COne q old ord =>
      ok <- get (fun st => okOp (P_ st) q op) ;;
      if negb ok then raise ValueError else
      (if optEqb (opEqb A) op old then ret tt else setCont t (COne q op ord) ;;; flagUp t) ;;;
      dropIfFlagged t
  end.
(** order setter of a single-system term (QTerms.py 157-190, 214-216) *)
Definition setOrd (t : nat) (n : Z) : M unit :=
  needTrm t ;;;
  k <- get (fun st => cont (P_ st) t) ;;
  match k with
  | CMany _ _ _ => raise TypeError
  | COne q op old =>
      (if Z.eqb n old then ret tt else setCont t (COne q op n) ;;; flagUp t) ;;;
      dropIfFlagged t
  end.

(** Assigning the list of operators or orders to the sub-terms, in order
    (QTerms.py 184-185): flags the systems of the sub-terms that change. *)
Fixpoint newOps (parts : list (nat * opT A * Z)) (ops : list (opT A)) : list (nat * opT A * Z) :=
  match parts, ops with
  | (q, _, n) :: parts', o :: ops' => (q, o, n) :: newOps parts' ops'
  | _, _ => []
  end.
Fixpoint newOrds (parts : list (nat * opT A * Z)) (ns : list Z) : list (nat * opT A * Z) :=
  match parts, ns with
  | (q, o, _) :: parts', n :: ns' => (q, o, n) :: newOrds parts' ns'
  | _, _ => []
  end.
Definition flagParts (same : (nat * opT A * Z) -> (nat * opT A * Z) -> bool) (old new : list (nat * opT A * Z)) : M unit :=
  for_ (combine old new) (fun xy => if same (fst xy) (snd xy) then ret tt else flagUp (fst (fst (fst xy)))).

(** operator setter of a coupling: the sub-terms are changed before the
    operators are checked. *)
Definition setOps (t : nat) (ops : list (opT A)) : M unit :=
  needTrm t ;;;
  k <- get (fun st => cont (P_ st) t) ;;
  match k with
  | COne _ _ _ => raise TypeError
  | CMany parts oldOps ords =>
      if negb (Nat.eqb (List.length ops) (List.length parts)) then raise ValueError else
      let parts' := newOps parts ops in
      setCont t (CMany parts' oldOps ords) ;;;
      flagParts (fun x y => opEqb A (snd (fst x)) (snd (fst y))) parts parts' ;;;
      ok <- get (fun st => forallb (fun x => okOp (P_ st) (fst (fst x)) (Some (snd (fst x)))) parts') ;;
      if negb ok then raise ValueError else
      (if listEqb (opEqb A) ops oldOps then ret tt else setCont t (CMany parts' ops ords) ;;; flagUp t) ;;;
      dropIfFlagged t
  end.
(** order setter of a coupling *)
Definition setOrds (t : nat) (ns : list Z) : M unit :=
  needTrm t ;;;
  k <- get (fun st => cont (P_ st) t) ;;
  match k with
  | COne _ _ _ => raise TypeError
  | CMany parts ops oldNs =>
      if negb (Nat.eqb (List.length ns) (List.length parts)) then raise ValueError else
      let parts' := newOrds parts ns in
      setCont t (CMany parts' ops oldNs) ;;;
      flagParts (fun x y => Z.eqb (snd x) (snd y)) parts parts' ;;;
      (if listEqb Z.eqb ns oldNs then ret tt else setCont t (CMany parts' ops ns) ;;; flagUp t) ;;;
      dropIfFlagged t
  end.

(** qSystem setter with a single system (QTerms.py 100-115) of a single-system
    term: operator and order are reset without a flag, the flag is raised only if
    the system differs. *)
Definition setQ (t q : nat) : M unit :=
  needTrm t ;;; needSys q ;;;
  k <- get (fun st => cont (P_ st) t) ;;
  match k with
  | CMany _ _ _ => raise TypeError
  | COne old _ _ =>
      setCont t (COne old None 1) ;;;
      modify (upS (fun s => set_bound (upd t (if memb q (bound s t) then bound s t else bound s t ++ [q]) (bound s)) s)) ;;;
      (if Nat.eqb q old then ret tt else setCont t (COne q None 1) ;;; flagUp t)
  end.

(** frequency, operator and order of a system are those of its first term,
    which is created if there is none (QSystem.py 662-702). *)
Definition firstTerm (s : nat) : M nat :=
  needSys s ;;;
  o <- get (fun st => first (S_ st) s) ;;
  match o with
  | Some t => ret t
  | None => t <- newObj false [s] (COne s None 1) ;; flagUp t ;;; addTerms s t ;;; ret t
  end.

(** ** Removing terms *)

(** _removeTermExc (QSystem.py 614-635); returns the exclusion list. *)
Fixpoint rmTerm (n : nat) (s t : nat) (exc : list nat) : M (list nat) := fun st =>
  match n with
  | O => None
  | S n' =>
      (exc' <-
         (if memb t (terms (S_ st) s) then
            modify (upS (fun z => set_terms (upd s (filter (fun x => negb (Nat.eqb x t)) (terms z s)) (terms z)) z)) ;;;
            ret (exc ++ [s; t])
          else if memb s exc then ret exc
          else
            r <- (fix each l exc := match l with
                  | [] => ret (exc, false)
                  | q :: l' => e <- rmTerm n' q t exc ;; if memb t e then ret (e, true) else each l' e
                  end) (subs (S_ st) s) (exc ++ [s]) ;;
            if snd r : bool then ret (fst r)
            else g <- get (fun st => sup (S_ st) s) ;;
                 match g with None => ret (fst r) | Some p => rmTerm n' p t (fst r) end) ;;
       delM s ;;; flagUp s ;;; ret exc') st
  end.
Definition removeTerm (s t : nat) : M unit := needSys s ;;; needTrm t ;;; rmTerm lim s t [] ;;; ret tt.

(** resetTerms (QSystem.py 651-655) *)
Definition resetTerms (s : nat) : M unit :=
  needSys s ;;; modify (upS (fun z => set_terms (upd s [] (terms z)) z)).
(** terms setter (QSystem.py 657-660) with a list of existing terms *)
Definition setTerms (s : nat) (ts : list nat) : M unit :=
  resetTerms s ;;; for_ ts (fun t => needTrm t ;;; addTerms s t).

(** ** Structure and dimensions *)

(** The dimension setter (QSystem.py 247-263), addSubSys (382-409) and the
    removal of a direct sub-system (450-518) with respect to the caches.  What
    they write into the dimensions of the systems connected to the given one is
    the subject of QDimModel; here the new values [d] are arbitrary.
    Simplification: checks of the type of a system are left out. *)
Definition rebook (d : nat -> Z * Z * Z) (ex : list nat) : M unit :=
  modify (upP (fun p => set_dims (fun x => if memb x ex then d x else dims p x) p)).
Definition setDim (s : nat) (d : nat -> Z * Z * Z) : M unit :=
  needSys s ;;; flagUp s ;;; ex <- delM s ;; rebook d ex.
Definition addSub (p c : nat) (d : nat -> Z * Z * Z) : M unit :=
  needSys p ;;; needSys c ;;;
  l <- get (fun st => subs (S_ st) c) ;;
  if memb p l then raise ValueError else
  modify (upS (fun s => set_sup (upd c (Some p) (sup s)) s)) ;;;
  flagUp p ;;;
  modify (upS (fun s => set_bound (upd c (if memb p (bound s c) then bound s c else bound s c ++ [p]) (bound s)) s)) ;;;
  modify (upS (fun s => set_subs (upd p (if memb c (subs s p) then subs s p else subs s p ++ [c]) (subs s)) s)) ;;;
  ex <- delM p ;; rebook d ex.
Definition mentions (p : params) (c t : nat) : bool :=
  match cont p t with COne _ _ _ => false | CMany parts _ _ => existsb (fun x => Nat.eqb (fst (fst x)) c) parts end.
Definition removeSub (p c : nat) (d : nat -> Z * Z * Z) : M unit :=
  needSys p ;;; needSys c ;;;
  l <- get (fun st => subs (S_ st) p) ;;
  if negb (memb c l) then raise KeyError else
  modify (upS (fun s => set_sup (upd c None (sup s))
            (set_subs (upd p (filter (fun x => negb (Nat.eqb x c)) (subs s p)) (subs s)) s))) ;;;
  ex <- delM c ;;
  rebook d ex ;;;
  modify (fun st => upS (fun s => set_terms (upd p (filter (fun t => negb (mentions (P_ st) c t)) (terms s p)) (terms s)) s) st) ;;;
  ex <- delM p ;;
  rebook d ex ;;;
  flagUp p.

(** ** Histories *)

Inductive op :=
| ONewSys
| OCreateOne (h q : nat) (o : option (opT A)) (n : Z) (f : option (freqT A))
| OCreateMany (h : nat) (parts : list (nat * opT A * Z)) (f : option (freqT A))
| OFreq (t : nat) (f : option (freqT A))
| OOp (t : nat) (o : option (opT A))
| OOrd (t : nat) (n : Z)
| OOps (t : nat) (os : list (opT A))
| OOrds (t : nat) (ns : list Z)
| OSysFreq (s : nat) (f : option (freqT A))
| OSysOp (s : nat) (o : option (opT A))
| OSysOrd (s : nat) (n : Z)
| ORead (s : nat)
| OReadTerm (t : nat)
| OUnitary (fixed : bool) (s : nat)
| ORemoveTerm (s t : nat)
| OResetTerms (s : nat)
| OSetTerms (s : nat) (ts : list nat)
| OSetQ (t q : nat)
| OAddTerm (s t : nat)
| OSetDim (s : nat) (d : nat -> Z * Z * Z)
| OAddSub (p c : nat) (d : nat -> Z * Z * Z)
| ORemoveSub (p c : nat) (d : nat -> Z * Z * Z).

Definition void {X} (m : M X) : M unit := m ;;; ret tt.
Definition exec (o : op) : M unit :=
  match o with
  | ONewSys => void (newObj true [] (COne 0 None 1))
  | OCreateOne h q o n f => void (createOne h q o n f)
  | OCreateMany h parts f => void (createMany h parts f)
  | OFreq t f => setFreq t f
  | OOp t o => setOp t o
  | OOrd t n => setOrd t n
  | OOps t os => setOps t os
  | OOrds t ns => setOrds t ns
  | OSysFreq s f => t <- firstTerm s ;; setFreq t f
  | OSysOp s o => t <- firstTerm s ;; setOp t o
  | OSysOrd s n => t <- firstTerm s ;; setOrd t n
  | ORead s => needSys s ;;; void (readSys lim s)
  | OReadTerm t => needTrm t ;;; void (readTerm t)
  | OUnitary b s => needSys s ;;; unitary b s
  | ORemoveTerm s t => removeTerm s t
  | OResetTerms s => resetTerms s
  | OSetTerms s ts => setTerms s ts
  | OSetQ t q => setQ t q
  | OAddTerm s t => needSys s ;;; needTrm t ;;; addTerms s t
  | OSetDim s d => setDim s d
  | OAddSub p c d => addSub p c d
  | ORemoveSub p c d => removeSub p c d
  end.

Definition start : hst :=
  HS (Struct 0 (fun _ => false) (fun _ => []) (fun _ => None) (fun _ => []) (fun _ => None) (fun _ => []))
     (Params (fun _ => (1, 1, 1)%Z) (fun _ => COne 0 None 1) (fun _ => None))
     (Caches (fun _ => None) (fun _ => None) (fun _ => true) (fun _ => true) (fun _ => false)).
(** A history of calls; a call that raises keeps its effects. *)
Fixpoint run (os : list op) (st : hst) : option hst :=
  match os with
  | [] => Some st
  | o :: os' => match exec o st with None => None | Some (st', _) => run os' st' end
  end.
End Ham.
