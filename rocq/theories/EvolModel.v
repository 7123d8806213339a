(** QuantumToolbox/evolution.py, and the gates of classes/QGates.py.

    [expm] is the matrix exponential of scipy (dense or sparse), an argument. *)
From mathcomp Require Import all_ssreflect all_algebra.
From Verif Require Py.
From Verif Require Import MatModel OperModel StateModel.
Set Implicit Arguments.
Unset Strict Implicit.
Unset Printing Implicit Defensive.
Import GRing.Theory Num.Theory.
Local Open Scope ring_scope.

(** [int(totalTime/timeStep)] for rationals (see OperModel.truncZ); [range] of
    a negative number is empty; a zero step raises ZeroDivisionError. *)
Definition stepCount (totalTime timeStep : rat) : result nat :=
  if timeStep == 0 then Err Py.ZeroDivisionError
  else Ok (match truncZ (totalTime / timeStep) with Posz n => n | Negz _ => 0%N end).

Section Evol.
Variable C : numClosedFieldType.

(** evolution.py _preSO 278-309 *)
Definition preSO (operator : mat C) (identity : option (mat C)) : mat C :=
  let identity := if identity is Some i then i else idm C (rows operator) in
  kron identity operator.

(** evolution.py _postSO 311-342 *)
Definition postSO (operator : mat C) (identity : option (mat C)) : mat C :=
  let identity := if identity is Some i then i else idm C (rows operator) in
  kron (trm operator) identity.

(** evolution.py _prepostSO 344-375 *)
Definition prepostSO (operatorA : mat C) (operatorB : option (mat C)) : mat C :=
  let operatorB := if operatorB is Some b then b else operatorA in
  kron (trm operatorB) operatorA.

(** evolution.py dissipator 228-276 *)
Definition dissipator (operatorA : mat C) (operatorB identity : option (mat C)) (double : bool)
  : result (mat C) :=
  let identity := if identity is Some i then i else idm C (rows operatorA) in
  let operatorB := if operatorB is Some b then b else hc operatorA in
  do number <- mmul operatorB operatorA;
  let part1 := prepostSO operatorA (Some operatorB) in
  let part2 := preSO number (Some identity) in
  let part3 := postSO number (Some identity) in
  do p23 <- madd part2 part3;
  do d <- msub part1 (scalem (1 / 2%:R) p23);
  Ok (scalem (1 + (nat_of_bool double)%:R) d).

(** A collapse operator is a matrix or a tuple of two matrices; the argument
    [collapseOperators] is None, a list, or another sequence (a tuple). *)
Inductive cop := COp (M : mat C) | CTup (A B : mat C).
Inductive cops := CNone | CList (l : seq cop) | CSeq (l : seq cop).

(** [op.shape[0]]; a tuple has no attribute [shape]. *)
Definition copShape0 (c : cop) : result nat :=
  match c with COp M => Ok (rows M) | CTup _ _ => Err Py.AttributeError end.

(** The loop body of evolution.py Liouvillian 145-162.  The tuple branch
    (line 153) comes after two reads of [.shape] and is never reached. *)
Definition liouvStep (dim : nat) (identity : mat C) (decayRates : option (seq C)) (double : bool)
    (liouvillian : mat C) (idx : nat) (collapseOperator : cop) : result (mat C) :=
  do s <- copShape0 collapseOperator;
  do collapsePart <-
    (if s == dim then
       match collapseOperator with
       | COp M => dissipator M None (Some identity) double
       | CTup _ _ => Err Py.AttributeError
       end
     else if (s == dim ^ 2)%N then
       match collapseOperator with
       | COp M => Ok M
       | CTup _ _ => Err Py.AttributeError
       end
     else match collapseOperator with
          | CTup A B => dissipator A (Some B) None double
          | COp _ => Err Py.ValueError
          end);
  match decayRates with
  | None => madd liouvillian collapsePart
  | Some rates =>
      if size rates != 0%N then
        match ohead (drop idx rates) with
        | Some r => madd liouvillian (scalem r collapsePart)
        | None => Err Py.IndexError
        end
      else Ok liouvillian
  end.
Fixpoint liouvLoop dim identity decayRates double (liouvillian : mat C) (idx : nat) (l : seq cop)
  : result (mat C) :=
  match l with
  | [::] => Ok liouvillian
  | c :: l' =>
      do liouvillian <- liouvStep dim identity decayRates double liouvillian idx c;
      liouvLoop dim identity decayRates double liouvillian idx.+1 l'
  end.

(** [collapseOperators[0].shape[0]] *)
Definition firstShape (l : seq cop) : result nat :=
  match l with [::] => Err Py.IndexError | c :: _ => copShape0 c end.

(** evolution.py Liouvillian 93-163 *)
Definition Liouvillian (Hamiltonian : option (mat C)) (collapseOperators : cops)
    (decayRates : option (seq C)) (double : bool) : result (mat C) :=
  do dim <- match Hamiltonian with
            | Some H => Ok (rows H)
            | None => match collapseOperators with
                      | CNone => Err Py.UnboundLocalError
                      | CList l => firstShape l
                      | CSeq l => firstShape l
                      end
            end;
  let identity := idm C dim in
  do liouvillian <- zerosMat C (dim ^ 2);
  do liouvillian <-
    match Hamiltonian with
    | Some H =>
        let hamPart1 := preSO H (Some identity) in
        let hamPart2 := postSO H (Some identity) in
        do hamPart <- msub hamPart1 hamPart2;
        madd liouvillian (scalem (- 'i) hamPart)
    | None => Ok liouvillian
    end;
  match collapseOperators with
  | CList l => liouvLoop dim identity decayRates double liouvillian 0 l
  | _ => Ok liouvillian
  end.

Variable expm : mat C -> result (mat C).

(** evolution.py LiouvillianExp 165-226.  Reading [collapseOperators[0]]
    without a Hamiltonian raises IndexError for an empty sequence.  In the last
    branch a missing Hamiltonian makes [-1j * None] raise TypeError. *)
Definition LiouvillianExp (Hamiltonian : option (mat C)) (timeStep : C) (collapseOperators : cops)
    (decayRates : option (seq C)) (exp double : bool) : result (mat C) :=
  do _ <- match Hamiltonian, collapseOperators with
          | None, CList [::] => Err Py.IndexError
          | None, CSeq [::] => Err Py.IndexError
          | _, _ => Ok tt
          end;
  match collapseOperators with
  | CList _ =>
      do liouvillian <- Liouvillian Hamiltonian collapseOperators decayRates double;
      if exp then expm (scalem timeStep liouvillian) else Ok liouvillian
  | _ => match Hamiltonian with
         | Some H => Unitary expm H timeStep
         | None => Err Py.TypeError
         end
  end.

(** The loop of evolution.py evolveOpen 388-397; returns the
    density matrix of each step. *)
Fixpoint evolveLoop (LiouExp : mat C) (n : nat) (rhoL : mat C) : result (seq (mat C)) :=
  match n with
  | 0 => Ok [::]
  | n'.+1 =>
      do rhoL <- mmul LiouExp rhoL;
      do denMat <- vec2Mat rhoL;
      do rest <- evolveLoop LiouExp n' rhoL;
      Ok (denMat :: rest)
  end.

(** evolution.py evolveOpen 377-398.  Times are rationals.  Returns the
    result list and the list of arguments passed to [calcFunc]. *)
Definition evolveOpen (initialState : mat C) (totalTime timeStep : rat) (Hamiltonian : option (mat C))
    (collapseOperators : cops) (decayRates : option (seq C)) (delStates double : bool)
  : result (seq (mat C) * seq (mat C)) :=
  do LiouExp <- LiouvillianExp Hamiltonian (ratr timeStep) collapseOperators decayRates true double;
  do rho0 <- (if rows initialState != cols initialState then densityMatrix initialState
              else Ok initialState);
  do v <- mat2Vec rho0;
  do nSteps <- stepCount totalTime timeStep;
  do states <- evolveLoop LiouExp nSteps v;
  Ok (rho0 :: (if delStates then [::] else states), rho0 :: states).

(** QGates.py SpinRotation._rotMat 72-84.  [sys] is one triple (dimension,
    dimsBefore, dimsAfter) per sub-system of the gate, [jop] the operator of
    the axis, [isOpen] the disjunction of line 82; [sys[0]] of an empty list
    raises IndexError.  Caching is modelled in ProtModel.v. *)
Definition rotOne (jop : rat -> bool -> result (mat C)) (a : C) (s : nat * nat * nat) : result (mat C) :=
  let '(dimension, before, after) := s in
  do j <- jop dimension%:R true;
  do flipOp <- compositeOp j before after;
  Unitary expm (scalem a flipOp) 1.
Definition rotLoop (one : nat * nat * nat -> result (mat C)) (sys : seq (nat * nat * nat)) (flipUn : mat C)
  : result (mat C) :=
  foldl (fun acc s => do flipUn <- acc; do u <- one s; mmul u flipUn) (Ok flipUn) sys.
Definition rotMat (jop : rat -> bool -> result (mat C)) (phase angle : C) (sys : seq (nat * nat * nat))
    (isOpen : bool) : result (mat C) :=
  match sys with
  | [::] => Err Py.IndexError
  | s :: rest =>
      let one := rotOne jop (phase * angle) in
      do flipUn <- one s;
      do flipUn <- rotLoop one rest flipUn;
      Ok (if isOpen then prepostSO flipUn None else flipUn)
  end.

(** QGates.py xGate.instantFlip 101-115; [rot] is the rotation of the axis by the angle. *)
Definition flipOne (rot : result (mat C)) (s : nat * nat * nat) : result (mat C) :=
  let '(_, before, after) := s in
  do r <- rot; compositeOp r before after.
Definition instantFlip (rot : result (mat C)) (sys : seq (nat * nat * nat)) (openSys : bool) : result (mat C) :=
  match sys with
  | [::] => Err Py.IndexError
  | s :: rest =>
      do flipOp <- flipOne rot s;
      do flipOp <- rotLoop (flipOne rot) rest flipOp;
      Ok (if openSys then prepostSO flipOp None else flipOp)
  end.

End Evol.

Arguments CNone {C}.
