(** The phase-space functions of QuantumToolbox/quasiProbabilities.py.

    The real exponential and pi are arguments.  The conversion of sparse
    matrices to arrays ([toarray]) has no effect on the entries. *)
From mathcomp Require Import all_ssreflect all_algebra.
From Verif Require Py.
From Verif Require Import MatModel OperModel StateModel.
Set Implicit Arguments.
Unset Strict Implicit.
Unset Printing Implicit Defensive.
Import GRing.Theory Num.Theory.
Local Open Scope ring_scope.

Section Phase.
Variable C : numClosedFieldType.
Variable exp : C -> C.
Variable pi : C.

(** quasiProbabilities.py 91-92 and 135-136: [0.5 * g * (X + 1.0j * Y)] with [X, Y = meshgrid(vec, vec)]: [X] is [vec]
    along each row, [Y] is [vec] down each column. *)
Definition gridPoint (vec : seq C) (g : C) (i j : nat) : C := 1 / 2%:R * g * (vec`_j + 'i * vec`_i).

(** The loops of quasiProbabilities.py Wigner 90-107 at one point of the grid.
    numpy runs them on whole arrays, entry by entry.  The state is the list
    [Wlist] and the sum [W]; in the innermost loop also [temp]. *)
Definition wlist := (seq C * C)%type.
Definition wset (l : seq C) (n : nat) (x : C) : seq C := set_nth 0 l n x.

(** lines 96-98: [for n in range(1, M)] *)
Definition wFirst (rho : mat C) (A : C) (s : wlist) (n : nat) : wlist :=
  let x := 2%:R * A * s.1`_n.-1 / sqrtC n%:R in
  (wset s.1 n x, s.2 + 2%:R * 'Re (ent rho 0 n * x)).

(** lines 103-107: [for n in range(m + 1, M)] *)
Definition wInner (rho : mat C) (A : C) (m : nat) (s : wlist * C) (n : nat) : wlist * C :=
  let: (l, W, temp) := s in
  let temp2 := (2%:R * A * l`_n.-1 - sqrtC m%:R * temp) / sqrtC n%:R in
  let temp' := l`_n in
  (wset l n temp2, W + 2%:R * 'Re (ent rho m n * temp2), temp').

(** lines 99-107: [for m in range(1, M)] *)
Definition wOuter (rho : mat C) (A : C) (M : nat) (s : wlist) (m : nat) : wlist :=
  let temp := s.1`_m in
  let x := (2%:R * A^* * temp - sqrtC m%:R * s.1`_m.-1) / sqrtC m%:R in
  let l := wset s.1 m x in
  let W := s.2 + 'Re (ent rho m m * x) in
  (foldl (wInner rho A m) (l, W, temp) (range m.+1 M)).1.

Definition wignerAt (rho : mat C) (M : nat) (A : C) : C :=
  let w0 := exp (- 2%:R * `|A| ^+ 2) / pi in
  let s0 := (wset (nseq M 0) 0 w0, 'Re (ent rho 0 0) * 'Re w0) in
  let s1 := foldl (wFirst rho A) s0 (range 1 M) in
  (foldl (wOuter rho A M) s1 (range 1 M)).2.

(** quasiProbabilities.py Wigner 49-108.  [Wlist[0]] of a matrix without rows is
    an IndexError. *)
Definition Wigner (rho : mat C) (vec : seq C) (g : C) : result (mat C) :=
  do rho <- (if rows rho != cols rho then densityMatrix rho else Ok rho);
  let M := rows rho in
  if M == 0%N then Err Py.IndexError
  else Ok (mk (size vec) (size vec) (fun i j => wignerAt rho M (gridPoint vec g i j) * g ^+ 2)).

(** [polyval(p, x)] at one point: Horner's scheme, highest power first. *)
Definition polyval (p : seq C) (x : C) : C := foldl (fun y pv => y * x + pv) 0 p.

(** quasiProbabilities.py _qfuncPure 157-186, for the two-dimensional arrays
    HusimiQ passes.  [psi.T] of a ket has one row, of which [fliplr] of a list
    of one array reverses the order of the rows, not of the entries: for a ket
    polyval gets one coefficient, the row itself, which numpy adds to each row
    of the grid.  For a bra [psi.T / sqrt(factorial(...))] is a square array
    of which the rows are reversed; polyval adds them to the rows of the grid.
    Rows of length [n] and [N] can be added if [n = N] or one of them is one.
    The number of columns of the sum is the larger one ([n] is not one here). *)
Definition qfuncPure (psi : mat C) (alphaMat : mat C) : result (mat C) :=
  let r := rows psi in
  let c := cols psi in
  let N := cols alphaMat in
  let value p i k := `|polyval p ((ent alphaMat i k)^*)| ^+ 2 * exp (- `|ent alphaMat i k| ^+ 2) / pi in
  let root j := sqrtC (j`!)%:R in
  if c == 1%N then
    if (N == r) || (N == 1%N)
    then Ok (mk (rows alphaMat) r (fun i j => let k := if N == 1%N then 0%N else j in
               value [:: ent psi j 0 / root j] i k))
    else Err Py.ValueError
  else if r == 1%N then
    if (N == c) || (N == 1%N)
    then Ok (mk (rows alphaMat) c (fun i j => let k := if N == 1%N then 0%N else j in
               value (rev [seq ent psi 0 l / root j | l <- range 0 c]) i k))
    else Err Py.ValueError
  else Err Py.ValueError.

(** quasiProbabilities.py HusimiQ 111-154.  A numpy array has no method
    [full]. *)
Definition HusimiQ (state : mat C) (vec : seq C) (g : C) : result (mat C) :=
  let amat := mk (size vec) (size vec) (gridPoint vec g) in
  if rows state != cols state then
    do qmat <- qfuncPure state amat;
    Ok (scalem (g ^+ 2) (scalem (1 / 4%:R) qmat))
  else Err Py.AttributeError.

End Phase.
