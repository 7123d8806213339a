(** QuantumToolbox/linearAlgebra.py partialTrace, with the numpy operations it uses. *)
From mathcomp Require Import all_ssreflect all_algebra.
From Verif Require Py.
From Verif Require Import MatModel OperModel StateModel.
Set Implicit Arguments.
Unset Strict Implicit.
Unset Printing Implicit Defensive.
Import GRing.Theory Num.Theory.
Local Open Scope ring_scope.

(** [np.prod] of a list of ints (the empty product is not reached). *)
Definition npprod (ds : seq nat) : nat := foldr muln 1%N ds.

(** Position of an index tuple in the row-major order of an array of this shape. *)
Fixpoint ravel (shape idx : seq nat) : nat :=
  match shape, idx with
  | _ :: ds, i :: is' => (i * npprod ds + ravel ds is')%N
  | _, _ => 0%N
  end.

(** All index tuples of a shape, in row-major order. *)
Fixpoint tuples (shape : seq nat) : seq (seq nat) :=
  match shape with
  | [::] => [:: [::]]
  | d :: ds => [seq i :: t | i <- range 0 d, t <- tuples ds]
  end.

Section Trace.
Variable C : numClosedFieldType.

(** An n-dimensional array: shape and entries. *)
Record nd := Nd { shape : seq nat; item : seq nat -> C }.

(** [M.reshape(shape)] of a matrix, in row-major order (ValueError if the
    number of entries differs). *)
Definition toNd (M : mat C) (sh : seq nat) : result nd :=
  if npprod sh == (rows M * cols M)%N then Ok (Nd sh (fun idx => flat M (ravel sh idx)))
  else Err Py.ValueError.

(** [A.reshape(r, c)] of an n-dimensional array: entry [[i, j]] is the one
    number [i*c + j] in row-major order. *)
Definition fromNd (A : nd) (r c : nat) : result (mat C) :=
  if (r * c == npprod (shape A))%N
  then Ok (mk r c (fun i j => item A (nth [::] (tuples (shape A)) (i * c + j))))
  else Err Py.ValueError.

(** [np.einsum(A, labels)] without output labels (numpy documentation: the
    labels that occur once, sorted, are those of the output; the others are
    summed over).  Labels of different lengths for the same name raise
    ValueError; numpy's broadcasting of length 1 and its limit of 32 axes are
    not modelled. *)
Definition outLabels (labels : seq nat) : seq nat :=
  sort leq [seq l <- labels | count_mem l labels == 1%N].
Definition sumLabels (labels : seq nat) : seq nat :=
  undup [seq l <- labels | count_mem l labels != 1%N].
Definition labelDim (sh labels : seq nat) (l : nat) : nat := nth 0%N sh (index l labels).
Definition einsum (A : nd) (labels : seq nat) : result nd :=
  if (size labels == size (shape A))
     && all (fun p => p.2 == labelDim (shape A) labels p.1) (zip labels (shape A))
  then
    let out := outLabels labels in
    let sms := sumLabels labels in
    let dim := labelDim (shape A) labels in
    Ok (Nd (map dim out) (fun o =>
      \sum_(s <- tuples (map dim sms))
         item A [seq nth 0%N (o ++ s) (index l (out ++ sms)) | l <- labels]))
  else Err Py.ValueError.

(** [dims[keep]]: indexing with a list of ints, negative ones counting from the
    end.  An empty list becomes an array of floats, which cannot be an index. *)
Definition npIndex (dims : seq nat) (keep : seq int) : result (seq nat) :=
  if keep is [::] then Err Py.IndexError else
  mapr (fun k => match k with
                 | Posz k => if (k < size dims)%N then Ok (nth 0%N dims k) else Err Py.IndexError
                 | Negz k => if (k < size dims)%N then Ok (nth 0%N dims (size dims - k.+1)) else Err Py.IndexError
                 end) keep.

(** linearAlgebra.py partialTrace 309-365 *)
Definition partialTrace (keep : seq int) (dims : seq nat) (state : mat C) : result (mat C) :=
  do rho <- (if rows state != cols state then mmul state (hc state) else Ok state);
  let Ndim := size dims in
  do kept <- npIndex dims keep;
  let Nkeep := npprod kept in
  let idx1 := range 0 Ndim in
  let idx2 := [seq (if Posz i \in keep then Ndim + i else i)%N | i <- range 0 Ndim] in
  do rhoA <- toNd rho (dims ++ dims);
  do rhoA <- einsum rhoA (idx1 ++ idx2);
  fromNd rhoA Nkeep Nkeep.

End Trace.
