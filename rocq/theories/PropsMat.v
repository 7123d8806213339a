(** C34, C35: tensor products and composite operators. *)
From mathcomp Require Import all_ssreflect all_algebra all_field.
From Verif Require Py.
From Verif Require Import MatModel OperModel MatLib MatSpec MatProofs.
Set Implicit Arguments.
Unset Strict Implicit.
Unset Printing Implicit Defensive.
Import GRing.Theory Num.Theory.
Local Open Scope ring_scope.

(** ** C34: tensor product laws *)

(** Composite indices in lexicographic order are exactly the positions
    [0 .. product of the dimensions - 1], each once. *)
Theorem C34_index_bijection (dims : seq nat) :
  (forall idx, isIdx dims idx -> enc dims idx < prodn dims)%N /\
  (forall idx idx', isIdx dims idx -> isIdx dims idx' -> enc dims idx = enc dims idx' -> idx = idx') /\
  (forall k, (k < prodn dims)%N -> exists idx, isIdx dims idx /\ enc dims idx = k).
Proof.
split; first by move=> idx; apply: enc_lt.
by split=> [idx idx'|k]; [apply: enc_inj | apply: enc_surj].
Qed.
Print Assumptions C34_index_bijection.

(** tensorProd of any non-empty list of matrices and ints (an int [n] counts as
    the n-dimensional identity): shape and every entry. *)
Theorem C34_entries (C : numClosedFieldType) (xs : seq (targ C)) :
  xs <> [::] ->
  let Ms := map (@targMat C) xs in
  exists M, tensorProd xs = Ok M /\
    rows M = prodn (map (@rows C) Ms) /\ cols M = prodn (map (@cols C) Ms) /\
    forall us vs, isIdx (map (@rows C) Ms) us -> isIdx (map (@cols C) Ms) vs ->
      ent M (enc (map (@rows C) Ms) us) (enc (map (@cols C) Ms) vs) = prodEnt Ms us vs.
Proof.
move=> h Ms; exists (tens Ms); split; first exact: tensorProdE.
split; first exact: rows_tens.
by split; [exact: cols_tens | move=> us vs; apply: ent_tens].
Qed.
Print Assumptions C34_entries.

Theorem C34_no_arguments (C : numClosedFieldType) : tensorProd (C := C) [::] = Err Py.IndexError.
Proof. by []. Qed.
Print Assumptions C34_no_arguments.

(** Ints stand for identities: all ints give the identity of the product dimension,
    and an int may be replaced by the identity matrix anywhere. *)
Theorem C34_ints_are_identities (C : numClosedFieldType) (ns : seq nat) (xs ys : seq (targ C)) (n : nat) :
  (ns <> [::] -> exists M, tensorProd [seq TInt k | k <- ns] = Ok M /\ isIdentity (C := C) (prodn ns) M) /\
  (forall I, isIdentity n I -> tensorProd (xs ++ TInt n :: ys) = tensorProd (xs ++ TMat I :: ys)).
Proof.
split=> [h|I /isIdentityE ->].
  exists (idm C (prodn ns)); split; last by apply/isIdentityE.
  rewrite tensorProdE; last by case: ns h.
  by rewrite -map_comp; congr Ok; rewrite -(tens_int C).
by rewrite !tensorProdE ?map_cat //; case: xs.
Qed.
Print Assumptions C34_ints_are_identities.

(** Associativity, for any grouping of any number of factors. *)
Theorem C34_associative (C : numClosedFieldType) (xs ys : seq (targ C)) A B :
  tensorProd xs = Ok A -> tensorProd ys = Ok B ->
  tensorProd (xs ++ ys) = tensorProd [:: TMat A; TMat B] /\ Py.is_ok (tensorProd (xs ++ ys)).
Proof.
move=> /tensorProd_ok[h ->] /tensorProd_ok[h' ->].
by rewrite tensorProdE ?map_cat ?tens_cat //; case: xs h.
Qed.
Print Assumptions C34_associative.

(** (A1 x ... x An)(B1 x ... x Bn) = A1 B1 x ... x An Bn, for any number of
    factors of any conforming (also rectangular) shapes. *)
Theorem C34_mixed_product (C : numClosedFieldType) (As Bs Ps : seq (mat C)) :
  As <> [::] -> size As = size Bs ->
  [seq mmul p.1 p.2 | p <- zip As Bs] = [seq Ok P | P <- Ps] ->
  exists A B P, tensorProd (map (@TMat C) As) = Ok A /\ tensorProd (map (@TMat C) Bs) = Ok B /\
    tensorProd (map (@TMat C) Ps) = Ok P /\ mmul A B = Ok P.
Proof.
move=> h hs hp; have [e1 e2] := tens_mul hs hp.
have m Ms : map (@targMat C) (map (@TMat C) Ms) = Ms by elim: Ms => //= M Ms ->.
have ne Ms : size Ms = size As -> map (@TMat C) Ms <> [::].
  by move=> e /(congr1 size); rewrite size_map e => /size0nil.
have sP : size Ps = size As by have := congr1 size hp; rewrite !size_map size_zip hs minnn.
exists (tens As), (tens Bs), (tens Ps).
by rewrite !tensorProdE ?m ?mmulE ?e2 //; apply: ne.
Qed.
Print Assumptions C34_mixed_product.

Theorem C34_adjoint (C : numClosedFieldType) (As : seq (mat C)) A :
  tensorProd (map (@TMat C) As) = Ok A ->
  tensorProd (map (fun M => TMat (hc M)) As) = Ok (hc A).
Proof.
have m Ms : map (@targMat C) (map (@TMat C) Ms) = Ms by elim: Ms => //= M Ms ->.
move=> /tensorProd_ok[h ->].
rewrite m -tens_hc tensorProdE; last by move: h; case: (As).
by rewrite -map_comp.
Qed.
Print Assumptions C34_adjoint.

Theorem C34_trace (C : numClosedFieldType) (As : seq (mat C)) A :
  all (fun M => rows M == cols M) As -> tensorProd (map (@TMat C) As) = Ok A ->
  trace A = \prod_(M <- As) trace M.
Proof.
have m Ms : map (@targMat C) (map (@TMat C) Ms) = Ms by elim: Ms => //= M Ms ->.
by move=> h /tensorProd_ok[_ ->]; rewrite m tens_trace.
Qed.
Print Assumptions C34_trace.

(** Linear in each factor. *)
Theorem C34_multilinear (C : numClosedFieldType) (xs ys : seq (targ C)) (X Y S : mat C) (x : C) :
  madd X Y = Ok S ->
  exists A B D E, tensorProd (xs ++ TMat X :: ys) = Ok A /\ tensorProd (xs ++ TMat Y :: ys) = Ok B /\
    tensorProd (xs ++ TMat S :: ys) = Ok D /\ madd A B = Ok D /\
    tensorProd (xs ++ TMat (scalem x X) :: ys) = Ok E /\ E = scalem x A.
Proof.
move=> /madd_inv[h h' ->].
have ne z : xs ++ z :: ys <> [::] by case: xs.
do 4 eexists; rewrite !tensorProdE //; do 3 (split; first reflexivity).
rewrite !map_cat /= tens_addm // maddE ?tens_scalem //.
- by rewrite !rows_tens !map_cat /= h.
- by rewrite !cols_tens !map_cat /= h'.
Qed.
Print Assumptions C34_multilinear.

(** hc is an anti-multiplicative involution, trace is cyclic. *)
Theorem C34_adjoint_of_product (C : numClosedFieldType) (A B P : mat C) :
  mmul A B = Ok P -> mmul (hc B) (hc A) = Ok (hc P) /\ hc (hc A) = A.
Proof. by move=> /mmul_inv[h ->]; rewrite mmulE // hc_mulm // hcK. Qed.
Print Assumptions C34_adjoint_of_product.

Theorem C34_trace_cyclic (C : numClosedFieldType) (A B P Q : mat C) :
  mmul A B = Ok P -> mmul B A = Ok Q -> trace P = trace Q.
Proof. by move=> /mmul_inv[h ->] /mmul_inv[h' ->]; apply: trace_mulmC. Qed.
Print Assumptions C34_trace_cyclic.

(** Concrete instance: a 2 x 1 and a 1 x 2 matrix and an int over the algebraic numbers. *)
(** The algebraic complex numbers. *)
Notation AC := [numClosedFieldType of algC].
Definition exKet : mat AC := mk 2 1 (fun i _ => i%:R).
Definition exBra : mat AC := mk 1 2 (fun _ j => 'i + j%:R).
Example C34_ex1 : exists M : mat AC, tensorProd [:: TMat exKet; TInt 3; TMat exBra] = Ok M /\
  rows M = 6%N /\ cols M = 6%N /\ ent M 4 3 = 'i + 1.
Proof.
have [M [h [h1 [h2 h3]]]] := @C34_entries _ [:: TMat exKet; TInt 3; TMat exBra] (fun e => ltac:(discriminate e)).
exists M; do 3 (split; first by []).
have := h3 [:: 1; 1; 0]%N [:: 0; 1; 1]%N isT isT => /= ->.
by rewrite !ent_mk //= mulr1 mul1r mul1r.
Qed.
Example C34_ex2 : exists P, [seq mmul p.1 p.2 | p <- zip [:: exKet; exBra] [:: exBra; exKet]] =
  [seq Ok X | X <- P] /\ size P = 2%N.
Proof. by exists [:: mulm exKet exBra; mulm exBra exKet]. Qed.

(** ** C35: composite operators *)

(** compositeOp(op, dimB, dimA) for all dimensions >= 1: shape and entries. *)
Theorem C35_entries (C : numClosedFieldType) (A : mat C) (b a : nat) :
  (0 < b)%N -> (0 < a)%N ->
  exists M, compositeOp A b a = Ok M /\
    hasShape M (b * rows A * a) (b * cols A * a) /\
    forall i1 i2 i3 j1 j2 j3,
      (i1 < b)%N -> (j1 < b)%N -> (i2 < rows A)%N -> (j2 < cols A)%N -> (i3 < a)%N -> (j3 < a)%N ->
      ent M (enc [:: b; rows A; a] [:: i1; i2; i3]) (enc [:: b; cols A; a] [:: j1; j2; j3]) =
      delta C i1 j1 * ent A i2 j2 * delta C i3 j3.
Proof.
move=> hb ha; exists (comp A b a); rewrite compositeOpE !maxn1 //.
split=> //; split; first exact: comp_shape.
by move=> *; apply: comp_ent.
Qed.
Print Assumptions C35_entries.

(** It is an injective unital *-homomorphism, linear, and multiplies the trace by
    the dimension of the rest. *)
Theorem C35_homomorphism (C : numClosedFieldType) (A B : mat C) (x : C) (b a : nat) X Y :
  (0 < b)%N -> (0 < a)%N -> compositeOp A b a = Ok X -> compositeOp B b a = Ok Y ->
  (forall P, mmul A B = Ok P -> mmul X Y = compositeOp P b a) /\
  (forall S, madd A B = Ok S -> madd X Y = compositeOp S b a) /\
  compositeOp (scalem x A) b a = Ok (scalem x X) /\
  compositeOp (hc A) b a = Ok (hc X) /\
  (forall n, isIdentity n A -> isIdentity (b * n * a) X) /\
  (rows A = cols A -> trace X = (b * a)%:R * trace A) /\
  (rows A = rows B -> cols A = cols B -> X = Y -> A = B).
Proof.
move=> hb ha; rewrite !compositeOpE !maxn1 // -!/(comp _ b a) => -[<-] [<-].
split.
  move=> P /mmul_inv[h ->]; rewrite mmulE ?comp_mul // ?compositeOpE ?maxn1 //.
  by rewrite (comp_shape A b a).2 (comp_shape B b a).1 h.
split.
  move=> S /madd_inv[h h' ->]; rewrite maddE ?comp_add ?compositeOpE ?maxn1 //.
  - by rewrite !(comp_shape _ b a).1 h.
  - by rewrite !(comp_shape _ b a).2 h'.
split; first by rewrite comp_scale.
split; first by rewrite comp_hc.
split; first by move=> n /isIdentityE ->; apply/isIdentityE; apply: comp_id.
by split; [apply: comp_trace | apply: comp_inj].
Qed.
Print Assumptions C35_homomorphism.

(** Operators of two different sub-systems commute, and their product is the
    tensor product with both in place (b, m, a: total dimensions before, between
    and after the two sub-systems). *)
Theorem C35_different_systems_commute (C : numClosedFieldType) (A B : mat C) (b m a : nat) X Y :
  (0 < b)%N -> (0 < m)%N -> (0 < a)%N -> (0 < rows A)%N -> (0 < rows B)%N ->
  rows A = cols A -> rows B = cols B ->
  compositeOp A b (m * rows B * a) = Ok X -> compositeOp B (b * rows A * m) a = Ok Y ->
  exists P, mmul X Y = Ok P /\ mmul Y X = Ok P /\
    tensorProd [:: TInt b; TMat A; TInt m; TMat B; TInt a] = Ok P.
Proof.
move=> hb hm ha hA hB sA sB; rewrite !compositeOpE !maxn1 ?muln_gt0 ?hb ?hm ?ha ?hA ?hB // => -[<-] [<-].
exists (tens [:: idm C b; A; idm C m; B; idm C a]).
have [e1 e2] := comp_two b m a sA sB.
rewrite -/(comp A b (m * rows B * a)) -/(comp B (b * rows A * m) a).
rewrite tensorProdE // !mmulE ?e1 ?e2 //.
- by rewrite (comp_shape _ _ _).1 (comp_shape _ _ _).2 -?sA -?sB !mulnA.
- by rewrite (comp_shape _ _ _).1 (comp_shape _ _ _).2 -?sA -?sB !mulnA.
Qed.
Print Assumptions C35_different_systems_commute.

(** For one square operator per sub-system, the (matrix) product of all
    embedded operators is the tensor product of the operators. *)
Theorem C35_product_of_all (C : numClosedFieldType) (As : seq (mat C)) (A0 : mat C) :
  As <> [::] -> all (fun A => (rows A == cols A) && (0 < rows A)%N) As ->
  let ds := map (@rows C) As in
  exists Es T, size Es = size As /\
    (forall k, (k < size As)%N ->
       compositeOp (nth A0 As k) (prodn (take k ds)) (prodn (drop k.+1 ds)) = Ok (nth A0 Es k)) /\
    tensorProd (map (@TMat C) As) = Ok T /\ matMulInputs Es = Ok T.
Proof.
move=> h hs ds.
have m Ms : map (@targMat C) (map (@TMat C) Ms) = Ms by elim: Ms => //= M Ms ->.
have sq : all (fun A => rows A == cols A) As by apply: sub_all hs => A /andP[].
have pos : all (fun d => 0 < d)%N ds by rewrite all_map; apply: sub_all hs => A /andP[].
have pp es : all (fun d => 0 < d)%N es -> (0 < prodn es)%N.
  by elim: es => // e es IH /andP[he /IH h']; rewrite prodn_cons muln_gt0 he.
exists (embedAll 1 As), (tens As).
rewrite size_embedAll embedAll_mul // kron1m tensorProdE; last by move: h; case: (As).
rewrite m; split=> //; split=> // k hk; rewrite (nth_embedAll A0 A0 1 hk) mul1n compositeOpE !maxn1 //.
- by apply: pp; apply/allP => x /mem_drop; apply: (allP pos).
- by apply: pp; apply/allP => x /mem_take; apply: (allP pos).
Qed.
Print Assumptions C35_product_of_all.

Definition exOp : mat AC := mk 2 2 (fun i j => (i + j)%:R).
Example C35_ex : all (fun A : mat AC => (rows A == cols A) && (0 < rows A)%N) [:: exOp; idm _ 3; exOp].
Proof. by []. Qed.
