(** C37-C40 and C50: vectorisation, super-operators, Liouvillian, gates on
    open systems and open evolution. *)
From mathcomp Require Import all_ssreflect all_algebra all_field.
From Verif Require Py.
From Verif Require Import MatModel OperModel StateModel EvolModel MatLib MatSpec MatProofs CField OperProofs GateProofs ExpmInst EvolSpec EvolProofs.
Set Implicit Arguments.
Unset Strict Implicit.
Unset Printing Implicit Defensive.
Import GRing.Theory Num.Theory.
Local Open Scope ring_scope.

Notation AC := [numClosedFieldType of algC].

(** ** C37: vectorisation *)
Theorem C37_round_trip (C : numClosedFieldType) (n : nat) :
  (forall M : mat C, square n M ->
     exists v, mat2Vec M = Ok v /\ hasShape v (n * n) 1 /\ vec2Mat v = Ok M) /\
  (forall v : mat C, hasShape v (n * n) 1 ->
     exists M, vec2Mat v = Ok M /\ square n M /\ mat2Vec M = Ok v).
Proof.
split=> [M hM|v hv].
  have hs : hasShape (vecm M) (n * n) 1 by case: hM => h1 h2; split; rewrite /= ?h1 ?h2.
  by exists (vecm M); rewrite mat2VecE (vec2MatE hs) unvecK.
by exists (unvecm n v); rewrite (vec2MatE hv) mat2VecE vecK.
Qed.
Print Assumptions C37_round_trip.

(** Columns are stacked: entry [i, j] of an [r]x[c] matrix is entry [j*r + i] of the vector. *)
Theorem C37_column_stacking (C : numClosedFieldType) (r c : nat) (M : mat C) :
  hasShape M r c -> exists v, mat2Vec M = Ok v /\ hasShape v (r * c) 1 /\
    forall i j, (i < r)%N -> (j < c)%N -> ent v (j * r + i) 0 = ent M i j.
Proof.
move=> [<- <-]; exists (vecm M); rewrite mat2VecE; do 2 split=> //; move=> i j hi hj.
rewrite ent_vecm idx_mod // idx_div //.
have -> : (j * rows M + i < rows M * cols M)%N.
  apply: (@leq_trans (j.+1 * rows M)%N); last by rewrite mulnC leq_mul2l hj orbT.
  by rewrite mulSn addnC ltn_add2r.
by [].
Qed.
Print Assumptions C37_column_stacking.

Theorem C37_linear (C : numClosedFieldType) (r c : nat) (M N : mat C) (a b : C) S u v :
  hasShape M r c -> hasShape N r c -> madd (scalem a M) (scalem b N) = Ok S ->
  mat2Vec M = Ok u -> mat2Vec N = Ok v ->
  exists w, mat2Vec S = Ok w /\ madd (scalem a u) (scalem b v) = Ok w.
Proof.
move=> [m1 m2] [n1 n2]; rewrite !mat2VecE => /madd_inv[_ _ ->] [<-] [<-].
exists (addm (scalem a (vecm M)) (scalem b (vecm N))).
rewrite maddE /= ?m1 ?m2 ?n1 ?n2 //; split=> //; congr Ok.
apply: mat_ext => /=; rewrite ?m1 ?m2 // => k j hk hj; case: j hj => // _.
rewrite ent_vecm /= m1 m2 hk ent_addm /= ?m1 ?m2 ?n1 ?n2 // [RHS]ent_addm /= ?m1 ?m2 ?n1 ?n2 // !ent_scalem.
by rewrite !ent_vecm m1 m2 n1 n2 hk.
Qed.
Print Assumptions C37_linear.

(** The inner product of vectors is the trace of [hc(N) M]. *)
Theorem C37_inner_product (C : numClosedFieldType) (n : nat) (M N : mat C) u v :
  square n M -> square n N -> mat2Vec M = Ok u -> mat2Vec N = Ok v ->
  exists p, innerProd u (Some v) = Ok p /\ exists P, mmul (hc N) M = Ok P /\ p = trace P.
Proof.
move=> [m1 m2] [n1 n2]; rewrite !mat2VecE => -[<-] [<-]; rewrite /innerProd mmulE /= ?m1 ?m2 ?n1 ?n2 //.
eexists; split; first by []; exists (mulm (hc N) M); split; first by rewrite mmulE //= n1.
rewrite !trace_sq /= ?n2 ?m2 // big_ord1 ent_mulm /= n1 n2.
transitivity (\sum_(k < n * n) (ent N (k %% n) (k %/ n))^* * ent M (k %% n) (k %/ n)).
  by apply: eq_bigr => k _; rewrite ent_hc !ent_vecm m1 m2 n1 n2 ltn_ord.
rewrite (sum_divmod n n (fun a b => (ent N b a)^* * ent M b a)); apply: eq_bigr => a _.
by rewrite ent_mulm /= n1; apply: eq_bigr => b _; rewrite ent_hc.
Qed.
Print Assumptions C37_inner_product.

(** A vector whose length is not a square number is refused. *)
Theorem C37_bad_length (C : numClosedFieldType) (v : mat C) :
  cols v = 1%N -> (forall n, rows v <> (n * n)%N) -> vec2Mat v = Err Py.ValueError.
Proof.
move=> h1 h; rewrite /vec2Mat /reshape h1 muln1; case: eqP => [e|//].
by case: (h (PeanoNat.Nat.sqrt (rows v))).
Qed.
Print Assumptions C37_bad_length.

Example C37_ex : exists M v : mat AC, square 2 M /\ ent M 0 1 = 5%:R /\ mat2Vec M = Ok v /\ ent v 2 0 = 5%:R.
Proof.
exists (mk 2 2 (fun i j => if (i == 0%N) && (j == 1%N) then 5%:R else 0)); eexists.
split; first by []; split; first by rewrite ent_mk.
by rewrite mat2VecE; split; first by []; rewrite ent_vecm /= ent_mk.
Qed.
Example C37_ex_length : forall n, 3%N <> (n * n)%N.
Proof. by case=> [|[|n]] //; rewrite !mulSn !addSn !addnS. Qed.

(** ** C38: left and right multiplication *)
Theorem C38_superoperators (C : numClosedFieldType) (n : nat) (A B rho : mat C) :
  square n A -> square n B -> square n rho ->
  isMatrix n (prod2 n A rho) (applySO (preSO A None) rho) /\
  isMatrix n (prod2 n rho B) (applySO (postSO B None) rho) /\
  isMatrix n (prod3 n A rho B) (applySO (prepostSO A (Some B)) rho).
Proof.
move=> hA hB hr; have [a1 a2] := hA; have [b1 b2] := hB; have [r1 r2] := hr.
split; last split; apply: applyM => //; rewrite ?/preSO ?/postSO ?a1 ?b1; first (by split; rewrite /= ?a1 ?a2);
  try (by split; rewrite /= ?b1 ?b2 ?a1 ?a2); move=> i j hi hj.
- by rewrite act_pre // (@prod2E C n).
- by rewrite act_post // (@prod2E C n).
- by rewrite act_kron // (@prod3E C n).
Qed.
Print Assumptions C38_superoperators.

(** The same in terms of products: [pre(A)] then [post(B)], in either order, is
    [prepost(A, B)], and [pre] turns products into products, [post] reverses them. *)
Theorem C38_composition (C : numClosedFieldType) (n : nat) (A B AB : mat C) :
  square n A -> square n B -> mmul A B = Ok AB ->
  mmul (preSO A None) (postSO B None) = Ok (prepostSO A (Some B)) /\
  mmul (postSO B None) (preSO A None) = Ok (prepostSO A (Some B)) /\
  mmul (preSO A None) (preSO B None) = Ok (preSO AB None) /\
  mmul (postSO B None) (postSO A None) = Ok (postSO AB None).
Proof.
move=> [a1 a2] [b1 b2] /mmul_inv[_ ->]; rewrite /preSO /postSO /prepostSO /= a1 b1.
split; [|split; [|split]]; rewrite mmulE /= ?a1 ?a2 ?b1 ?b2 // kron_mulm /= ?a1 ?a2 ?b1 ?b2 //.
- by rewrite mul1m /= ?b2 // mulm1.
- by rewrite mulm1 /= ?b1 // mul1m.
- by rewrite mul1m.
- by rewrite -trm_mulm ?a2 ?b1 // mul1m.
Qed.
Print Assumptions C38_composition.

Theorem C38_default_is_same_operator (C : numClosedFieldType) (n : nat) (A rho : mat C) :
  square n A -> square n rho -> isMatrix n (prod3 n A rho A) (applySO (prepostSO A None) rho).
Proof. by move=> hA hr; have [_ [_ h]] := C38_superoperators hA hA hr. Qed.
Print Assumptions C38_default_is_same_operator.

Example C38_ex : square 3 (idm AC 3) /\ square 2 (scalem 'i (idm AC 2)). Proof. by []. Qed.

(** ** C39: the Lindblad generator *)
Theorem C39_lindblad (C : numClosedFieldType) (n : nat) (H : mat C) (cs : seq (mat C)) (rates : seq C) :
  (0 < n)%N -> square n H -> (forall c, List.In c cs -> square n c) -> (size cs <= size rates)%N ->
  exists L, Liouvillian (Some H) (CList (map (@COp C) cs)) (Some rates) false = Ok L /\ square (n * n) L /\
    forall rho, square n rho -> isMatrix n (lindblad n H (zip cs rates) rho) (applySO L rho).
Proof.
move=> hn hH hcs hsz; rewrite (LiouvillianE _ _ _ hn hH).
have [|L [h1 [h2 h3]]] := @loopE C n rates false cs 0 (hamm n H) (hamm_sq n H) _ hsz.
  by move=> c /hcs; left.
exists L; split=> //; split=> // rho hr; apply: applyM => // i j hi hj.
rewrite h3 // act_hamm // /lindblad drop0; congr (_ + _).
elim: cs rates hcs {hsz h1 h3} => [|c cs IH] [|r rates] hcs; rewrite /= ?big_nil //.
rewrite !big_cons /= IH; last by move=> c' h; apply: hcs; right.
congr (_ + _); rewrite /contribution (proj1 (hcs c (or_introl erefl))) eqxx.
by rewrite mul1r.
Qed.
Print Assumptions C39_lindblad.

(** Operators of the squared size are used as super-operators, and [_double]
    doubles the dissipation of the others. *)
Theorem C39_super_operators (C : numClosedFieldType) (n : nat) (H : mat C) (cs : seq (mat C)) (rates : seq C) (double : bool) :
  (0 < n)%N -> square n H -> (forall c, List.In c cs -> square n c \/ square (n * n) c) ->
  (size cs <= size rates)%N ->
  exists L, Liouvillian (Some H) (CList (map (@COp C) cs)) (Some rates) double = Ok L /\ square (n * n) L /\
    forall rho, square n rho ->
      isMatrix n (fun i j => hamiltonianPart n H rho i j +
                   \sum_(p <- zip cs rates) p.2 * contribution n double p.1 rho i j) (applySO L rho).
Proof.
move=> hn hH hcs hsz; rewrite (LiouvillianE _ _ _ hn hH).
have [L [h1 [h2 h3]]] := @loopE C n rates double cs 0 (hamm n H) (hamm_sq n H) hcs hsz.
exists L; split=> //; split=> // rho hr; apply: applyM => // i j hi hj.
by rewrite h3 // act_hamm // drop0.
Qed.
Print Assumptions C39_super_operators.

(** Without rates all rates are 1, whatever the list of collapse operators;
    an empty list of rates switches all dissipation off; without a Hamiltonian
    the generator is that of the zero Hamiltonian. *)
Theorem C39_default_rates (C : numClosedFieldType) (H : option (mat C)) (l : seq (cop C)) (double : bool) :
  Liouvillian H (CList l) None double = Liouvillian H (CList l) (Some (nseq (size l) 1)) double.
Proof.
rewrite /Liouvillian; case: (match H with Some _ => _ | None => _ end) => //= n.
case: zerosMat => //= z; case: (match H with Some _ => _ | None => _ end) => //= L.
exact: loop_ones.
Qed.
Print Assumptions C39_default_rates.

Theorem C39_empty_rates (C : numClosedFieldType) (n : nat) (H : mat C) (cs : seq (mat C)) (double : bool) :
  (0 < n)%N -> square n H -> (forall c, List.In c cs -> square n c) ->
  Liouvillian (Some H) (CList (map (@COp C) cs)) (Some [::]) double = Liouvillian (Some H) CNone None double.
Proof.
move=> hn hH hcs; rewrite !(LiouvillianE _ _ _ hn hH).
elim: cs (0%N) (hamm n H) hcs => //= c cs IH idx L hcs.
by rewrite stepE /=; [apply: IH => c' h; apply: hcs; right | left; apply: hcs; left].
Qed.
Print Assumptions C39_empty_rates.

Theorem C39_no_hamiltonian (C : numClosedFieldType) (n : nat) (c : mat C) (cs : seq (mat C)) rates double :
  (0 < n)%N -> square n c ->
  Liouvillian None (CList (map (@COp C) (c :: cs))) rates double =
  Liouvillian (Some (zerom C n n)) (CList (map (@COp C) (c :: cs))) rates double.
Proof.
move=> hn hc'; rewrite (@LiouvillianE C n) // [map _ _]/= (@LiouvillianNE C n) //.
congr (liouvLoop _ _ _ _ _ _ _); apply: mat_ext => //=; rewrite ?mulnn // => i j hi hj.
rewrite ent_zerom ent_addm /= ?mulnn // ent_zerom add0r ent_scalem ent_subm //=.
rewrite !ent_kron_in /= ?mulnn //.
by rewrite ent_trm !ent_zerom mulr0 mul0r subrr mulr0.
Qed.
Print Assumptions C39_no_hamiltonian.

(** Errors: nothing given, too few rates, wrong size. *)
Theorem C39_errors (C : numClosedFieldType) (n : nat) (H c : mat C) (r : C) rates double :
  (0 < n)%N -> square n H -> square n c ->
  Liouvillian None (@CNone C) rates double = Err Py.UnboundLocalError /\
  Liouvillian None (CList [::]) rates double = Err Py.IndexError /\
  Liouvillian (Some H) (CList [:: COp c; COp c]) (Some [:: r]) double = Err Py.IndexError /\
  (forall M, rows M <> n -> rows M <> (n * n)%N ->
     Liouvillian (Some H) (CList [:: COp M]) rates double = Err Py.ValueError).
Proof.
move=> hn hH hc'; do 2 (split; first by []).
rewrite !(LiouvillianE _ _ _ hn hH); split.
  have hp := part_sq double (or_introl hc' : copOk n c).
  rewrite /= stepE /=; last by left.
  rewrite maddE /=; last 2 first.
  - by rewrite (proj1 hp) mulnn.
  - by rewrite (proj2 hp) mulnn.
  by rewrite stepE /=; last by left.
move=> M h1 h2; rewrite (LiouvillianE _ _ _ hn hH) /= /liouvStep /=.
by case: eqP => // _; rewrite -mulnn; case: eqP.
Qed.
Print Assumptions C39_errors.

(** The documented form of a collapse operator as a pair [(A, B)] always fails. *)
Theorem C39_pairs_refuted (C : numClosedFieldType) (n : nat) (H : mat C) (cs : seq (mat C)) (A B : mat C)
    (rest : seq (cop C)) (double : bool) :
  (0 < n)%N -> square n H -> (forall c, List.In c cs -> square n c) ->
  Liouvillian (Some H) (CList (map (@COp C) cs ++ CTup A B :: rest)) None double = Err Py.AttributeError.
Proof.
move=> hn hH hcs; rewrite (LiouvillianE _ _ _ hn hH).
have : square (n * n) (hamm n H) by exact: hamm_sq.
elim: cs (0%N) (hamm n H) hcs => //= c cs IH idx L hcs hL.
have hc' : copOk n c by left; apply: hcs; left.
have hp := part_sq double hc'.
rewrite stepE //; case: hL hp => l1 l2 [p1 p2]; rewrite maddE ?l1 ?l2 ?p1 ?p2 //=.
by apply: IH => // c' h; apply: hcs; right.
Qed.
Print Assumptions C39_pairs_refuted.

(** The generator changes no trace, and for a Hermitian Hamiltonian and real
    rates it commutes with taking the adjoint. *)
Theorem C39_trace_hermiticity (C : numClosedFieldType) (n : nat) (H : mat C) (cs : seq (mat C)) (rates : seq C) L :
  (0 < n)%N -> square n H -> (forall c, List.In c cs -> square n c) -> (size cs <= size rates)%N ->
  Liouvillian (Some H) (CList (map (@COp C) cs)) (Some rates) false = Ok L ->
  forall rho, square n rho -> exists R, applySO L rho = Ok R /\ square n R /\ trace R = 0 /\
    (hermitian n H -> (forall r, r \in rates -> r^* = r) -> applySO L (hc rho) = Ok (hc R)).
Proof.
move=> hn hH hcs hsz hL rho hr.
have [L' [e [sL h]]] := C39_lindblad hn hH hcs hsz.
move: e; rewrite hL => -[e]; subst L'.
have [R [h1 [h2 h3]]] := h rho hr; exists R; split=> //; split=> //; split.
  rewrite trace_sq ?(proj1 h2) ?(proj2 h2) // -[RHS](lindblad_trace n H (zip cs rates) rho).
  by apply: eq_bigr => i _; rewrite h3.
move=> hherm hreal.
have hr' : square n (hc rho) by case: hr => r1 r2; split.
have [R' [g1 [g2 g3]]] := h _ hr'; rewrite g1; congr Ok.
apply: mat_ext; rewrite /= ?(proj1 g2) ?(proj2 g2) ?(proj1 h2) ?(proj2 h2) // => i j hi hj.
rewrite g3 // ent_hc h3 //; apply: lindblad_hc => // p hp; apply: (hreal p).
move: hp; clear hcs hsz hL h h3 g3 hreal; elim: cs rates => [|c cs IH] [|r rates] //=.
by rewrite !inE => /orP[->//|/IH ->]; rewrite orbT.
Qed.
Print Assumptions C39_trace_hermiticity.

(** The same for a step of the evolution, i.e. the exponential of the generator. *)
Theorem C39_exponential (C : numClosedFieldType) expm (n : nat) (H : mat C) (cs : seq (mat C)) (rates : seq C) (t : C) :
  expmTotal expm -> expmFixes expm -> expmConj expm -> expmSimilar expm ->
  (0 < n)%N -> square n H -> (forall c, List.In c cs -> square n c) -> (size cs <= size rates)%N ->
  exists E, LiouvillianExp expm (Some H) t (CList (map (@COp C) cs)) (Some rates) true false = Ok E /\
    square (n * n) E /\
    forall rho, square n rho -> exists R, applySO E rho = Ok R /\ square n R /\ trace R = trace rho /\
      (hermitian n H -> t^* = t -> (forall r, r \in rates -> r^* = r) -> applySO E (hc rho) = Ok (hc R)).
Proof.
move=> eT eF eC eS hn hH hcs hsz.
have [L [hL [sL _]]] := C39_lindblad hn hH hcs hsz.
have hT := C39_trace_hermiticity hn hH hcs hsz hL.
have sM : square (n * n) (scalem t L) by case: sL => s1 s2; split.
have [E [hE sE]] := eT _ _ sM.
exists E; split; first by rewrite /LiouvillianExp /= hL.
split=> // rho hr; exists (unvecm n (mulm E (vecm rho))); rewrite (applyE sE hr); do 2 split=> //.
have [e1 e2] := sE; have [l1 l2] := sL; have [r1 r2] := hr; split.
  have wE : mulm (wv C n) E = wv C n.
    have hw : mmul (wv C n) (scalem t L) = Ok (zerom C 1 (n * n)).
      rewrite mmulE /= ?l1 // scalemAr wv_null //; last first.
        by move=> rho' hr'; have [R [+ [_ [h _]]]] := hT rho' hr'; rewrite (applyE sL hr') => -[->].
      by congr Ok; apply: mat_ext => // i j _ _; rewrite ent_scalem ent_zerom mulr0.
    have := eF _ _ _ (wv C n) sM hE (conj erefl erefl) hw.
    by move=> /mmul_inv[_ <-].
  rewrite -wv_tr; last by split.
  rewrite mulmA wE wv_tr; last by split; rewrite /= ?r1 ?r2.
  by rewrite unvecK.
move=> hherm ht hreal.
have hL' : conjm L = mulm (mulm (swapm C n) L) (swapm C n).
  apply: herm_pres => // rho' hr'.
  have [R [h1 [h2 [_ h3]]]] := hT rho' hr'.
  have sr' : square n (hc rho') by case: hr' => q1 q2; split.
  move: h1 (h3 hherm hreal); rewrite (applyE sL hr') (applyE sL sr') => /(@Ok_inj _ _ _) -> /(@Ok_inj _ _ _) <-.
  by rewrite vecK //; split.
have hE' : conjm E = mulm (mulm (swapm C n) E) (swapm C n).
  have hs : mmul (swapm C n) (swapm C n) = Ok (idm C (n * n)) by rewrite mmulE // swap_swap.
  have ss : square (n * n) (swapm C n) by [].
  have := eS _ _ _ _ _ sM hE ss ss hs hs.
  have -> : mulm (mulm (swapm C n) (scalem t L)) (swapm C n) = conjm (scalem t L).
    by rewrite scalemAr scalemAl conj_scalem ht hL'.
  by rewrite (eC _ _ _ sM hE) => /(@Ok_inj _ _ _).
have sr : square n (hc rho) by split.
rewrite (applyE sE sr) (herm_pres_inv sE hE' hr) unvecK //; by split.
Qed.
Print Assumptions C39_exponential.

(** The assumptions on [expm] are satisfiable by a function that is not constant
    (see C60_ex_oracle). *)
Example C39_ex_oracle (C : numClosedFieldType) :
  expmTotal (@cayley C) /\ expmFixes (@cayley C) /\ expmConj (@cayley C) /\ expmSimilar (@cayley C).
Proof.
split; last split; last split.
- by move=> n A /square_Mat[D ->]; exists (Mat (cay D)); rewrite cayleyE.
- move=> n A E w /square_Mat[D ->]; rewrite cayleyE => -[<-] /hasShape_Mat[v ->].
  rewrite !mmulE //= !mulm_Mat zerom_Mat => /(@Ok_inj _ _ _) /(@Mat_inj _ _ _ _ _) h.
  by rewrite cay_fix.
- move=> n A E /square_Mat[D ->]; rewrite cayleyE => -[<-].
  by rewrite !conj_Mat cayleyE cay_conj.
- move=> n A E P Q /square_Mat[D ->]; rewrite cayleyE => -[<-] /square_Mat[p ->] /square_Mat[q ->].
  rewrite !mmulE // !mulm_Mat idm_Mat => /(@Ok_inj _ _ _) /(@Mat_inj _ _ _ _ _) h1 /(@Ok_inj _ _ _) /(@Mat_inj _ _ _ _ _) h2.
  by rewrite cayleyE cay_sim.
Qed.
Example C39_ex (H c : mat AC) : square 2 H -> square 2 c ->
  exists L, Liouvillian (Some H) (CList [:: COp c; COp H]) (Some [:: 1; 2%:R]) false = Ok L.
Proof.
move=> hH hc'; have [|L [h _]] := @C39_lindblad AC 2 H [:: c; H] [:: 1; 2%:R] isT hH _ isT.
  by move=> x [<-//|[<-//|[]]].
by exists L.
Qed.
