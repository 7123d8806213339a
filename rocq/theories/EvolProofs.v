(** Proofs about vectorisation and super-operators. *)
From mathcomp Require Import all_ssreflect all_algebra.
From Verif Require Py.
From Verif Require Import MatModel OperModel StateModel EvolModel MatLib MatSpec MatProofs EvolSpec CField.
Set Implicit Arguments.
Unset Strict Implicit.
Unset Printing Implicit Defensive.
Import GRing.Theory Num.Theory.
Local Open Scope ring_scope.

Section Proofs.
Variable C : numClosedFieldType.
Implicit Types A B D X : mat C.

Add Field Cf : (@C_field C).
Ltac cring := cnorm1 C; ring.

Lemma Ok_inj (X : Type) (x y : X) : Ok x = Ok y -> x = y.
Proof. by case. Qed.

(** ** Vectorisation *)
Definition vecm A : mat C := mk (rows A * cols A) 1 (fun k _ => ent A (k %% rows A) (k %/ rows A)).
Definition unvecm n (v : mat C) : mat C := mk n n (fun i j => ent v (j * n + i) 0).

Lemma mat2VecE A : mat2Vec A = Ok (vecm A).
Proof.
rewrite /mat2Vec /reshape /= muln1 [(cols A * rows A)%N]mulnC eqxx; congr Ok.
by apply: mk_ext => // k j hk hj; case: j hj => // _; rewrite /flat muln1 addn0 ent_trm.
Qed.

Lemma vec2MatE n (v : mat C) : hasShape v (n * n) 1 -> vec2Mat v = Ok (unvecm n v).
Proof.
move=> [hr hc]; rewrite /vec2Mat hr PeanoNat.Nat.sqrt_square /reshape hr hc muln1 eqxx /=; congr Ok.
apply: mat_ext => // i j hi hj; rewrite ent_trm !ent_mk // /flat hc divn1 modn1 //.
Qed.

Lemma ent_vecm A k : ent (vecm A) k 0 = if (k < rows A * cols A)%N then ent A (k %% rows A) (k %/ rows A) else 0.
Proof. by rewrite ent_mkE andbT. Qed.

Lemma idx_lt n i j : (i < n)%N -> (j < n)%N -> (j * n + i < n * n)%N.
Proof.
move=> hi hj; apply: (@leq_trans (j.+1 * n)%N); last by rewrite leq_mul2r hj orbT.
by rewrite mulSn addnC ltn_add2r.
Qed.
Lemma idx_mod n i j : (i < n)%N -> ((j * n + i) %% n = i)%N.
Proof. by move=> hi; rewrite modnMDl modn_small. Qed.
Lemma idx_div n i j : (i < n)%N -> ((j * n + i) %/ n = j)%N.
Proof. by move=> hi; rewrite divnMDl ?divn_small ?addn0 //; case: n hi. Qed.

Lemma unvecK n A : square n A -> unvecm n (vecm A) = A.
Proof.
move=> [hr hc]; apply: mat_ext => // i j /= hi hj.
by rewrite ent_mk // ent_vecm hr hc idx_lt // idx_mod // idx_div.
Qed.

Lemma vecK n (v : mat C) : hasShape v (n * n) 1 -> vecm (unvecm n v) = v.
Proof.
move=> [hr hc]; apply: mat_ext => //= k j hk hj.
rewrite (_ : j = 0%N); last by case: j hj.
rewrite ent_vecm /= hk ent_mk ?ltn_pmod ?ltn_divLR //; first by rewrite -divn_eq.
- by case: n hk {hr}.
- by case: n hk {hr}.
Qed.

(** ** Super-operators *)
Lemma vec_kron A B X : cols A = rows X -> cols X = rows B ->
  mulm (kron (trm B) A) (vecm X) = vecm (mulm (mulm A X) B).
Proof.
move=> h1 h2; apply: mat_ext; rewrite /= ?[(cols B * _)%N]mulnC // => k j hk hj.
rewrite (_ : j = 0%N); last by case: j hj.
rewrite ent_mulm ent_vecm /= hk ent_mulm.
transitivity (\sum_(l < rows B * cols A) ent (trm B) (k %/ rows A) (l %/ cols A) * ent A (k %% rows A) (l %% cols A) * ent X (l %% cols A) (l %/ cols A)).
  apply: eq_bigr => l _; rewrite ent_kron_in //= ?[(cols B * _)%N]mulnC // ent_vecm -h1 h2 [(cols A * _)%N]mulnC.
  by rewrite ltn_ord.
rewrite (sum_divmod (rows B) (cols A) (fun a b => ent (trm B) (k %/ rows A) a * ent A (k %% rows A) b * ent X b a)).
rewrite h2; apply: eq_bigr => a _; rewrite ent_mulm big_distrl /=; apply: eq_bigr => b _.
by rewrite ent_trm; cring.
Qed.

(** Entries of the matrix a super-operator produces. *)
Definition act n (S rho : mat C) i j : C := ent (mulm S (vecm rho)) (j * n + i) 0.

Lemma applyE n S rho : square (n * n) S -> square n rho -> applySO S rho = Ok (unvecm n (mulm S (vecm rho))).
Proof.
by move=> [sr sc] [rr rc]; rewrite /applySO mat2VecE /= mmulE /= ?sc ?rr ?rc //= (@vec2MatE n).
Qed.

Lemma applyM n S rho f : square (n * n) S -> square n rho ->
  (forall i j, (i < n)%N -> (j < n)%N -> act n S rho i j = f i j) -> isMatrix n f (applySO S rho).
Proof.
move=> hS hr h; rewrite (applyE hS hr); eexists; split; first by [].
by split=> // i j hi hj; rewrite ent_mk // -h.
Qed.

Lemma act_kron n A B rho i j : square n A -> square n B -> square n rho -> (i < n)%N -> (j < n)%N ->
  act n (kron (trm B) A) rho i j = ent (mulm (mulm A rho) B) i j.
Proof.
move=> [a1 a2] [b1 b2] [r1 r2] hi hj.
rewrite /act vec_kron ?a2 ?r1 ?r2 ?b1 // ent_vecm /= a1 b2 idx_lt // idx_mod // idx_div //.
Qed.

Lemma act_add n S T rho i j : rows S = rows T -> cols S = cols T ->
  act n (addm S T) rho i j = act n S rho i j + act n T rho i j.
Proof. by move=> hr hc; rewrite /act mulmDl // ent_addm. Qed.

Lemma act_sub n S T rho i j : rows S = rows T -> cols S = cols T ->
  act n (subm S T) rho i j = act n S rho i j - act n T rho i j.
Proof. by move=> hr hc; rewrite /act mulmBl // ent_subm. Qed.

Lemma act_scale n a S rho i j : act n (scalem a S) rho i j = a * act n S rho i j.
Proof. by rewrite /act scalemAl ent_scalem. Qed.

Lemma trm_idm n : trm (idm C n) = idm C n.
Proof. by apply: mat_ext => // i j hi hj; rewrite ent_trm !ent_mk // eq_sym. Qed.

Lemma act_pre n A rho i j : square n A -> square n rho -> (i < n)%N -> (j < n)%N ->
  act n (kron (idm C n) A) rho i j = ent (mulm A rho) i j.
Proof.
move=> hA hr hi hj; rewrite -trm_idm act_kron //; congr ent; case: hA hr => [_ _] [_ hr].
by rewrite mulm1 //= hr.
Qed.

Lemma act_post n A rho i j : square n A -> square n rho -> (i < n)%N -> (j < n)%N ->
  act n (kron (trm A) (idm C n)) rho i j = ent (mulm rho A) i j.
Proof.
by move=> hA hr hi hj; rewrite act_kron //; case: hr => [hr _]; rewrite mul1m.
Qed.

Lemma prod2E n A B i j : cols A = n -> ent (mulm A B) i j = prod2 n A B i j.
Proof. by move=> <-; rewrite ent_mulm. Qed.

Lemma prod3E n A B D i j : cols A = n -> cols B = n -> ent (mulm (mulm A B) D) i j = prod3 n A B D i j.
Proof.
move=> h1 h2; rewrite ent_mulm /= h2 /prod3 [RHS]exchange_big /=; apply: eq_bigr => l _.
by rewrite ent_mulm h1 big_distrl.
Qed.

Lemma zerosMatE n : (0 < n)%N -> zerosMat C n = Ok (zerom C n n).
Proof.
case: n => // n _; rewrite /zerosMat /csc /=; congr Ok; apply: mk_ext => // i j _ _.
by rewrite big_cons big_nil; case: ifP => _; rewrite ?addr0.
Qed.

(** ** The Liouvillian *)
Definition dissm n (k : C) (c : mat C) : mat C :=
  scalem k (subm (kron (trm (hc c)) c)
    (scalem (1 / 2%:R) (addm (kron (idm C n) (mulm (hc c) c)) (kron (trm (mulm (hc c) c)) (idm C n))))).

Lemma dissipatorE n c db : square n c ->
  dissipator c None (Some (idm C n)) db = Ok (dissm n (1 + (nat_of_bool db)%:R) c).
Proof.
move=> [hr hcl]; rewrite /dissipator /= mmulE //= maddE /= ?hr ?hcl //= msubE //= ?hr ?hcl //.
Qed.

Lemma dissipatorNE c db : rows c = cols c ->
  dissipator c None None db = Ok (dissm (rows c) (1 + (nat_of_bool db)%:R) c).
Proof. by move=> h; rewrite -(@dissipatorE (rows c)). Qed.

Lemma dissm_sq n k c : square n c -> square (n * n) (dissm n k c).
Proof. by move=> [hr hcl]; split; rewrite /= ?hr ?hcl. Qed.

Lemma act_dissm n k c rho i j : square n c -> square n rho -> (i < n)%N -> (j < n)%N ->
  act n (dissm n k c) rho i j = k * dissipation n c rho i j.
Proof.
move=> hc' hr hi hj; have [cr cc] := hc'; have [rr rc] := hr.
have hN : square n (mulm (hc c) c) by split=> /=.
rewrite /dissm act_scale act_sub /= ?cr ?cc // act_scale act_add /= ?cr ?cc //.
rewrite act_kron // act_pre // act_post // /dissipation; congr (_ * (_ - _ * (_ + _))).
- rewrite (prod3E _ _ _ cc rc) /prod3; apply: eq_bigr => k' _; apply: eq_bigr => l _.
  by rewrite ent_hc.
- rewrite (@prod3E n) //= /prod3; apply: eq_bigr => k' _; apply: eq_bigr => l _.
  by rewrite ent_hc.
- rewrite mulmA (@prod3E n) //= /prod3; apply: eq_bigr => k' _; apply: eq_bigr => l _.
  by rewrite ent_hc.
Qed.

Lemma act_sup n S rho i j : square (n * n) S -> square n rho -> (i < n)%N -> (j < n)%N ->
  act n S rho i j = \sum_(k < n) \sum_(l < n) ent S (j * n + i) (l * n + k) * ent rho k l.
Proof.
move=> [s1 s2] [r1 r2] hi hj; rewrite /act ent_mulm s2 exchange_big /=.
rewrite -(sum_divmod n n (fun l k => ent S (j * n + i) (l * n + k) * ent rho k l)).
by apply: eq_bigr => l _; rewrite ent_vecm r1 r2 ltn_ord -divn_eq.
Qed.

Definition copOk n (M : mat C) : Prop := square n M \/ square (n * n) M.

Definition part n db (M : mat C) : mat C := if rows M == n then dissm n (1 + (nat_of_bool db)%:R) M else M.

Lemma part_sq n db M : copOk n M -> square (n * n) (part n db M).
Proof.
rewrite /part => -[h|h]; case: eqP => [e|ne] //.
- exact: dissm_sq.
- by case: h => h _; case: ne.
- case: h => h1 h2; apply: dissm_sq; split=> //; by rewrite h2 -h1.
Qed.

Lemma act_part n db M rho i j : copOk n M -> square n rho -> (i < n)%N -> (j < n)%N ->
  act n (part n db M) rho i j = contribution n db M rho i j.
Proof.
move=> h hr hi hj; rewrite /part /contribution; case: eqP => [e|ne].
  have hM : square n M by case: h => // -[h1 h2]; split=> //; rewrite h2 -h1.
  by rewrite act_dissm //; case: db; rewrite /= ?addr0 -?natr1.
by case: h => [[h _]|h]; [case: ne | rewrite act_sup].
Qed.

Lemma stepE n rates db L idx M : copOk n M ->
  liouvStep n (idm C n) rates db L idx (COp M) =
  match rates with
  | None => madd L (part n db M)
  | Some rs => if size rs != 0%N then
                 match ohead (drop idx rs) with
                 | Some r => madd L (scalem r (part n db M))
                 | None => Err Py.IndexError
                 end
               else Ok L
  end.
Proof.
move=> h; rewrite /liouvStep /part /=; case: eqP => [e|ne].
  have hM : square n M by case: h => // -[h1 h2]; split=> //; rewrite h2 -h1.
  by rewrite dissipatorE.
case: h => [[h _]|[h _]]; first by case: ne.
by rewrite h mulnn eqxx.
Qed.

Lemma loopE n rates db : forall cs idx L, square (n * n) L -> (forall c, List.In c cs -> copOk n c) ->
  (idx + size cs <= size rates)%N ->
  exists L', liouvLoop n (idm C n) (Some rates) db L idx (map (@COp C) cs) = Ok L' /\ square (n * n) L' /\
    forall rho i j, square n rho -> (i < n)%N -> (j < n)%N ->
      act n L' rho i j = act n L rho i j + \sum_(p <- zip cs (drop idx rates)) p.2 * contribution n db p.1 rho i j.
Proof.
elim=> [|c cs IH] idx L hL hcs hsz.
  by exists L; do 2 split=> //; move=> rho i j _ _ _; case: (drop _ _) => [|? ?]; rewrite big_nil addr0.
have hc' : copOk n c by apply: hcs; left.
have hlt : (idx < size rates)%N by apply: leq_trans hsz; rewrite addnS ltnS leq_addr.
have hp := part_sq db hc'.
have hadd : square (n * n) (addm L (scalem (nth 0 rates idx) (part n db c))).
  by case: hL => h1 h2; split.
have [|L' [h1 [h2 h3]]] := IH idx.+1 _ hadd (fun c' h => hcs c' (or_intror h)).
  by rewrite addSnnS.
exists L'; split; last split=> //.
  rewrite /= stepE // (drop_nth 0 hlt) /= -lt0n (leq_ltn_trans _ hlt) //.
  by case: hL hp => l1 l2 [p1 p2]; rewrite maddE /= ?l1 ?l2 ?p1 ?p2.
move=> rho i j hr hi hj; rewrite h3 // (drop_nth 0 hlt) big_cons /=.
case: hL hp => l1 l2 [p1 p2]; rewrite act_add /= ?l1 ?l2 ?p1 ?p2 // act_scale act_part //.
by rewrite addrA.
Qed.

Definition hamm n (H : mat C) : mat C :=
  addm (zerom C (n ^ 2) (n ^ 2)) (scalem (- 'i) (subm (kron (idm C n) H) (kron (trm H) (idm C n)))).

Lemma hamm_sq n H : square (n * n) (hamm n H).
Proof. by split; rewrite /= mulnn. Qed.

Lemma act_zero n m rho i j : act n (zerom C m m) rho i j = 0.
Proof. by rewrite /act ent_mulm big1 // => k _; rewrite ent_zerom mul0r. Qed.

Lemma act_hamm n H rho i j : square n H -> square n rho -> (i < n)%N -> (j < n)%N ->
  act n (hamm n H) rho i j = hamiltonianPart n H rho i j.
Proof.
move=> hH hr hi hj; have [h1 h2] := hH; have [r1 r2] := hr.
rewrite /hamm act_add; [|by rewrite /= ?h1 ?h2 mulnn..]; rewrite act_zero add0r act_scale act_sub /= ?h1 ?h2 //.
by rewrite act_pre // act_post // !(@prod2E n).
Qed.

Lemma LiouvillianE n H co rates db : (0 < n)%N -> square n H ->
  Liouvillian (Some H) co rates db =
  match co with CList l => liouvLoop n (idm C n) rates db (hamm n H) 0 l | _ => Ok (hamm n H) end.
Proof.
move=> hn [h1 h2]; rewrite /Liouvillian /= h1 zerosMatE ?expn_gt0 ?hn //=.
rewrite msubE /= ?h1 ?h2 //= maddE /= ?h1 ?h2 ?mulnn //=.
Qed.

Lemma LiouvillianNE n c cs rates db : (0 < n)%N -> square n c ->
  Liouvillian None (CList (COp c :: cs)) rates db =
  liouvLoop n (idm C n) rates db (zerom C (n * n) (n * n)) 0 (COp c :: cs).
Proof. by move=> hn [h1 h2]; rewrite /Liouvillian /= h1 zerosMatE ?expn_gt0 ?hn //= mulnn. Qed.

Lemma loop_ones n db : forall l idx L m, (idx + size l <= m)%N ->
  liouvLoop n (idm C n) None db L idx l = liouvLoop n (idm C n) (Some (nseq m 1)) db L idx l.
Proof.
elim=> //= c l IH idx L m h.
have hlt : (idx < size (nseq m (1%R : C)))%N by rewrite size_nseq; apply: leq_trans h; rewrite addnS ltnS leq_addr.
have -> : liouvStep n (idm C n) None db L idx c = liouvStep n (idm C n) (Some (nseq m 1)) db L idx c.
  rewrite /liouvStep; case: copShape0 => //= s; case: (if s == n then _ else _) => //= p.
  have hm : (0 < m)%N by move: hlt; rewrite size_nseq; case: (m).
  rewrite (drop_nth 0 hlt) /= nth_nseq size_nseq -lt0n hm; move: (hlt); rewrite size_nseq => ->.
  by rewrite scale1m.
by case: liouvStep => //= L'; apply: IH; rewrite addSnnS.
Qed.

(** ** Trace and Hermiticity of the generator *)
Ltac cfield := cnorm1 C; field.

Lemma ham_trace n (H rho : mat C) : \sum_(i < n) hamiltonianPart n H rho i i = 0.
Proof.
rewrite /hamiltonianPart /prod2 -big_distrr /= sumrB.
have -> : \sum_(i < n) \sum_(k < n) ent rho i k * ent H k i = \sum_(i < n) \sum_(k < n) ent H i k * ent rho k i.
  by rewrite exchange_big /=; apply: eq_bigr => i _; apply: eq_bigr => k _; rewrite mulrC.
by rewrite subrr mulr0.
Qed.

Lemma two_neq0 : 2%:R <> 0 :> C.
Proof. by apply/eqP; rewrite pnatr_eq0. Qed.

Lemma diss_trace n (c rho : mat C) : \sum_(i < n) dissipation n c rho i i = 0.
Proof.
rewrite /dissipation sumrB -big_distrr /= big_split /=.
set A := \sum_(i < n) \sum_(k < n) \sum_(l < n) ent c i k * ent rho k l * _.
have -> : \sum_(i < n) \sum_(k < n) \sum_(l < n) (ent c k i)^* * ent c k l * ent rho l i = A.
  rewrite exchange_big /=; apply: eq_bigr => i _; rewrite exchange_big /=.
  by apply: eq_bigr => k _; apply: eq_bigr => l _; cring.
have -> : \sum_(i < n) \sum_(k < n) \sum_(l < n) ent rho i k * (ent c l k)^* * ent c l i = A.
  transitivity (\sum_(k < n) \sum_(l < n) \sum_(i < n) ent c i k * ent rho k l * (ent c i l)^*).
    by apply: eq_bigr => i _; apply: eq_bigr => k _; apply: eq_bigr => l _; cring.
  rewrite /A [RHS]exchange_big /=; apply: eq_bigr => k _; exact: exchange_big.
by cfield; exact: two_neq0.
Qed.

Lemma lindblad_trace n (H : mat C) crs rho : \sum_(i < n) lindblad n H crs rho i i = 0.
Proof.
rewrite /lindblad big_split /= ham_trace add0r exchange_big /= big1 // => p _.
by rewrite -big_distrr /= diss_trace mulr0.
Qed.

Lemma conj_sum n (f : 'I_n -> C) : (\sum_(i < n) f i)^* = \sum_(i < n) (f i)^*.
Proof. exact: rmorph_sum. Qed.

Lemma ham_hc n (H rho : mat C) i j : hermitian n H -> (i < n)%N -> (j < n)%N ->
  hamiltonianPart n H (hc rho) i j = (hamiltonianPart n H rho j i)^*.
Proof.
move=> [_ hH] hi hj; rewrite /hamiltonianPart /prod2 rmorphM rmorphN conjCi opprK rmorphB !conj_sum.
have -> : \sum_(k < n) ent H i k * ent (hc rho) k j = \sum_(k < n) (ent rho j k * ent H k i)^*.
  by apply: eq_bigr => k _; rewrite ent_hc rmorphM mulrC -hH.
have -> : \sum_(k < n) ent (hc rho) i k * ent H k j = \sum_(k < n) (ent H j k * ent rho k i)^*.
  by apply: eq_bigr => k _; rewrite ent_hc rmorphM mulrC -hH.
by cring.
Qed.

Lemma diss_hc n (c rho : mat C) i j : dissipation n c (hc rho) i j = (dissipation n c rho j i)^*.
Proof.
rewrite /dissipation rmorphB rmorphM rmorphD !conj_sum; congr (_ - _ * _).
- rewrite exchange_big /=; apply: eq_bigr => k _; rewrite conj_sum; apply: eq_bigr => l _.
  by rewrite ent_hc !rmorphM conjCK; cring.
- by rewrite div1r fmorphV rmorph_nat.
rewrite addrC; congr (_ + _).
- rewrite exchange_big /=; apply: eq_bigr => k _; rewrite conj_sum; apply: eq_bigr => l _.
  by rewrite ent_hc !rmorphM conjCK; cring.
- rewrite exchange_big /=; apply: eq_bigr => k _; rewrite conj_sum; apply: eq_bigr => l _.
  by rewrite ent_hc !rmorphM conjCK; cring.
Qed.

Lemma lindblad_hc n (H : mat C) crs rho i j : hermitian n H -> (forall p, p \in map snd crs -> p^* = p) ->
  (i < n)%N -> (j < n)%N -> lindblad n H crs (hc rho) i j = (lindblad n H crs rho j i)^*.
Proof.
move=> hH hr hi hj; rewrite /lindblad rmorphD ham_hc //; congr (_ + _).
elim: crs hr => [|p crs IH] hr; first by rewrite !big_nil rmorph0.
rewrite !big_cons rmorphD rmorphM (hr p.2) ?inE ?eqxx // diss_hc IH // => q hq.
by apply: hr; rewrite inE hq orbT.
Qed.

(** ** The trace as a row vector, the transposition as a permutation *)
Definition wv n : mat C := trm (vecm (idm C n)).

Lemma wv_tr n (v : mat C) : hasShape v (n * n) 1 -> ent (mulm (wv n) v) 0 0 = trace (unvecm n v).
Proof.
move=> [h1 h2]; rewrite ent_mulm /= trace_sq //=.
transitivity (\sum_(k < n * n) ((k %% n)%N == (k %/ n)%N)%:R * ent v ((k %/ n) * n + k %% n) 0).
  apply: eq_bigr => k _; rewrite ent_trm ent_vecm /= ltn_ord ent_mk ?ltn_pmod ?ltn_divLR // -?divn_eq //.
  - by case: n k {h1} => // -[].
  - by case: n k {h1} => // -[].
rewrite (sum_divmod n n (fun a b => (b == a)%:R * ent v (a * n + b) 0)).
apply: eq_bigr => a _; rewrite ent_mk // (bigD1 a) //= eqxx mul1r big1 ?addr0 // => b.
by rewrite -val_eqE => /negbTE /= ->; rewrite mul0r.
Qed.

Definition unit_vec m k : mat C := mk m 1 (fun i _ => (i == k)%:R).

Lemma mul_unit m k (A : mat C) i : (k < m)%N -> cols A = m -> ent (mulm A (unit_vec m k)) i 0 = ent A i k.
Proof.
move=> hk hA; rewrite ent_mulm hA (bigD1 (Ordinal hk)) //= ent_mk // eqxx mulr1 big1 ?addr0 // => l.
by rewrite -val_eqE ent_mk // => /negbTE /= ->; rewrite mulr0.
Qed.

Lemma eq_on_vec n (A B : mat C) r : hasShape A r (n * n) -> hasShape B r (n * n) ->
  (forall rho, square n rho -> mulm A (vecm rho) = mulm B (vecm rho)) -> A = B.
Proof.
move=> [a1 a2] [b1 b2] h; apply: mat_ext; rewrite ?a1 ?a2 ?b1 ?b2 // => i k _ hk.
rewrite -(mul_unit i hk a2) -(mul_unit i hk b2).
have e : unit_vec (n * n) k = vecm (unvecm n (unit_vec (n * n) k)) by rewrite vecK.
by rewrite e h.
Qed.

Lemma wv_null n (L : mat C) : square (n * n) L ->
  (forall rho, square n rho -> trace (unvecm n (mulm L (vecm rho))) = 0) -> mulm (wv n) L = zerom C 1 (n * n).
Proof.
move=> [h1 h2] h; apply: (@eq_on_vec n _ _ 1); [by split | by split | move=> rho hr].
apply: mat_ext => //= i j hi hj; case: i hi => // _; case: j hj => // _.
rewrite -mulmA wv_tr; last by split.
by rewrite h // ent_mulm big1 // => k _; rewrite ent_zerom mul0r.
Qed.

Definition swapm n : mat C := mk (n * n) (n * n) (fun a b => (b == (a %% n) * n + a %/ n)%N%:R).

Lemma swap_lt n a : (a < n * n)%N -> ((a %% n) * n + a %/ n < n * n)%N.
Proof. by move=> h; apply: idx_lt; [apply: div_lt_l | apply: mod_lt_l h]. Qed.

Lemma swap_mul n (v : mat C) a j : rows v = (n * n)%N -> (a < n * n)%N ->
  ent (mulm (swapm n) v) a j = ent v ((a %% n) * n + a %/ n) j.
Proof.
move=> h1 ha; rewrite ent_mulm /= (bigD1 (Ordinal (swap_lt ha))) //= ent_mk ?swap_lt // eqxx mul1r.
rewrite big1 ?addr0 // => b; rewrite -val_eqE /= ent_mk // => /negbTE ->; by rewrite mul0r.
Qed.

Lemma swap_vec n rho : square n rho -> mulm (swapm n) (vecm rho) = vecm (trm rho).
Proof.
move=> [h1 h2]; apply: mat_ext; rewrite /= ?h1 ?h2 // => a j ha hj; case: j hj => // _.
rewrite swap_mul /= ?h1 ?h2 // !ent_vecm /= h1 h2 swap_lt // ha ent_trm.
by rewrite idx_mod ?idx_div //; apply: div_lt_l.
Qed.

Lemma swap_swap n : mulm (swapm n) (swapm n) = idm C (n * n).
Proof.
apply: mat_ext => //= a b ha hb; rewrite swap_mul // !ent_mk ?swap_lt //.
rewrite idx_mod ?idx_div ?div_lt_l // -?divn_eq 1?eq_sym //.
Qed.

Lemma conj_mulm A B : conjm (mulm A B) = mulm (conjm A) (conjm B).
Proof.
apply: mat_ext => // i j hi hj; rewrite ent_conjm !ent_mulm conj_sum; apply: eq_bigr => k _.
by rewrite rmorphM !ent_conjm.
Qed.

Lemma conj_vecm A : conjm (vecm A) = vecm (conjm A).
Proof.
apply: mat_ext => //= k j hk hj; case: j hj => // _.
by rewrite ent_conjm !ent_vecm /= hk ent_conjm.
Qed.

Lemma conjmK A : conjm (conjm A) = A.
Proof. by apply: mat_ext => // i j _ _; rewrite !ent_conjm conjCK. Qed.

Lemma trmK A : trm (trm A) = A.
Proof. by apply: mat_ext => // i j _ _; rewrite !ent_trm. Qed.

Lemma conj_scalem a A : conjm (scalem a A) = scalem a^* (conjm A).
Proof. by apply: mat_ext => // i j _ _; rewrite !(ent_conjm, ent_scalem) rmorphM. Qed.

Lemma herm_pres n (L : mat C) : square (n * n) L ->
  (forall rho, square n rho -> mulm L (vecm (hc rho)) = vecm (hc (unvecm n (mulm L (vecm rho))))) ->
  conjm L = mulm (mulm (swapm n) L) (swapm n).
Proof.
move=> [l1 l2] h; apply: (@eq_on_vec n _ _ (n * n)); [by split | by split | move=> rho hr].
have [r1 r2] := hr.
rewrite -mulmA swap_vec // -mulmA -[rho in LHS]conjmK -conj_vecm -conj_mulm.
have -> : conjm rho = hc (trm rho) by rewrite /hc trmK.
rewrite h; last by split.
set R := unvecm n _; have sR : square n R by [].
rewrite conj_vecm /hc conjmK -(@swap_vec n) // vecK //.
Qed.

Lemma herm_pres_inv n (E : mat C) : square (n * n) E ->
  conjm E = mulm (mulm (swapm n) E) (swapm n) ->
  forall rho, square n rho -> mulm E (vecm (hc rho)) = vecm (hc (unvecm n (mulm E (vecm rho)))).
Proof.
move=> [l1 l2] h rho hr; have [r1 r2] := hr.
have -> : mulm E (vecm (hc rho)) = conjm (mulm (conjm E) (vecm (trm rho))).
  by rewrite conj_mulm conjmK conj_vecm.
rewrite h -(@swap_vec n) // -mulmA [mulm (swapm n) (mulm _ _)]mulmA swap_swap mul1m /= ?r1 ?r2 // -mulmA.
have {1}<- : vecm (unvecm n (mulm E (vecm rho))) = mulm E (vecm rho) by rewrite vecK.
by rewrite swap_vec // conj_vecm.
Qed.


End Proofs.
