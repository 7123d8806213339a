(** Proofs about tensor products and composite operators. *)
From mathcomp Require Import all_ssreflect all_algebra.
From Verif Require Py.
From Verif Require Import MatModel OperModel MatLib MatSpec.
Set Implicit Arguments.
Unset Strict Implicit.
Unset Printing Implicit Defensive.
Import GRing.Theory Num.Theory.
Local Open Scope ring_scope.

(** ** Composite indices *)
Lemma foldr_muln ds : foldr muln 1%N ds = prodn ds. Proof. by []. Qed.

Lemma prodn_cons d ds : prodn (d :: ds) = (d * prodn ds)%N. Proof. by []. Qed.

Lemma prodn_cat ds es : prodn (ds ++ es) = (prodn ds * prodn es)%N.
Proof. by elim: ds => [|d ds IH]; rewrite ?mul1n //= IH mulnA. Qed.

Lemma enc_lt dims idx : isIdx dims idx -> (enc dims idx < prodn dims)%N.
Proof.
rewrite /isIdx; elim: dims idx => [|d ds IH] [|i us] //= /andP[hi /IH h].
rewrite foldr_muln in h *.
apply: (@leq_trans (i * prodn ds + prodn ds)); first by rewrite ltn_add2l.
by rewrite addnC -mulSn leq_mul2r hi orbT.
Qed.

Lemma enc_div d ds i us : isIdx ds us -> (enc (d :: ds) (i :: us) %/ prodn ds = i)%N.
Proof.
move=> /enc_lt h; rewrite /= foldr_muln.
have p : (0 < prodn ds)%N by apply: leq_ltn_trans h.
by rewrite divnMDl // divn_small // addn0.
Qed.

Lemma enc_mod d ds i us : isIdx ds us -> (enc (d :: ds) (i :: us) %% prodn ds = enc ds us)%N.
Proof. by move=> /enc_lt h; rewrite /= foldr_muln modnMDl modn_small. Qed.

Lemma enc_inj dims idx idx' : isIdx dims idx -> isIdx dims idx' ->
  enc dims idx = enc dims idx' -> idx = idx'.
Proof.
rewrite /isIdx; elim: dims idx idx' => [|d ds IH] [|i us] [|i' us'] //= /andP[hi h] /andP[hi' h'] e.
have := congr1 (fun x => x %/ prodn ds)%N e; have := congr1 (fun x => x %% prodn ds)%N e.
rewrite !foldr_muln -!/(enc (d :: ds) (_ :: _)) in e *.
have E x y := @enc_mod d ds x y; have F x y := @enc_div d ds x y.
rewrite /= !foldr_muln in E F.
by rewrite !E // !F // => e1 ->; rewrite (IH _ _ h h' e1).
Qed.

Lemma enc_surj dims k : (k < prodn dims)%N -> exists idx, isIdx dims idx /\ enc dims idx = k.
Proof.
elim: dims k => [|d ds IH] k.
  by rewrite /prodn /= ltnS leqn0 => /eqP ->; exists [::].
rewrite prodn_cons => h.
have [idx [h1 h2]] := IH _ (mod_lt_l h).
exists (k %/ prodn ds :: idx)%N; split; first by rewrite /isIdx /= (div_lt_l h).
by rewrite /= foldr_muln h2 -divn_eq.
Qed.

Section MatProofs.
Variable C : numClosedFieldType.
Implicit Types A B D M X Y Z : mat C.
Implicit Types xs ys : seq (targ C).

(** The value of a non-empty tensor product. *)
Fixpoint tens (Ms : seq (mat C)) : mat C :=
  match Ms with
  | [::] => idm C 1
  | M :: Ms' => kron M (tens Ms')
  end.

Lemma tensorProdE xs : xs <> [::] -> tensorProd xs = Ok (tens (map (@targMat C) xs)).
Proof.
elim: xs => [//|x [|y ys] IH] _; first by rewrite /= kronm1.
by move: IH; cbn [tensorProd map tens] => ->; last by [].
Qed.

Lemma tens_cat Ms Ns : tens (Ms ++ Ns) = kron (tens Ms) (tens Ns).
Proof. by elim: Ms => [|M Ms IH] /=; rewrite ?kron1m // IH kronA. Qed.

Lemma rows_tens Ms : rows (tens Ms) = prodn (map (@rows C) Ms).
Proof. by elim: Ms => [|M Ms IH] //=; rewrite IH. Qed.
Lemma cols_tens Ms : cols (tens Ms) = prodn (map (@cols C) Ms).
Proof. by elim: Ms => [|M Ms IH] //=; rewrite IH. Qed.

Lemma ent_tens Ms us vs :
  isIdx (map (@rows C) Ms) us -> isIdx (map (@cols C) Ms) vs ->
  ent (tens Ms) (enc (map (@rows C) Ms) us) (enc (map (@cols C) Ms) vs) = prodEnt Ms us vs.
Proof.
elim: Ms us vs => [|M Ms IH] [|i us] [|j vs] //; first by move=> _ _; rewrite ent_idm.
move=> hi hj; have /= /andP[hi1 hi2] := hi; have /= /andP[hj1 hj2] := hj.
have h1 := enc_lt hi; have h2 := enc_lt hj.
rewrite [tens _]/= ent_kron_in; first last.
- by rewrite cols_tens.
- by rewrite rows_tens.
rewrite rows_tens cols_tens.
cbn [map] in *; by rewrite !enc_div ?enc_mod // IH.
Qed.

Lemma tens_hc Ms : tens (map (@hc C) Ms) = hc (tens Ms).
Proof. by elim: Ms => [|M Ms IH]; rewrite ?hc_idm //= IH hc_kron. Qed.

Lemma tens_sq Ms : all (fun M => rows M == cols M) Ms -> rows (tens Ms) = cols (tens Ms).
Proof. by elim: Ms => [|M Ms IH] //= /andP[/eqP -> /IH ->]. Qed.

Lemma tens_trace Ms : all (fun M => rows M == cols M) Ms ->
  trace (tens Ms) = \prod_(M <- Ms) trace M.
Proof.
elim: Ms => [|M Ms IH] /=; first by rewrite big_nil trace_idm.
by move=> /andP[/eqP h hs]; rewrite big_cons trace_kron ?IH // tens_sq.
Qed.

Lemma tens_mul As Bs Ps :
  size As = size Bs -> [seq mmul p.1 p.2 | p <- zip As Bs] = [seq Ok P | P <- Ps] ->
  cols (tens As) = rows (tens Bs) /\ mulm (tens As) (tens Bs) = tens Ps.
Proof.
elim: As Bs Ps => [|A As IH] [|B Bs] [|P Ps] //=; first by rewrite mul1m.
move=> [h] [/mmul_inv[e ->] h2].
have [e1 e2] := IH _ _ h h2.
by rewrite e1 e kron_mulm // e2.
Qed.

Lemma tens_int ns : tens [seq idm C n | n <- ns] = idm C (prodn ns).
Proof. by elim: ns => [|n ns IH] //=; rewrite IH kron_idm. Qed.

Lemma tensorProd_ok xs X : tensorProd xs = Ok X -> xs <> [::] /\ X = tens (map (@targMat C) xs).
Proof.
move=> h; have hx : xs <> [::] by case: xs h.
by move: h; rewrite tensorProdE // => -[].
Qed.

(** ** Composite operators *)
Lemma compositeOpE A b a :
  compositeOp A b a = Ok (kron (idm C (maxn b 1)) (kron A (idm C (maxn a 1)))).
Proof.
have big n : (1 < n)%N -> maxn n 1 = n by move=> h; apply/maxn_idPl/ltnW.
have sml n : (1 < n)%N = false -> maxn n 1 = 1%N by move/negbT; rewrite -leqNgt => /maxn_idPr.
rewrite /compositeOp /=; case hb: (1 < b)%N; case ha: (1 < a)%N => /=;
  rewrite ?(big _ hb) ?(sml _ hb) ?(big _ ha) ?(sml _ ha) ?kron1m ?kronm1 //.
Qed.

Definition comp A b a : mat C := kron (idm C b) (kron A (idm C a)).

Lemma comp_shape A b a : rows (comp A b a) = (b * rows A * a)%N /\ cols (comp A b a) = (b * cols A * a)%N.
Proof. by rewrite !shapes -!mulnA. Qed.

Lemma comp_ent A b a i1 i2 i3 j1 j2 j3 :
  (i1 < b)%N -> (j1 < b)%N -> (i2 < rows A)%N -> (j2 < cols A)%N -> (i3 < a)%N -> (j3 < a)%N ->
  ent (comp A b a) (enc [:: b; rows A; a] [:: i1; i2; i3]) (enc [:: b; cols A; a] [:: j1; j2; j3]) =
  delta C i1 j1 * ent A i2 j2 * delta C i3 j3.
Proof.
move=> h1 h1' h2 h2' h3 h3'.
have := @ent_tens [:: idm C b; A; idm C a] [:: i1; i2; i3] [:: j1; j2; j3].
rewrite /= /isIdx /= h1 h1' h2 h2' h3 h3' kronm1 -/(comp A b a) => ->//.
by rewrite !ent_idm h1 h3 !andbT mulr1 mulrA.
Qed.

Lemma comp_mul A B b a : cols A = rows B -> mulm (comp A b a) (comp B b a) = comp (mulm A B) b a.
Proof. by move=> h; rewrite /comp !kron_mulm ?mul1m //= ?h. Qed.

Lemma comp_add A B b a : rows A = rows B -> cols A = cols B ->
  addm (comp A b a) (comp B b a) = comp (addm A B) b a.
Proof. by move=> h h'; rewrite /comp kron_addml // kron_addmr //= ?h ?h'. Qed.

Lemma comp_scale x A b a : scalem x (comp A b a) = comp (scalem x A) b a.
Proof. by rewrite /comp kron_scaleml kron_scalemr. Qed.

Lemma comp_hc A b a : hc (comp A b a) = comp (hc A) b a.
Proof. by rewrite /comp !hc_kron !hc_idm. Qed.

Lemma comp_id n b a : comp (idm C n) b a = idm C (b * n * a).
Proof. by rewrite /comp !kron_idm mulnA. Qed.

Lemma comp_trace A b a : rows A = cols A -> trace (comp A b a) = (b * a)%:R * trace A.
Proof.
move=> h; rewrite /comp !trace_kron ?trace_idm /= ?h // natrM.
by rewrite [trace A * _]mulrC mulrA.
Qed.

Lemma comp_inj A B b a : (0 < b)%N -> (0 < a)%N -> rows A = rows B -> cols A = cols B ->
  comp A b a = comp B b a -> A = B.
Proof.
move=> hb ha h h' e; apply: mat_ext => // i j hi hj.
have EA := @comp_ent A b a 0 i 0 0 j 0 hb hb hi hj ha ha.
have EB := @comp_ent B b a 0 i 0 0 j 0; rewrite -h -h' in EB.
move: (EB hb hb hi hj ha ha); rewrite -e EA.
by rewrite /delta eqxx !mul1r !mulr1.
Qed.

Lemma comp_comp A b a b' a' : comp (comp A b a) b' a' = comp A (b' * b) (a * a').
Proof. by rewrite /comp -!kronA kron_idm !kronA kron_idm -!kronA. Qed.

Fixpoint embedAll (b : nat) (As : seq (mat C)) : seq (mat C) :=
  match As with
  | [::] => [::]
  | A :: As' => comp A b (prodn (map (@rows C) As')) :: embedAll (b * rows A) As'
  end.

Lemma matMulInputs_cons M Ms X : matMulInputs Ms = Ok X -> matMulInputs (M :: Ms) = mmul M X.
Proof.
case: Ms => [//|N Ns] h.
by have -> : matMulInputs (M :: N :: Ns) = Py.bind (matMulInputs (N :: Ns)) (mmul M) by []; rewrite h.
Qed.

Lemma embedAll_mul b As : As <> [::] -> all (fun A => rows A == cols A) As ->
  matMulInputs (embedAll b As) = Ok (kron (idm C b) (tens As)).
Proof.
elim: As b => [//|A As IH] b _ => /andP[/eqP h hs].
rewrite [embedAll _ _]/= [tens _]/=.
have ht := tens_sq hs.
case: (size As =P 0%N) => [/size0nil ->|hne]; first by rewrite /= /comp.
have {}hne : As <> [::] by move=> E; apply: hne; rewrite E.
rewrite (matMulInputs_cons _ (IH (b * rows A)%N hne hs)) mmulE; last first.
  by rewrite /comp /= -rows_tens h mulnA.
congr Ok; rewrite -kron_idm -kronA /comp kron_mulm ?mul1m //=; last by rewrite -rows_tens h.
by rewrite kron_mulm //= ?rows_tens // mulm1 // mul1m // rows_tens.
Qed.

Lemma maxn1 n : (0 < n)%N -> maxn n 1 = n.
Proof. by move=> h; apply/maxn_idPl. Qed.

Lemma comp_two A B b m a : rows A = cols A -> rows B = cols B ->
  mulm (comp A b (m * rows B * a)) (comp B (b * rows A * m) a) =
    tens [:: idm C b; A; idm C m; B; idm C a] /\
  mulm (comp B (b * rows A * m) a) (comp A b (m * rows B * a)) =
    tens [:: idm C b; A; idm C m; B; idm C a].
Proof.
move=> hA hB; rewrite /comp /= kronm1 -!mulnA -!kron_idm -!kronA.
by split; rewrite !kron_mulm ?shapes -?hA -?hB // ?mul1m ?mulm1 ?shapes -?hA -?hB.
Qed.

Lemma size_embedAll b As : size (embedAll b As) = size As.
Proof. by elim: As b => [|A As IH] b //=; rewrite IH. Qed.

Lemma nth_embedAll A0 E0 b As k : (k < size As)%N ->
  nth E0 (embedAll b As) k =
  comp (nth A0 As k) (b * prodn (take k (map (@rows C) As))) (prodn (drop k.+1 (map (@rows C) As))).
Proof.
elim: As b k => [//|A As IH] b [|k] /=; first by rewrite muln1 drop0.
rewrite ltnS => h; by rewrite IH // -mulnA.
Qed.

Lemma tens_addm As Bs X Y : rows X = rows Y -> cols X = cols Y ->
  tens (As ++ addm X Y :: Bs) = addm (tens (As ++ X :: Bs)) (tens (As ++ Y :: Bs)).
Proof.
move=> h h'; rewrite !tens_cat /= kron_addml // kron_addmr //= ?h ?h' //.
Qed.

Lemma tens_scalem As Bs x X :
  tens (As ++ scalem x X :: Bs) = scalem x (tens (As ++ X :: Bs)).
Proof. by rewrite !tens_cat /= kron_scaleml kron_scalemr. Qed.

(** Specification predicates as matrix equations. *)
Lemma isIdentityE n M : isIdentity n M <-> M = idm C n.
Proof.
split=> [[[h h'] e]|->].
  by apply: mat_ext => // i j; rewrite h h' => hi hj; rewrite e // ent_idm hi andbT.
by split=> // i j hi hj; rewrite ent_idm hi andbT.
Qed.

Lemma hermitianE n M : hermitian n M <-> square n M /\ hc M = M.
Proof.
split=> [[[h h'] e]|[h e]]; (split; first by [split|]).
  by apply: mat_ext; rewrite ?shapes ?h ?h' // => i j hi hj; rewrite ent_hc -e.
by move=> i j hi hj; rewrite -{1}e ent_hc.
Qed.

Lemma unitaryE n M : unitary n M <-> [/\ square n M, mulm (hc M) M = idm C n & mulm M (hc M) = idm C n].
Proof.
split=> [[[h h'] [e e']]|[[h h'] e e']].
  split=> //; apply: mat_ext; rewrite ?shapes ?h ?h' // => i j hi hj;
  rewrite ent_mulm ent_idm hi andbT ?shapes ?h ?h' -/(delta C i j).
    by rewrite -e //; apply: eq_bigr => k _; rewrite ent_hc.
  by rewrite -e' //; apply: eq_bigr => k _; rewrite ent_hc.
split=> //; split=> i j hi hj.
  have := congr1 (fun X => ent X i j) e; rewrite ent_mulm ent_idm hi andbT shapes h -/(delta C i j) => <-.
  by apply: eq_bigr => k _; rewrite ent_hc.
have := congr1 (fun X => ent X i j) e'; rewrite ent_mulm ent_idm hi andbT h' -/(delta C i j) => <-.
by apply: eq_bigr => k _; rewrite ent_hc.
Qed.

End MatProofs.
