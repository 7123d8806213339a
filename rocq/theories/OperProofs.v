(** Proofs about ladder, spin and Pauli operators and gates. *)
From mathcomp Require Import all_ssreflect all_algebra.
From Verif Require Py.
From Verif Require Import MatModel OperModel MatLib MatSpec MatProofs CField.
Set Implicit Arguments.
Unset Strict Implicit.
Unset Printing Implicit Defensive.
Import GRing.Theory Num.Theory.
Local Open Scope ring_scope.

Lemma natr1 (R : ringType) n : n%:R + 1 = n.+1%:R :> R.
Proof. by rewrite -[n.+1]addn1 natrD. Qed.

Section OperProofs.
Variable C : numClosedFieldType.
Implicit Types A B D M X Y Z : mat C.
Add Field Cf : (@C_field C).
Ltac cring := cnorm1 C; ring.
Ltac cfield := cnorm1 C; field.

(** ** The triple constructor on consecutive indices *)
Lemma zip3_map (T S1 S2 S3 : Type) (f : T -> S1) (g : T -> S2) (h : T -> S3) (s : seq T) :
  zip (map f s) (zip (map g s) (map h s)) = [seq (f k, (g k, h k)) | k <- s].
Proof. by elim: s => //= x s ->. Qed.

Lemma csc_iota (f : nat -> C) n a b r c : (a + n <= r)%N -> (b + n <= c)%N ->
  csc [seq f i | i <- iota 0 n] (iota a n) (iota b n) r c =
  Ok (mk r c (fun i j => if [&& a <= i, i - a < n & j == i - a + b]%N then f (i - a)%N else 0)).
Proof.
move=> h h'; rewrite /csc !size_map !size_iota !eqxx /=.
have -> : all (fun i => i < r)%N (iota a n).
  by apply/allP => i; rewrite mem_iota => /andP[_ hi]; apply: leq_trans h.
have -> : all (fun i => i < c)%N (iota b n).
  by apply/allP => i; rewrite mem_iota => /andP[_ hi]; apply: leq_trans h'.
congr Ok; apply: mk_ext => // i j _ _.
have ea x : iota x n = [seq (x + k)%N | k <- iota 0 n] by rewrite -iotaDl addn0.
rewrite (ea a) (ea b) zip3_map big_map /=.
have -> : iota 0 n = index_iota 0 n by rewrite /index_iota subn0.
rewrite big_mkcond big_mkord /=.
case: ifP => [/and3P[h1 h2 /eqP h3]|hF].
  rewrite (bigD1 (Ordinal h2)) //= h3 subnKC // [(_ - _ + b)%N]addnC eqxx big1 ?addr0 // => k hk.
  case: eqP => // -[e1 e2]; move: hk; rewrite -val_eqE /=.
  by rewrite -{}e1 addKn eqxx.
rewrite big1 // => k _; case: eqP => // -[e1 e2]; move: hF.
by rewrite -{}e1 -{}e2 leq_addr addKn ltn_ord addnC eqxx.
Qed.

Definition upm d (f : nat -> C) : mat C := mk d d (fun i j => if j == i.+1 then f i else 0).
Definition dnm d (f : nat -> C) : mat C := mk d d (fun i j => if i == j.+1 then f j else 0).
Definition dgm d (f : nat -> C) : mat C := mk d d (fun i j => if i == j then f i else 0).

Lemma csc_dg (f : nat -> C) d : csc [seq f i | i <- range 0 d] (range 0 d) (range 0 d) d d = Ok (dgm d f).
Proof.
rewrite /range subn0 csc_iota ?add0n //; congr Ok; apply: mk_ext => // i j hi hj.
by rewrite subn0 hi addn0 leq0n /= eq_sym.
Qed.

Lemma csc_up (f : nat -> C) d :
  csc [seq f i | i <- range 0 (d - 1)] (range 0 (d - 1)) (range 1 d) d d = Ok (upm d f).
Proof.
case: d => [|d]; first by rewrite /csc /=; congr Ok; apply: mk_ext.
rewrite /range subn0 csc_iota; first last.
- by rewrite subn1.
- by rewrite add0n leq_subr.
congr Ok; apply: mk_ext => // i j hi hj.
rewrite subn0 leq0n addn1 /=; case: eqP => [e|_]; last by rewrite andbF.
by rewrite andbT ltn_subRL add1n -e hj.
Qed.

Lemma csc_dn (f : nat -> C) d :
  csc [seq f i | i <- range 0 (d - 1)] (range 1 d) (range 0 (d - 1)) d d = Ok (dnm d f).
Proof.
case: d => [|d]; first by rewrite /csc /=; congr Ok; apply: mk_ext.
rewrite /range subn0 csc_iota; first last.
- by rewrite add0n leq_subr.
- by rewrite subn1.
congr Ok; apply: mk_ext => // i j hi hj.
case: i hi => [|i] hi //=; rewrite subn1 /= addn0 eqSS [j == i]eq_sym.
have -> : (i < d.+1 - 1)%N by rewrite subn1.
by case: eqP => [->|].
Qed.

(** Products with band matrices *)
Lemma ent_upm_mul d f M i j : (i < d)%N -> rows M = d -> ent (mulm (upm d f) M) i j = f i * ent M i.+1 j.
Proof.
move=> hi h; rewrite ent_mulm /=; case: (ltnP i.+1 d) => h1.
  rewrite (bigD1 (Ordinal h1)) //= ent_mk // eqxx big1 ?addr0 // => k hk.
  rewrite ent_mk //; case: eqP => [e|_]; last by rewrite mul0r.
  by move: hk; rewrite -val_eqE /= e eqxx.
rewrite [ent M _ _]ent_out; last by rewrite h ltnNge h1.
rewrite mulr0 big1 // => k _; rewrite ent_mk //; case: eqP => [e|_]; last by rewrite mul0r.
by move: (ltn_ord k); rewrite e ltnNge h1.
Qed.

Lemma ent_mul_upm d f M i j : (j < d)%N -> cols M = d ->
  ent (mulm M (upm d f)) i j = if j is j'.+1 then ent M i j' * f j' else 0.
Proof.
move=> hj h; rewrite ent_mulm h; case: j hj => [|j] hj.
  by rewrite big1 // => k _; rewrite ent_mk //= mulr0.
rewrite (bigD1 (Ordinal (ltnW hj))) //= ent_mk //; last exact: ltnW.
rewrite eqxx big1 ?addr0 // => k hk.
rewrite ent_mk // eqSS; case: eqP => [e|_]; last by rewrite mulr0.
by move: hk; rewrite -val_eqE /= e eqxx.
Qed.

Lemma ent_dnm_mul d f M i j : (i < d)%N -> rows M = d ->
  ent (mulm (dnm d f) M) i j = if i is i'.+1 then f i' * ent M i' j else 0.
Proof.
move=> hi h; rewrite ent_mulm /=; case: i hi => [|i] hi.
  by rewrite big1 // => k _; rewrite ent_mk //= mul0r.
rewrite (bigD1 (Ordinal (ltnW hi))) //= ent_mk //; last exact: ltnW.
rewrite eqxx big1 ?addr0 // => k hk.
rewrite ent_mk // eqSS; case: eqP => [e|_]; last by rewrite mul0r.
by move: hk; rewrite -val_eqE /= -e eqxx.
Qed.

Lemma ent_mul_dnm d f M i j : (j < d)%N -> cols M = d ->
  ent (mulm M (dnm d f)) i j = ent M i j.+1 * f j.
Proof.
move=> hj h; rewrite ent_mulm h; case: (ltnP j.+1 d) => h1.
  rewrite (bigD1 (Ordinal h1)) //= ent_mk // eqxx big1 ?addr0 // => k hk.
  rewrite ent_mk //; case: eqP => [e|_]; last by rewrite mulr0.
  by move: hk; rewrite -val_eqE /= e eqxx.
rewrite [ent M _ _]ent_out; last by rewrite h negb_and [(j.+1 < d)%N]ltnNge h1 orbT.
rewrite mul0r big1 // => k _; rewrite ent_mk //; case: eqP => [e|_]; last by rewrite mulr0.
by move: (ltn_ord k); rewrite e ltnNge h1.
Qed.

Lemma ent_dgm_mul d f M i j : (i < d)%N -> ent (mulm (dgm d f) M) i j = f i * ent M i j.
Proof.
move=> hi; rewrite ent_mulm /= (bigD1 (Ordinal hi)) //= ent_mk // eqxx big1 ?addr0 // => k hk.
rewrite ent_mk //; case: eqP => [e|_]; last by rewrite mul0r.
by move: hk; rewrite -val_eqE /= e eqxx.
Qed.

Lemma ent_mul_dgm d f M i j : (j < d)%N -> cols M = d -> ent (mulm M (dgm d f)) i j = ent M i j * f j.
Proof.
move=> hj h; rewrite ent_mulm h (bigD1 (Ordinal hj)) //= ent_mk // eqxx big1 ?addr0 // => k hk.
rewrite ent_mk //; case: eqP => [e|_]; last by rewrite mulr0.
by move: hk; rewrite -val_eqE /= e eqxx.
Qed.

Lemma ent_upm d f i j : ent (upm d f) i j = if (j == i.+1) && (j < d)%N then f i else 0.
Proof.
rewrite ent_mkE; case: (j =P i.+1) => [->|_]; last by case: ifP.
by case: (ltnP i.+1 d) => h /=; rewrite ?andbF // (ltnW h).
Qed.
Lemma ent_dnm d f i j : ent (dnm d f) i j = if (i == j.+1) && (i < d)%N then f j else 0.
Proof.
rewrite ent_mkE; case: (i =P j.+1) => [->|_]; last by case: ifP.
by case: (ltnP j.+1 d) => h /=; rewrite // (ltnW h).
Qed.
Lemma ent_dgm d f i j : ent (dgm d f) i j = if (i == j) && (i < d)%N then f i else 0.
Proof.
rewrite ent_mkE; case: (i =P j) => [->|_]; last by case: ifP.
by rewrite andbb.
Qed.

Lemma hc_upm d f : hc (upm d f) = dnm d (fun i => (f i)^*).
Proof.
apply: mat_ext => // i j hi hj; rewrite ent_hc ent_upm ent_dnm.
by case: ifP => // _; rewrite conjC0.
Qed.
Lemma hc_dgm d f : hc (dgm d f) = dgm d (fun i => (f i)^*).
Proof.
apply: mat_ext => // i j /= hi hj; rewrite ent_hc !ent_dgm hi hj !andbT eq_sym.
by case: eqP => [->//|_]; rewrite conjC0.
Qed.
Lemma idm_dgm d : idm C d = dgm d (fun _ => 1).
Proof. by apply: mat_ext => // i j hi hj; rewrite ent_idm ent_dgm; case: ifP. Qed.

Lemma up_dn d f g : mulm (upm d f) (dnm d g) = dgm d (fun i => if (i.+1 < d)%N then f i * g i else 0).
Proof.
apply: mat_ext => // i j hi hj; rewrite ent_upm_mul // ent_dnm ent_dgm hi andbT eqSS.
case: (i =P j) => [->|_] /=; last by rewrite mulr0.
by case: ifP => // _; rewrite mulr0.
Qed.
Lemma dn_up d f g : mulm (dnm d f) (upm d g) = dgm d (fun i => if i is i'.+1 then f i' * g i' else 0).
Proof.
apply: mat_ext => // i j hi hj; rewrite ent_dnm_mul // ent_dgm hi andbT.
case: i hi => [|i] hi; first by case: ifP.
rewrite ent_upm hj andbT [j == _]eq_sym; by case: ifP => // _; rewrite mulr0.
Qed.
Lemma dg_up d f g : mulm (dgm d f) (upm d g) = upm d (fun i => f i * g i).
Proof.
apply: mat_ext => // i j hi hj; rewrite ent_dgm_mul // !ent_upm.
by case: ifP => // _; rewrite mulr0.
Qed.
Lemma up_dg d f g : mulm (upm d f) (dgm d g) = upm d (fun i => f i * g i.+1).
Proof.
apply: mat_ext => // i j hi hj; rewrite ent_mul_dgm // !ent_upm.
by case: ifP => [/andP[/eqP -> _]|_] //; rewrite mul0r.
Qed.
Lemma dg_dn d f g : mulm (dgm d f) (dnm d g) = dnm d (fun i => f i.+1 * g i).
Proof.
apply: mat_ext => // i j hi hj; rewrite ent_dgm_mul // !ent_dnm.
by case: ifP => [/andP[/eqP -> _]|_] //; rewrite mulr0.
Qed.
Lemma dn_dg d f g : mulm (dnm d f) (dgm d g) = dnm d (fun i => f i * g i).
Proof.
apply: mat_ext => // i j hi hj; rewrite ent_mul_dgm // !ent_dnm.
by case: ifP => // _; rewrite mul0r.
Qed.
Lemma dg_dg d f g : mulm (dgm d f) (dgm d g) = dgm d (fun i => f i * g i).
Proof.
apply: mat_ext => // i j hi hj; rewrite ent_dgm_mul // !ent_dgm.
by case: ifP => // _; rewrite mulr0.
Qed.

Lemma dgm_ext d f g : (forall i, (i < d)%N -> f i = g i) -> dgm d f = dgm d g.
Proof. by move=> h; apply: mk_ext => // i j hi hj; case: eqP => // _; apply: h. Qed.
Lemma upm_ext d f g : (forall i, (i.+1 < d)%N -> f i = g i) -> upm d f = upm d g.
Proof. by move=> h; apply: mk_ext => // i j hi hj; case: eqP => // e; apply: h; rewrite -e. Qed.
Lemma dnm_ext d f g : (forall i, (i.+1 < d)%N -> f i = g i) -> dnm d f = dnm d g.
Proof. by move=> h; apply: mk_ext => // i j hi hj; case: eqP => // e; apply: h; rewrite -e. Qed.

Lemma dgm_add d f g : addm (dgm d f) (dgm d g) = dgm d (fun i => f i + g i).
Proof.
apply: mat_ext => // i j hi hj; rewrite ent_addm // !ent_dgm.
by case: ifP => // _; rewrite addr0.
Qed.
Lemma dgm_sub d f g : subm (dgm d f) (dgm d g) = dgm d (fun i => f i - g i).
Proof.
apply: mat_ext => // i j hi hj; rewrite ent_subm // !ent_dgm.
by case: ifP => // _; rewrite subr0.
Qed.
Lemma dgm_scale d a f : scalem a (dgm d f) = dgm d (fun i => a * f i).
Proof.
apply: mat_ext => // i j hi hj; rewrite ent_scalem !ent_dgm.
by case: ifP => // _; rewrite mulr0.
Qed.
Lemma upm_sub d f g : subm (upm d f) (upm d g) = upm d (fun i => f i - g i).
Proof.
apply: mat_ext => // i j hi hj; rewrite ent_subm // !ent_upm.
by case: ifP => // _; rewrite subr0.
Qed.
Lemma dnm_sub d f g : subm (dnm d f) (dnm d g) = dnm d (fun i => f i - g i).
Proof.
apply: mat_ext => // i j hi hj; rewrite ent_subm // !ent_dnm.
by case: ifP => // _; rewrite subr0.
Qed.
Lemma upm_scale d a f : scalem a (upm d f) = upm d (fun i => a * f i).
Proof.
apply: mat_ext => // i j hi hj; rewrite ent_scalem !ent_upm.
by case: ifP => // _; rewrite mulr0.
Qed.
Lemma dnm_scale d a f : scalem a (dnm d f) = dnm d (fun i => a * f i).
Proof.
apply: mat_ext => // i j hi hj; rewrite ent_scalem !ent_dnm.
by case: ifP => // _; rewrite mulr0.
Qed.

(** ** Ladder operators *)
Definition rt (i : nat) : C := sqrtC (i + 1)%:R.

Lemma numberE d : number C d = Ok (dgm d (fun i => i%:R)).
Proof. by rewrite /number csc_dg. Qed.
Lemma destroyE d : destroy C d = Ok (upm d rt).
Proof. by rewrite /destroy csc_up. Qed.
Lemma createE d : create C d = Ok (dnm d rt).
Proof. by rewrite /create csc_dn. Qed.

Lemma rt_real i : (rt i)^* = rt i.
Proof. by apply: geC0_conj; rewrite sqrtC_ge0 ler0n. Qed.
Lemma rt_sq i : rt i * rt i = (i.+1)%:R.
Proof. by rewrite -expr2 sqrtCK addn1. Qed.

Lemma create_hc d : dnm d rt = hc (upm d rt).
Proof. by rewrite hc_upm; apply: dnm_ext => i _; rewrite rt_real. Qed.

Lemma create_destroy d : mulm (dnm d rt) (upm d rt) = dgm d (fun i => i%:R).
Proof. by rewrite dn_up; apply: dgm_ext => -[|i] _ //; rewrite rt_sq. Qed.

Lemma destroy_create d : mulm (upm d rt) (dnm d rt) = dgm d (fun i => if (i.+1 < d)%N then i.+1%:R else 0).
Proof. by rewrite up_dn; apply: dgm_ext => i _; case: ifP => // _; rewrite rt_sq. Qed.

(** ** Spin operators *)
Lemma truncZ_nat n : truncZ n%:R = n.
Proof.
have -> : n%:R = (n : int)%:~R :> rat by rewrite pmulrn.
by rewrite /truncZ numq_int denq_int divn1; case: n => [|n]; rewrite ?mul0r //= mul1r.
Qed.

Lemma floorq_int (z : int) : floorq z%:~R = z.
Proof. by rewrite /floorq numq_int denq_int divz1. Qed.

Lemma round1_half (n : nat) : round1 (n%:R / 2%:R) = n%:R / 2%:R.
Proof.
rewrite /round1.
have -> : n%:R / 2%:R * 10%:R = (n * 5)%N%:R :> rat.
  by rewrite -[10%N]/(2 * 5)%N !natrM mulrA divfK // pnatr_eq0.
have -> : (n * 5)%N%:R = ((n * 5)%N : int)%:~R :> rat by rewrite pmulrn.
rewrite /roundZ floorq_int subrr /=.
rewrite -pmulrn natrM -[10%N]/(5 * 2)%N natrM invfM mulrA mulfK // pnatr_eq0 //.
Qed.

(** Spin and dimension for the three ways of giving a spin of [n+1] levels. *)
Lemma spinDim_j (n : nat) : spinDim (n%:R / 2%:R) false = (n.+1 : int, n%:R / 2%:R).
Proof.
rewrite /spinDim; congr (_, _).
by rewrite mulrC divfK ?pnatr_eq0 // -[1]/(1%:R) -natrD truncZ_nat addn1.
Qed.
Lemma spinDim_d (n : nat) : spinDim n.+1%:R true = (n.+1 : int, n%:R / 2%:R).
Proof.
rewrite /spinDim truncZ_nat; congr (_, _).
have -> : (n.+1 : int)%:~R - 1 = n%:R :> rat by rewrite -pmulrn -natr1 addrK.
exact: round1_half.
Qed.

Definition jp (n i : nat) : C := sqrtC ((n - i) * i.+1)%N%:R.
Definition jz (n i : nat) : C := n%:R / 2%:R - i%:R.

Lemma nth_m (q : rat) d i : (i < d)%N -> nth 0 [seq q - k%:R | k <- range 0 d] i = q - i%:R.
Proof. by move=> h; rewrite (nth_map 0%N) /range ?size_iota ?subn0 // nth_iota. Qed.

Lemma jdata n i : (i < n)%N ->
  sqrtC (ratr ((n%:R / 2%:R + (n%:R / 2%:R - i%:R)) * (n%:R / 2%:R - (n%:R / 2%:R - i%:R) + 1))) = jp n i.
Proof.
move=> h; congr sqrtC.
have -> : n%:R / 2%:R + (n%:R / 2%:R - i%:R) = (n - i)%N%:R :> rat.
  by rewrite addrA -mulrDr -[X in _ * X]/(1 / 2%:R + 1 / 2%:R) -mulrDl natrB ?(ltnW h) // divff ?mulr1 // pnatr_eq0.
have -> : n%:R / 2%:R - (n%:R / 2%:R - i%:R) + 1 = i.+1%:R :> rat.
  by rewrite opprB addrCA subrr addr0 -[1]/(1%:R) -natrD addn1.
by rewrite -natrM ratr_nat.
Qed.

Lemma jdataE n : forall d, d = n.+1 ->
  [seq sqrtC (ratr ((n%:R / 2%:R + nth 0 [seq n%:R / 2%:R - k%:R | k <- range 0 d] i) *
     (n%:R / 2%:R - nth 0 [seq n%:R / 2%:R - k%:R | k <- range 0 d] i + 1))) |
   i <- range 0 (size [seq n%:R / 2%:R - k%:R : rat | k <- range 0 d] - 1)] =
  [seq jp n i | i <- range 0 (d - 1)].
Proof.
move=> d ->; rewrite size_map size_iota subn0.
apply/eq_in_map => i; rewrite mem_iota => /andP[_]; rewrite add0n subn0 subn1 => h.
by rewrite !nth_m ?jdata // ltnS ltnW.
Qed.

Lemma spinDimE j isDim n : spinArg j isDim n -> spinDim j isDim = (n.+1 : int, n%:R / 2%:R).
Proof. by case=> -[-> ->]; [apply: spinDim_j | apply: spinDim_d]. Qed.

Lemma JpE j isDim n : spinArg j isDim n -> Jp C j isDim = Ok (upm n.+1 (jp n)).
Proof. by move=> /spinDimE h; rewrite /Jp h jdataE // csc_up. Qed.
Lemma JmE j isDim n : spinArg j isDim n -> Jm C j isDim = Ok (dnm n.+1 (jp n)).
Proof. by move=> /spinDimE h; rewrite /Jm h jdataE // csc_dn. Qed.
Lemma JzE j isDim n : spinArg j isDim n -> Jz C j isDim = Ok (dgm n.+1 (jz n)).
Proof.
move=> /spinDimE h; rewrite /Jz h csc_dg; congr Ok; apply: dgm_ext => i _.
by rewrite rmorphB fmorph_div !rmorph_nat.
Qed.

Definition jx n := scalem (1 / 2%:R) (addm (upm n.+1 (jp n)) (dnm n.+1 (jp n))).
Definition jy n := scalem (1 / (2%:R * 'i)) (subm (upm n.+1 (jp n)) (dnm n.+1 (jp n))).
Lemma JxE j isDim n : spinArg j isDim n -> Jx C j isDim = Ok (jx n).
Proof. by move=> h; rewrite /Jx (JpE h) (JmE h) /= maddE. Qed.
Lemma JyE j isDim n : spinArg j isDim n -> Jy C j isDim = Ok (jy n).
Proof. by move=> h; rewrite /Jy (JpE h) (JmE h) /= msubE. Qed.

Lemma jp_real n i : (jp n i)^* = jp n i.
Proof. by apply: geC0_conj; rewrite sqrtC_ge0 ler0n. Qed.
Lemma jp_sq n i : jp n i * jp n i = ((n - i) * i.+1)%N%:R.
Proof. by rewrite -expr2 sqrtCK. Qed.

Lemma two_neq0 : 2%:R <> 0 :> C.
Proof. by apply/eqP; rewrite pnatr_eq0. Qed.
Lemma i_neq0 : 'i <> 0 :> C.
Proof. by apply/eqP; rewrite neq0Ci. Qed.

(** [J+ J-] and [J- J+] *)
Lemma jpm n : mulm (upm n.+1 (jp n)) (dnm n.+1 (jp n)) = dgm n.+1 (fun i => (n%:R - i%:R) * (i%:R + 1)).
Proof.
rewrite up_dn; apply: dgm_ext => i hi; rewrite ltnS jp_sq.
case: ltnP => h; first by rewrite natrM natrB ?(ltnW h) // -natr1.
by have -> : i = n by [apply/eqP; rewrite eqn_leq h -ltnS hi]; rewrite subrr mul0r.
Qed.
Lemma jmp n : mulm (dnm n.+1 (jp n)) (upm n.+1 (jp n)) = dgm n.+1 (fun i => (n%:R - i%:R + 1) * i%:R).
Proof.
rewrite dn_up; apply: dgm_ext => -[|i] hi; first by rewrite mulr0.
rewrite jp_sq natrM natrB; last exact: ltnW.
rewrite -(natr1 _ i); cring.
Qed.

Lemma comm_pm n : subm (mulm (upm n.+1 (jp n)) (dnm n.+1 (jp n))) (mulm (dnm n.+1 (jp n)) (upm n.+1 (jp n))) =
  scalem 2%:R (dgm n.+1 (jz n)).
Proof.
rewrite jpm jmp dgm_sub dgm_scale; apply: dgm_ext => i _; rewrite /jz.
cfield; exact: two_neq0.
Qed.

Lemma comm_zp n : subm (mulm (dgm n.+1 (jz n)) (upm n.+1 (jp n))) (mulm (upm n.+1 (jp n)) (dgm n.+1 (jz n))) =
  upm n.+1 (jp n).
Proof.
rewrite dg_up up_dg upm_sub; apply: upm_ext => i _; rewrite /jz -(natr1 _ i); cring.
Qed.
Lemma comm_zm n : subm (mulm (dgm n.+1 (jz n)) (dnm n.+1 (jp n))) (mulm (dnm n.+1 (jp n)) (dgm n.+1 (jz n))) =
  scalem (-1) (dnm n.+1 (jp n)).
Proof.
rewrite dg_dn dn_dg dnm_sub dnm_scale; apply: dnm_ext => i _; rewrite /jz -(natr1 _ i); cring.
Qed.

Lemma iE : (2%:R * 'i)^-1 = - ('i / 2%:R) :> C.
Proof.
apply: (mulfI (x := 2%:R * 'i)); first by rewrite mulf_neq0 ?neq0Ci // pnatr_eq0.
rewrite mulfV; last by rewrite mulf_neq0 ?neq0Ci // pnatr_eq0.
have e : 'i * 'i = -1 :> C by rewrite -expr2 sqrCi.
have -> : 2%:R * 'i * - ('i / 2%:R) = - ('i * 'i) * (2%:R / 2%:R) :> C by cring.
by rewrite e opprK divff ?mulr1 // pnatr_eq0.
Qed.

(** The angular momentum algebra from the ladder relations, for any matrices. *)
Section Comm.
Variables (d : nat) (P N Zm : mat C).
Hypothesis (rP : rows P = d) (cP : cols P = d) (rN : rows N = d) (cN : cols N = d)
  (rZ : rows Zm = d) (cZ : cols Zm = d).
Let ii : 'i * 'i = -1 :> C. Proof. by rewrite -expr2 sqrCi. Qed.
Let X := scalem (1 / 2%:R) (addm P N).
Let Y := scalem (1 / (2%:R * 'i)) (subm P N).
Ltac shp := by rewrite ?shapes ?(rP, cP, rN, cN, rZ, cZ).

Lemma comm_xy_gen : subm (mulm P N) (mulm N P) = scalem 2%:R Zm ->
  subm (mulm X Y) (mulm Y X) = scalem 'i Zm.
Proof.
move=> h.
apply: mat_ext => [||i j _ _]; [shp|shp|].
have := congr1 (fun X => ent X i j) h.
rewrite /X /Y !(scalemAl, scalemAr) !mulmDl ?mulmBl ?mulmBr ?mulmDr; try shp.
rewrite !ent_subm ?ent_scalem ?ent_subm ?ent_addm ?ent_subm ?ent_addm; try shp.
rewrite !div1r iE.
move: (ent (mulm P P) i j) (ent (mulm P N) i j) (ent (mulm N P) i j) (ent (mulm N N) i j) (ent Zm i j).
move=> a b c e z E.
have -> : b = 2%:R * z + c by rewrite -E; cring.
cfield; exact: two_neq0.
Qed.

Lemma comm_yz_gen : subm (mulm Zm P) (mulm P Zm) = P -> subm (mulm Zm N) (mulm N Zm) = scalem (-1) N ->
  subm (mulm Y Zm) (mulm Zm Y) = scalem 'i X.
Proof.
move=> h h'.
apply: mat_ext => [||i j _ _]; [shp|shp|].
have := congr1 (fun X => ent X i j) h'; have := congr1 (fun X => ent X i j) h.
rewrite /X /Y !(scalemAl, scalemAr) !mulmBl ?mulmBr; try shp.
rewrite !ent_subm ?ent_scalem ?ent_subm ?ent_addm; try shp.
rewrite !div1r iE.
move: (ent (mulm P Zm) i j) (ent (mulm Zm P) i j) (ent (mulm N Zm) i j) (ent (mulm Zm N) i j) (ent P i j) (ent N i j).
move=> a b c e p m <-.
move=> E; have -> : m = - (e - c) by rewrite E; cring.
cfield; exact: two_neq0.
Qed.

Lemma comm_zx_gen : subm (mulm Zm P) (mulm P Zm) = P -> subm (mulm Zm N) (mulm N Zm) = scalem (-1) N ->
  subm (mulm Zm X) (mulm X Zm) = scalem 'i Y.
Proof.
move=> h h'.
apply: mat_ext => [||i j _ _]; [shp|shp|].
have := congr1 (fun X => ent X i j) h'; have := congr1 (fun X => ent X i j) h.
rewrite /X /Y !(scalemAl, scalemAr) !mulmDl ?mulmDr; try shp.
rewrite !ent_subm ?ent_scalem ?ent_subm ?ent_addm; try shp.
rewrite !div1r iE.
move: (ent (mulm P Zm) i j) (ent (mulm Zm P) i j) (ent (mulm N Zm) i j) (ent (mulm Zm N) i j) (ent P i j) (ent N i j).
move=> a b c e p m <-.
move=> E; have -> : m = - (e - c) by rewrite E; cring.
have -> : 'i * (- ('i / 2%:R) * (b - a - - (e - c))) = - ('i * 'i) * (2%:R^-1 * (b - a - - (e - c))) by cring.
by rewrite ii; cfield; exact: two_neq0.
Qed.

(** [Jx^2 + Jy^2 = (J+ J- + J- J+)/2] *)
Lemma xx_yy_gen : addm (mulm X X) (mulm Y Y) = scalem (1 / 2%:R) (addm (mulm P N) (mulm N P)).
Proof.
apply: mat_ext => [||i j _ _]; [shp|shp|].
rewrite /X /Y !(scalemAl, scalemAr) !mulmDl ?mulmBl ?mulmBr ?mulmDr; try shp.
rewrite !(ent_addm, ent_scalem) ?ent_subm ?ent_addm ?ent_subm; try shp.
rewrite !div1r iE.
move: (ent (mulm P P) i j) (ent (mulm P N) i j) (ent (mulm N P) i j) (ent (mulm N N) i j).
move=> a b c e.
have q : - ('i / 2%:R) * - ('i / 2%:R) = - (2%:R^-1 * 2%:R^-1) :> C.
  have -> : - ('i / 2%:R) * - ('i / 2%:R) = 'i * 'i * (2%:R^-1 * 2%:R^-1) :> C by cring.
  by rewrite ii mulN1r.
rewrite ![- ('i / 2%:R) * (- ('i / 2%:R) * _)]mulrA q.
cfield; exact: two_neq0.
Qed.

Lemma hc_x_gen : hc P = N -> hc X = X.
Proof.
move=> h; have h' : hc N = P by rewrite -h hcK.
rewrite /X hc_scalem hc_addm; try shp.
rewrite h h' addmC; try shp.
by rewrite div1r fmorphV rmorph_nat.
Qed.
Lemma hc_y_gen : hc P = N -> hc Y = Y.
Proof.
move=> h; have h' : hc N = P by rewrite -h hcK.
rewrite /Y hc_scalem hc_subm; try shp.
rewrite h h' div1r iE rmorphN fmorph_div conjCi rmorph_nat.
apply: mat_ext => [||i j _ _]; [shp|shp|].
rewrite !ent_scalem !ent_subm; try shp.
cring.
Qed.
End Comm.

Section Spin.
Variable n : nat.
Let P := upm n.+1 (jp n).
Let N := dnm n.+1 (jp n).
Let Zm := dgm n.+1 (jz n).

Lemma comm_xy : subm (mulm (jx n) (jy n)) (mulm (jy n) (jx n)) = scalem 'i Zm.
Proof. by apply: (@comm_xy_gen n.+1) => //; apply: comm_pm. Qed.
Lemma comm_yz : subm (mulm (jy n) Zm) (mulm Zm (jy n)) = scalem 'i (jx n).
Proof. by apply: (@comm_yz_gen n.+1) => //; [apply: comm_zp | apply: comm_zm]. Qed.
Lemma comm_zx : subm (mulm Zm (jx n)) (mulm (jx n) Zm) = scalem 'i (jy n).
Proof. by apply: (@comm_zx_gen n.+1) => //; [apply: comm_zp | apply: comm_zm]. Qed.

Lemma js_val : addm (addm (mulm (jx n) (jx n)) (mulm (jy n) (jy n))) (mulm Zm Zm) =
  scalem (n%:R / 2%:R * (n%:R / 2%:R + 1)) (idm C n.+1).
Proof.
rewrite (@xx_yy_gen n.+1) // jpm jmp /Zm dg_dg dgm_add dgm_scale dgm_add idm_dgm dgm_scale.
apply: dgm_ext => i _; rewrite /jz; cfield; exact: two_neq0.
Qed.

Lemma hc_P : hc P = N.
Proof. by rewrite hc_upm; apply: dnm_ext => i _; rewrite jp_real. Qed.
Lemma hc_N : hc N = P. Proof. by rewrite -hc_P hcK. Qed.
Lemma hc_Z : hc Zm = Zm.
Proof.
rewrite hc_dgm; apply: dgm_ext => i _.
by rewrite /jz rmorphB fmorph_div !rmorph_nat.
Qed.
Lemma hc_jx : hc (jx n) = jx n.
Proof. by apply: (@hc_x_gen n.+1) => //; apply: hc_P. Qed.
Lemma hc_jy : hc (jy n) = jy n.
Proof. by apply: (@hc_y_gen n.+1) => //; apply: hc_P. Qed.
End Spin.

End OperProofs.
