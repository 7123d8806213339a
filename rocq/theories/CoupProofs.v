(** Proofs about the couplings of composite systems. *)
From mathcomp Require Import all_ssreflect all_algebra.
From Verif Require Py.
From Verif Require Import MatModel MatLib OperModel MatSpec MatProofs CField OperProofs GateProofs CoupModel CoupSpec.
Set Implicit Arguments.
Unset Strict Implicit.
Unset Printing Implicit Defensive.
Import Order.TTheory GRing.Theory Num.Theory.
Local Open Scope ring_scope.

Section CP.
Variable C : numClosedFieldType.
Implicit Types (s : comp C) (u v : seq nat).

(** ** The choice of the systems *)
Definition rel (k : kind) : bool := isCav k || isSpin k.
Definition cond (f : option (nat * kind)) (k : kind) : bool := rel k && (if f is Some g then ~~ isInstance k g.2 else true).
Definition plain (k : kind) : bool := if k is KSpin then true else false.

Lemma pick_skip (a l : seq (sub C)) i f : ~~ has (cond f) (map (@s_kind C) a) -> pick (a ++ l) i f = pick l (i + size a) f.
Proof.
elim: a i => [|x a IH] i /=; first by rewrite addn0.
rewrite negb_or => /andP[h1 h2]; move: h1; rewrite /cond /rel; case: (isCav _ || isSpin _) => /=; last by rewrite IH // addnS.
by case: f IH h2 => [g|] //= IH h2; case: (isInstance _ _) => //= _; rewrite IH // addnS.
Qed.

Lemma findSplit (T : Type) (p : pred T) (l : seq T) : has p l -> exists a x b, [/\ l = a ++ x :: b, ~~ has p a & p x].
Proof.
elim: l => [|y l IH] //=; case hy: (p y) => /= h; first by exists [::], y, l.
by have [a [x [b [-> h1 h2]]]] := IH h; exists (y :: a), x, b; split=> //=; rewrite hy.
Qed.


Lemma hasN (T : Type) (p p' : pred T) (l : seq T) : ~~ has p l -> (forall k, p' k -> p k) -> ~~ has p' l.
Proof. by move=> h i; apply: contra h; apply: sub_has. Qed.

Definition both (a1 a2 : option arg) : bool := isSome a1 && isSome a2.
Lemma chooseS n s a1 a2 : spinArgOf s a1 = false -> spinArgOf s a2 = false -> both a1 a2 = false ->
  choose n.+1 s a1 a2 = let q := pick (c_subs s) 0 None in choose n s (omap In (ohead q)) (omap In (ohead (behead q))).
Proof. by move=> h1 h2; cbn [choose]; rewrite h1 h2; case: a1 {h1} => [x|]; case: a2 {h2}. Qed.
Lemma choose0 s a1 a2 : spinArgOf s a1 = false -> spinArgOf s a2 = false -> both a1 a2 = false ->
  choose 0 s a1 a2 = Err Py.RecursionError.
Proof. by move=> h1 h2; cbn [choose]; rewrite h1 h2; case: a1 {h1} => [x|]; case: a2 {h2}. Qed.

Lemma loops s (q := pick (c_subs s) 0 None) : spinArgOf s (omap In (ohead q)) = false -> ohead (behead q) = None ->
  forall n a1 a2, spinArgOf s a1 = false -> spinArgOf s a2 = false -> both a1 a2 = false ->
  choose n s a1 a2 = Err Py.RecursionError.
Proof.
move=> h1 h2; elim=> [|n IH] a1 a2 k1 k2 k3; first by rewrite choose0.
rewrite chooseS //; cbv zeta; rewrite -/q h2; apply: IH => //=.
by rewrite /both andbF.
Qed.

Lemma nthIn2 (T : Type) (a b c : seq T) (x y z : T) m n : size a = m -> size b = n ->
  nth z (a ++ x :: (b ++ y :: c)) (m.+1 + n) = y.
Proof. by move=> <- <-; rewrite nth_cat addSnnS ltnNge leq_addr /= addKn /= nth_cat ltnn subnn. Qed.

(** The search of couplerDecorator. *)
Definition search n s : result (arg * arg) :=
  let q := pick (c_subs s) 0 None in choose n s (omap In (ohead q)) (omap In (ohead (behead q))).

Lemma searchE n s : search n s =
  match picked s with
  | Some p => Ok (In p.1, In p.2)
  | None => if has isSpin (map (@s_kind C) (c_subs s)) then Err Py.ValueError else Err Py.RecursionError
  end.
Proof.
rewrite /search; set l := c_subs s.
have nthK k : s_kind (nth (sub0 C) l k) = nth KOther (map (@s_kind C) l) k.
  have [h|h] := ltnP k (size l); first by rewrite (nth_map (sub0 C)).
  by rewrite !nth_default // size_map.
case hr: (has rel (map (@s_kind C) l)); last first.
  have hs : has isSpin (map (@s_kind C) l) = false.
    by apply/negbTE; apply: hasN (negbT hr) _; case.
  have -> : picked s = None by rewrite /picked -!has_find hs /= andbF.
  have e : pick l 0 None = [::].
    rewrite -[l]cats0 pick_skip //; by apply: hasN (negbT hr) _; case.
  rewrite hs e; apply: loops => //; by rewrite -/l e.
have : has (fun x => rel (s_kind x)) l by rewrite has_map in hr.
case/findSplit=> a [x [b [el ha hx]]].
have hka : ~~ has rel (map (@s_kind C) a) by rewrite has_map.
have hac : has isCav (map (@s_kind C) a) = false.
  by apply/negbTE; apply: hasN hka _; case.
have has_ : has isSpin (map (@s_kind C) a) = false.
  by apply/negbTE; apply: hasN hka _; case.
have ek : map (@s_kind C) l = map (@s_kind C) a ++ s_kind x :: map (@s_kind C) b by rewrite el map_cat.
have nA : nth KOther (map (@s_kind C) l) (size a) = s_kind x.
  by rewrite ek nth_cat size_map ltnn subnn.
have e0 : pick l 0 None = pick b (size a).+1 (Some (size a, s_kind x)).
  rewrite el pick_skip /= ?add0n; last by rewrite /cond; under eq_has do rewrite andbT.
  by rewrite -/(rel _) hx.
have fp (p : pred kind) : has p (map (@s_kind C) a) = false ->
    find p (map (@s_kind C) l) = (size a + find p (s_kind x :: map (@s_kind C) b))%N.
  by move=> h; rewrite ek find_cat h size_map.
have ec := fp _ hac; have es := fp _ has_.
have hasS : has isSpin (map (@s_kind C) l) = isSpin (s_kind x) || has isSpin (map (@s_kind C) b) by rewrite ek has_cat has_.
have hasC : has isCav (map (@s_kind C) l) = isCav (s_kind x) || has isCav (map (@s_kind C) b) by rewrite ek has_cat hac.
rewrite /picked -!has_find.
case kx: (s_kind x) hx nA e0 ec es hasS hasC => //= _ nA e0 ec es hasS hasC.
- rewrite hasC hasS.
  have -> : (find isCav (map (@s_kind C) l) - find isSpin (map (@s_kind C) l) = 0)%N.
    by apply/eqP; rewrite subn_eq0 ec es leq_add2l.
  rewrite take0 /= andbF andbT.
  case hb: (has isSpin (map (@s_kind C) b)) => /=; last first.
    have e : pick l 0 None = [:: size a].
      rewrite e0 -[b]cats0 pick_skip //; by apply: hasN (negbT hb) _; case.
    by rewrite e; apply: loops; rewrite -/l ?e //= nthK nA.
  have : has (fun y => isSpin (s_kind y)) b by rewrite has_map in hb.
  case/findSplit=> b1 [y [b2 [eb hb1 hy]]].
  have fb : find isSpin (map (@s_kind C) b) = size b1.
    by rewrite eb map_cat find_cat size_map has_map (negbTE hb1) /= hy addn0.
  have e : pick l 0 None = [:: size a; ((size a).+1 + size b1)%N].
    rewrite e0 eb pick_skip /=.
      by move: hy; case: (s_kind y).
    by rewrite has_map; apply: hasN hb1 _ => k /=; case: (s_kind k).
  have nB : nth KOther (map (@s_kind C) l) ((size a).+1 + size b1)%N = s_kind y.
    by rewrite ek eb map_cat; apply: nthIn2; rewrite size_map.
  rewrite e /= ec es fb !addnS addn0 /=; case: n => [|n]; cbn [choose]; rewrite /= !nthK nA nB /= hy //.
- rewrite hasC hasS es addn0 nA /=.
  pose p k := isCav k || plain k.
  case hb: (has p (map (@s_kind C) b)) => /=; last first.
    have e : pick l 0 None = [:: size a].
      rewrite e0 -[b]cats0 pick_skip //; by apply: hasN (negbT hb) _; case.
    have -> : has isCav (map (@s_kind C) b) = false.
      by apply/negbTE; apply: hasN (negbT hb) _; case.
    by rewrite e /=; case: n => [|n]; cbn [choose]; rewrite /= nthK nA.
  have : has (fun y => p (s_kind y)) b by rewrite has_map in hb.
  case/findSplit=> b1 [y [b2 [eb hb1 hy]]].
  have e : pick l 0 None = [:: size a; ((size a).+1 + size b1)%N].
    rewrite e0 eb pick_skip /=.
      by move: hy; rewrite /p; case: (s_kind y).
    by rewrite has_map; apply: hasN hb1 _ => k /=; case: (s_kind k).
  have nB : nth KOther (map (@s_kind C) l) ((size a).+1 + size b1)%N = s_kind y.
    by rewrite ek eb map_cat; apply: nthIn2; rewrite size_map.
  have hb1c : has isCav (map (@s_kind C) b1) = false.
    by rewrite has_map; apply/negbTE; apply: hasN hb1 _ => k /=; case: (s_kind k).
  have hb1p : has plain (map (@s_kind C) b1) = false.
    by rewrite has_map; apply/negbTE; apply: hasN hb1 _ => k /=; case: (s_kind k).
  have dl : drop (size a) (map (@s_kind C) l) = KQubit :: map (@s_kind C) b by rewrite ek drop_size_cat ?size_map // kx.
  rewrite dl ec addKn /= -/plain eb map_cat /= has_cat find_cat hb1c /= size_map e /=.
  case hc: (isCav (s_kind y)) => /=; rewrite ?addn0.
    rewrite take_size_cat ?size_map // hb1p /= -addSnnS.
    by case: n => [|n]; cbn [choose]; rewrite /= !nthK nA nB hc.
  have hp : plain (s_kind y) by move: hy; rewrite /p hc.
  have -> : has plain (take (size b1 + (find isCav (map (@s_kind C) b2)).+1) (map (@s_kind C) b1 ++ s_kind y :: map (@s_kind C) b2)).
    by rewrite take_cat size_map ltnNge leq_addr /= addKn has_cat /= hp orbT.
  rewrite /= andbF.
  by case: n => [|n]; cbn [choose]; rewrite /= !nthK nA nB hc.
- rewrite hasC hasS es addn0 nA /= andbT.
  case hb: (has isCav (map (@s_kind C) b)) => /=; last first.
    have e : pick l 0 None = [:: size a].
      rewrite e0 -[b]cats0 pick_skip //; by apply: hasN (negbT hb) _; case.
    by rewrite e /=; case: n => [|n]; cbn [choose]; rewrite /= nthK nA.
  have : has (fun y => isCav (s_kind y)) b by rewrite has_map in hb.
  case/findSplit=> b1 [y [b2 [eb hb1 hy]]].
  have fb : find isCav (map (@s_kind C) b) = size b1.
    by rewrite eb map_cat find_cat size_map has_map (negbTE hb1) /= hy addn0.
  have e : pick l 0 None = [:: size a; ((size a).+1 + size b1)%N].
    rewrite e0 eb pick_skip /=.
      by move: hy; case: (s_kind y).
    by rewrite has_map; apply: hasN hb1 _ => k /=; case: (s_kind k).
  have nB : nth KOther (map (@s_kind C) l) ((size a).+1 + size b1)%N = s_kind y.
    by rewrite ek eb map_cat; apply: nthIn2; rewrite size_map.
  rewrite e /= ec fb -addSnnS.
  by case: n => [|n]; cbn [choose]; rewrite /= !nthK nA nB hy.
Qed.

(** couplerDecorator as a whole. *)
Lemma chooseE n s a1 a2 : (0 < n)%N -> choose n s a1 a2 =
  match wanted s a1 a2 with
  | Some r => Ok r
  | None =>
      match a1, a2 with
      | Some x, Some y => if isSpin (argKind s x) || isSpin (argKind s y) then Err Py.ValueError else Err Py.UnboundLocalError
      | _, _ => if spinArgOf s a1 || spinArgOf s a2 || has isSpin (map (@s_kind C) (c_subs s))
                then Err Py.ValueError else Err Py.RecursionError
      end
  end.
Proof.
case: n => // n _.
case h1: (spinArgOf s a1); case h2: (spinArgOf s a2); last first.
  case h3: (both a1 a2).
    case: a1 h1 h3 => [x|] //; case: a2 h2 => [y|] //; cbn [spinArgOf] => h2 h1 _.
    by rewrite /wanted; cbn [choose spinArgOf cavArgOf]; rewrite h1 h2 andbF.
  rewrite chooseS //; have := searchE n s; rewrite /search => ->.
  rewrite /wanted; case: a1 h1 h3 => [x|]; case: a2 h2 => [y|] //; cbn [spinArgOf]; rewrite ?orbF ?orFb;
    [move=> _ h _ | move=> h _ _ | move=> _ _ _]; rewrite ?h; by case: (picked s) => [[]|].
all: move: h1 h2; case: a1 => [x|] //; case: a2 => [y|] //; rewrite /wanted; cbn [choose spinArgOf cavArgOf] => h1 h2;
  rewrite ?h1 ?h2 //=; move: h1 h2; by case: (argKind s x) => //; case: (argKind s y).
Qed.
(** ** Products of factors *)
Lemma prodEnt_mkseq (F : nat -> mat C) n u v m : size u = n -> size v = n ->
  prodEnt (map F (iota m n)) u v = \prod_(k < n) ent (F (m + k)%N) (nth 0%N u k) (nth 0%N v k).
Proof.
elim: n u v m => [|n IH] [|i u] [|j v] m //=; first by rewrite big_ord0.
move=> [hu] [hv]; rewrite IH // big_ord_recl /= addn0; congr (_ * _).
by apply: eq_bigr => k _; rewrite addSnnS.
Qed.

Lemma isIdx_size ds u : isIdx ds u -> size u = size ds.
Proof. by elim: ds u => [|d ds IH] [|i u] //= /andP[_ /IH ->]. Qed.
Lemma isIdx_nth ds u k : isIdx ds u -> (k < size ds)%N -> (nth 0%N u k < nth 0%N ds k)%N.
Proof. by elim: ds u k => [|d ds IH] [|i u] [|k] //= /andP[h /IH h']; [|apply: h']. Qed.

Definition fits (ds : seq nat) (F : nat -> mat C) : Prop :=
  forall k, (k < size ds)%N -> rows (F k) = nth 0%N ds k /\ cols (F k) = nth 0%N ds k.

Lemma fits_rows ds F : fits ds F -> map (@rows C) (mkseq F (size ds)) = ds /\ map (@cols C) (mkseq F (size ds)) = ds.
Proof.
by move=> h; split; apply: (@eq_from_nth _ 0%N); rewrite !size_map size_iota // => k hk;
  rewrite (nth_map (idm C 1)) ?size_mkseq // nth_mkseq //; case: (h k hk).
Qed.

Lemma ent_fac ds F u v : fits ds F -> isIdx ds u -> isIdx ds v ->
  ent (tens (mkseq F (size ds))) (enc ds u) (enc ds v) = \prod_(k < size ds) ent (F k) (nth 0%N u k) (nth 0%N v k).
Proof.
move=> /fits_rows[e1 e2] hu hv.
have := @ent_tens C (mkseq F (size ds)) u v; rewrite e1 e2 => ->//.
rewrite /mkseq prodEnt_mkseq ?(isIdx_size hu) ?(isIdx_size hv) //.
Qed.

Lemma square_fac ds F : fits ds F -> square (prodn ds) (tens (mkseq F (size ds))).
Proof. by move=> /fits_rows[e1 e2]; split; rewrite ?rows_tens ?cols_tens ?e1 ?e2. Qed.

Definition one (ds : seq nat) k (A : mat C) i : mat C := if i == k then A else idm C (nth 0%N ds i).
Definition two (ds : seq nat) c q (A B : mat C) i : mat C := if i == c then A else one ds q B i.

Lemma comp_fac ds k A : (k < size ds)%N ->
  kron (idm C (prodn (take k ds))) (kron A (idm C (prodn (drop k.+1 ds)))) = tens (mkseq (one ds k A) (size ds)).
Proof.
move=> hk; rewrite -!tens_int -[kron A _]/(tens (A :: _)) -tens_cat; congr tens.
apply: (@eq_from_nth _ (idm C 1)); first by rewrite size_cat /= !size_map size_take hk size_drop size_iota -subSn // subSS subnKC // ltnW.
move=> i; rewrite size_cat /= !size_map size_take hk size_drop => hi.
have hi' : (i < size ds)%N by move: hi; rewrite -subSn // subSS subnKC // ltnW.
rewrite nth_mkseq // /one nth_cat size_map size_take hk; case: ltngtP => h.
- by rewrite (nth_map 0%N) ?size_take ?hk // nth_take.
- case e: (i - k)%N => [|m]; first by move/eqP: e; rewrite subn_eq0 leqNgt h.
  rewrite /= (nth_map 0%N) ?nth_drop; last by rewrite size_drop ltn_subRL addSnnS -e subnKC // ltnW.
  by rewrite addSnnS -e subnKC // ltnW.
- by rewrite h subnn.
Qed.

Lemma fits_one ds k A : rows A = nth 0%N ds k -> cols A = nth 0%N ds k -> fits ds (one ds k A).
Proof. by move=> hr hc i hi; rewrite /one; case: eqP => [->|_]. Qed.
Lemma fits_two ds c q A B : rows A = nth 0%N ds c -> cols A = nth 0%N ds c ->
  rows B = nth 0%N ds q -> cols B = nth 0%N ds q -> fits ds (two ds c q A B).
Proof. by move=> hr hc hr' hc' i hi; rewrite /two; case: eqP => [->|_] //; apply: fits_one. Qed.

Lemma mul_fac ds c q A B : c != q -> rows A = nth 0%N ds c -> cols A = nth 0%N ds c ->
  rows B = nth 0%N ds q -> cols B = nth 0%N ds q ->
  mmul (tens (mkseq (one ds c A) (size ds))) (tens (mkseq (one ds q B) (size ds))) =
  Ok (tens (mkseq (two ds c q A B) (size ds))).
Proof.
move=> ne rA cA rB cB.
have [e1 e2] : cols (tens (mkseq (one ds c A) (size ds))) = rows (tens (mkseq (one ds q B) (size ds))) /\
  mulm (tens (mkseq (one ds c A) (size ds))) (tens (mkseq (one ds q B) (size ds))) = tens (mkseq (two ds c q A B) (size ds)).
  apply: tens_mul; first by rewrite !size_mkseq.
  rewrite /mkseq zip_map -map_comp -[in RHS]map_comp; apply/eq_in_map => i; rewrite mem_iota add0n /= => hi.
  have [r1 c1] := fits_one rA cA hi; have [r2 c2] := fits_one rB cB hi.
  rewrite mmulE ?c1 ?r2 // /two /one; congr Ok; case: eqP => [->|_].
    by rewrite (negbTE ne) mulm1.
  by rewrite mul1m //; case: ifP => // /eqP ->.
by rewrite mmulE // e2.
Qed.

Lemma prod_bool n (P b : pred 'I_n) : \prod_(k < n | P k) (b k)%:R = [forall (k | P k), b k]%:R :> C.
Proof.
case h: [forall (k | P k), b k]; first by rewrite big1 // => k hk; move/forall_inP: h => ->.
move/negbT: h; rewrite negb_forall_in => /exists_inP[k hk /negbTE e].
by rewrite (bigD1 k) //= e mul0r.
Qed.

Lemma ent_two ds c q A B u v : c != q -> (c < size ds)%N -> (q < size ds)%N ->
  rows A = nth 0%N ds c -> cols A = nth 0%N ds c -> rows B = nth 0%N ds q -> cols B = nth 0%N ds q ->
  isIdx ds u -> isIdx ds v ->
  ent (tens (mkseq (two ds c q A B) (size ds))) (enc ds u) (enc ds v) =
  (all (fun k => [|| k == c, k == q | nth 0%N u k == nth 0%N v k]) (iota 0 (size ds)))%:R *
  (ent A (nth 0%N u c) (nth 0%N v c) * ent B (nth 0%N u q) (nth 0%N v q)).
Proof.
move=> ne hc hq rA cA rB cB hu hv; rewrite ent_fac //; last exact: fits_two.
rewrite (bigD1 (Ordinal hc)) //= (bigD1 (Ordinal hq)) /=; last by rewrite -val_eqE /= eq_sym.
rewrite {1}/two eqxx {1}/two {1}/one eqxx eq_sym (negbTE ne) mulrA mulrC; congr (_ * _).
rewrite (eq_bigr (fun k : 'I_(size ds) => (nth 0%N u k == nth 0%N v k)%:R)); last first.
  move=> k /andP[h1 h2]; rewrite -!val_eqE /= in h1 h2.
  by rewrite /two /one (negbTE h1) (negbTE h2) ent_idm isIdx_nth ?andbT.
rewrite prod_bool; congr ((nat_of_bool _)%:R).
apply/forall_inP/allP => h k.
  rewrite mem_iota add0n => /= hk; have := h (Ordinal hk); rewrite -!val_eqE /=.
  by case: eqP => //= _; case: eqP => //= _; apply.
rewrite -!val_eqE /= => /andP[h1 h2]; have := h k; rewrite mem_iota add0n ltn_ord => /(_ isT).
by rewrite (negbTE h1) (negbTE h2).
Qed.

Lemma ent_one ds k A u v (x : nat -> C) : (k < size ds)%N -> rows A = nth 0%N ds k -> cols A = nth 0%N ds k ->
  (forall i j, (i < nth 0%N ds k)%N -> (j < nth 0%N ds k)%N -> ent A i j = (i == j)%:R * x i) ->
  isIdx ds u -> isIdx ds v ->
  ent (tens (mkseq (one ds k A) (size ds))) (enc ds u) (enc ds v) = (u == v)%:R * x (nth 0%N u k).
Proof.
move=> hk rA cA hA hu hv; rewrite ent_fac //; last exact: fits_one.
have [->|ne] := eqVneq u v.
  rewrite (bigD1 (Ordinal hk)) //= {1}/one eqxx hA ?isIdx_nth // eqxx big1 ?mulr1 // => i.
  by rewrite -val_eqE /= => /negbTE h; rewrite /one h ent_idm isIdx_nth // eqxx.
have [i hi] : exists i : 'I_(size ds), nth 0%N u i != nth 0%N v i.
  apply/existsP; apply: contraNT ne; rewrite negb_exists => /forallP h.
  apply/eqP; apply: (@eq_from_nth _ 0%N); rewrite ?(isIdx_size hu) ?(isIdx_size hv) // => i hi.
  by have := h (Ordinal hi); rewrite negbK => /eqP.
rewrite (bigD1 i) //= /one; case: eqP => e; last by rewrite ent_idm (negbTE hi) !mul0r.
by rewrite hA -?e ?isIdx_nth // (negbTE hi) !mul0r.
Qed.

(** ** Operators *)
Definition oEnt (o : oper) (d i j : nat) : C :=
  match o with
  | ODestroy => lower C i j
  | OCreate => lower C j i
  | OJp => raise C d i j
  | OJm => raise C d j i
  | OSigmax => (i != j)%:R
  | OJx => (raise C d i j + raise C d j i) / 2%:R
  | _ => (i == j)%:R * value C o d i
  end.
Definition oOk (o : oper) (d : nat) : bool := (1 < d)%N && (isPauli o ==> (d == 2%N)) && (if o is ONone then false else true).

Lemma lowerE d i j : (j < d)%N -> ent (upm d (rt C)) i j = lower C i j.
Proof. by move=> hj; rewrite ent_upm hj andbT /lower /rt; case: eqP => [->|_]; rewrite ?mul1r ?mul0r ?addn1. Qed.
Lemma createEnt d i j : (i < d)%N -> ent (dnm d (rt C)) i j = lower C j i.
Proof. by move=> hj; rewrite ent_dnm hj andbT /lower /rt; case: eqP => [->|_]; rewrite ?mul1r ?mul0r ?addn1. Qed.
Lemma raiseE n i j : (j < n.+1)%N -> ent (upm n.+1 (jp C n)) i j = raise C n.+1 i j.
Proof. by move=> hj; rewrite ent_upm hj andbT /raise /jp; case: eqP => [->|_]; rewrite ?mul1r ?mul0r ?subSS. Qed.
Lemma jmEnt n i j : (i < n.+1)%N -> ent (dnm n.+1 (jp C n)) i j = raise C n.+1 j i.
Proof. by move=> hj; rewrite ent_dnm hj andbT /raise /jp; case: eqP => [->|_]; rewrite ?mul1r ?mul0r ?subSS. Qed.

Lemma operMatE o d : oOk o d -> exists M : mat C, [/\ operMat C o d = Ok M, rows M = d, cols M = d &
  forall i j, (i < d)%N -> (j < d)%N -> ent M i j = oEnt o d i j].
Proof.
move=> /andP[/andP[hd hp] ho]; rewrite /operMat.
have -> : (d == 1%N) = false by apply/gtn_eqF.
case: d hd hp => // n hd hp.
have sj : spinArg ((n.+1%:R - 1) / 2%:R) false n by left; split=> //; rewrite -natr1 addrK.
have dg (f : nat -> C) i j : (i < n.+1)%N -> ent (dgm n.+1 f) i j = (i == j)%:R * f i.
  by move=> hi; rewrite ent_dgm hi andbT; case: eqP => [->|_]; rewrite ?mul1r ?mul0r.
case: o hp ho => //= hp _; rewrite ?(eqP hp) ?numberE ?destroyE ?createE ?(JpE C sj) ?(JmE C sj) ?(JzE C sj) ?(JxE C sj) ?sigmazE ?sigmaxE ?eqxx /=;
  eexists; (split; [reflexivity | by [] | by [] | move=> i j hi hj]).
- by rewrite dg.
- by rewrite dg.
- by case: i hi => [|[|i]] // _; case: j hj => [|[|j]] // _; rewrite ent_mk //= ?mul1r ?mul0r.
- exact: lowerE.
- exact: createEnt.
- exact: raiseE.
- exact: jmEnt.
- by case: i hi => [|[|i]] // _; case: j hj => [|[|j]] // _; rewrite ent_mk //=.
- by rewrite /jx ent_scalem ent_addm // raiseE // jmEnt // mul1r mulrC.
Qed.

(** ** Hamiltonians *)
Lemma size_dims s : size (dims s) = size (c_subs s). Proof. exact: size_map. Qed.
Lemma nth_dims s k : (k < size (c_subs s))%N -> nth 0%N (dims s) k = s_dim (subAt s k).
Proof. by move=> h; rewrite /dims (nth_map (sub0 C)). Qed.

Definition dimsOk (s : comp C) : Prop := all (fun x => 1 < s_dim x)%N (c_subs s).
Lemma prodn_gt0 ds : all (fun d => 0 < d)%N ds -> (0 < prodn ds)%N.
Proof. by elim: ds => [|d ds IH] //= /andP[h /IH h']; rewrite muln_gt0 h. Qed.
Lemma all_take_gt0 (ds : seq nat) k : all (fun d => 0 < d)%N ds -> all (fun d => 0 < d)%N (take k ds).
Proof. by move=> h; apply/allP => d /mem_take hd; move/allP: h => /(_ d hd). Qed.
Lemma all_drop_gt0 (ds : seq nat) k : all (fun d => 0 < d)%N ds -> all (fun d => 0 < d)%N (drop k ds).
Proof. by move=> h; apply/allP => d /mem_drop hd; move/allP: h => /(_ d hd). Qed.
Lemma dims_gt0 s : dimsOk s -> all (fun d => 0 < d)%N (dims s).
Proof. by rewrite /dimsOk /dims all_map; apply: sub_all => x /= h; apply: ltnW. Qed.

Lemma embeddedE s k o : dimsOk s -> (k < size (c_subs s))%N -> oOk o (s_dim (subAt s k)) ->
  exists A, [/\ operMat C o (s_dim (subAt s k)) = Ok A, rows A = nth 0%N (dims s) k, cols A = nth 0%N (dims s) k,
    (forall i j, (i < nth 0%N (dims s) k)%N -> (j < nth 0%N (dims s) k)%N -> ent A i j = oEnt o (nth 0%N (dims s) k) i j) &
    embedded s (k, o) = Ok (tens (mkseq (one (dims s) k A) (size (dims s))))].
Proof.
move=> hd hk ho; have [A [e r c hA]] := operMatE ho; exists A.
rewrite nth_dims //; split=> //.
rewrite /embedded /= -/(subAt s k) e /= compositeOpE /before /after -/(dims s).
have h1 : (0 < prodn (take k (dims s)))%N by apply/prodn_gt0/all_take_gt0/dims_gt0.
have h2 : (0 < prodn (drop k.+1 (dims s)))%N by apply/prodn_gt0/all_drop_gt0/dims_gt0.
by rewrite !foldr_muln !maxn1 // comp_fac // size_dims.
Qed.

Lemma termHamE s c q o o' g : dimsOk s -> c != q -> (c < size (c_subs s))%N -> (q < size (c_subs s))%N ->
  oOk o (s_dim (subAt s c)) -> oOk o' (s_dim (subAt s q)) ->
  exists M, termHam s (Trm [:: (c, o); (q, o')] (Some g)) = Ok M /\
    hasEnts s (fun u v => g * ((same s c q u v)%:R * (oEnt o (s_dim (subAt s c)) (nth 0%N u c) (nth 0%N v c) *
                                                     oEnt o' (s_dim (subAt s q)) (nth 0%N u q) (nth 0%N v q)))) M.
Proof.
move=> hd ne hc hq ho ho'.
have [A [_ rA cA hA eA]] := embeddedE hd hc ho; have [B [_ rB cB hB eB]] := embeddedE hd hq ho'.
rewrite /termHam /= eA eB /= mul_fac //; eexists; split; first by [].
have hf := fits_two rA cA rB cB; have [r c0] := square_fac hf.
split; first by split; rewrite ?rows_scalem ?cols_scalem.
move=> u v hu hv; rewrite ent_scalem ent_two ?size_dims // /same; congr (_ * (_ * _)).
by rewrite hA ?hB ?isIdx_nth ?size_dims // !nth_dims.
Qed.

Lemma subHamE s k : dimsOk s -> (k < size (c_subs s))%N -> plainSub (subAt s k) ->
  exists M, subHam s k = Ok M /\
    hasEnts s (fun u v => (u == v)%:R * (odflt 0 (s_freq (subAt s k)) * value C (s_oper (subAt s k)) (s_dim (subAt s k)) (nth 0%N u k))) M.
Proof.
move=> hd hk /and3P[h1 h2 h3].
have ho : oOk (s_oper (subAt s k)) (s_dim (subAt s k)) by rewrite /oOk h1; case: (s_oper _) h3 => //= ->.
have [A [_ rA cA hA eA]] := embeddedE hd hk ho.
rewrite /subHam -/(subAt s k); case: (s_freq _) h2 => // w _; rewrite eA /=; eexists; split; first by [].
have hf := fits_one rA cA; have [r c0] := square_fac hf.
split; first by split; rewrite ?rows_scalem ?cols_scalem.
move=> u v hu hv.
have hk' : (k < size (dims s))%N by rewrite size_dims.
have hV : forall i j, (i < nth 0%N (dims s) k)%N -> (j < nth 0%N (dims s) k)%N ->
    ent A i j = (i == j)%:R * value C (s_oper (subAt s k)) (s_dim (subAt s k)) i.
  by move=> i j hi hj; rewrite hA // nth_dims //; case: (s_oper _) h3.
by rewrite ent_scalem (ent_one hk' rA cA hV hu hv) mulrCA.
Qed.

Lemma sumMatsE n (l : seq (mat C)) : l <> [::] -> all (fun M => (rows M == n) && (cols M == n)) l ->
  exists H, [/\ sumMats l = Ok H, square n H & forall i j, ent H i j = \sum_(M <- l) ent M i j].
Proof.
case: l => // x l _ /= /andP[/andP[/eqP rx /eqP cx] hl].
elim: l x rx cx hl => [|y l IH] x rx cx /=; first by move=> _; exists x; split=> // i j; rewrite big_seq1.
move=> /andP[/andP[/eqP ry /eqP cy] hl]; rewrite maddE ?rx ?cx //.
have [|||H [e1 e2 e3]] := IH (addm x y) => //; exists H; split=> // i j.
by rewrite e3 !big_cons ent_addm ?rx ?cx // addrA.
Qed.

Lemma allOkE s (T : Type) (f : T -> result (mat C)) (E : T -> seq nat -> seq nat -> C) (P : T -> Prop) (l : seq T) :
  (forall x, P x -> exists M, f x = Ok M /\ hasEnts s (E x) M) -> foldr (fun x b => P x /\ b) True l ->
  exists Ms, [/\ allOk (map f l) = Ok Ms, size Ms = size l,
    all (fun M => (rows M == prodn (dims s)) && (cols M == prodn (dims s))) Ms &
    forall u v, isIdx (dims s) u -> isIdx (dims s) v ->
      \sum_(M <- Ms) ent M (enc (dims s) u) (enc (dims s) v) = \sum_(x <- l) E x u v].
Proof.
move=> h; elim: l => [|x l IH] /=; first by move=> _; exists [::]; split=> // u v _ _; rewrite !big_nil.
move=> [hx /IH[Ms [e1 e2 e3 e4]]]; have [M [eM [[r c] hM]]] := h x hx.
exists (M :: Ms); rewrite eM /= e1 /= r c !eqxx /= e2; split=> // u v hu hv.
by rewrite !big_cons e4 // hM.
Qed.

(** ** The two terms of a coupling *)
Definition opsOf (w : shape) : (oper * oper) * (oper * oper) :=
  match w with
  | Exchange => ((ODestroy, OJp), (OCreate, OJm))
  | Swap => ((ODestroy, OCreate), (OCreate, ODestroy))
  | FlipX => ((ODestroy, OSigmax), (OCreate, OSigmax))
  | FlipJ => ((ODestroy, OJx), (OCreate, OJx))
  end.
Definition pairOf (e : entry C) : seq (trm C) :=
  let o := opsOf (e_shape e) in
  [:: Trm [:: (e_cav e, o.1.1); (e_spin e, o.1.2)] (Some (e_g e));
      Trm [:: (e_cav e, o.2.1); (e_spin e, o.2.2)] (Some (e_g e))].
Definition goodEntry s (e : entry C) : bool :=
  [&& isCav (s_kind (subAt s (e_cav e))), isSpin (s_kind (subAt s (e_spin e))) &
      match e_shape e with
      | FlipX => zOper (s_oper (subAt s (e_spin e))) && (s_dim (subAt s (e_spin e)) \in [:: 2; 1]%N)
      | Swap => ~~ zOper (s_oper (subAt s (e_spin e)))
      | _ => zOper (s_oper (subAt s (e_spin e)))
      end].

Lemma kind_in s k : isCav (s_kind (subAt s k)) || isSpin (s_kind (subAt s k)) -> (k < size (c_subs s))%N.
Proof. by rewrite ltnNge; apply: contraL => h; rewrite /subAt nth_default. Qed.
Lemma good_in s e : goodEntry s e -> [/\ e_cav e != e_spin e, (e_cav e < size (c_subs s))%N & (e_spin e < size (c_subs s))%N].
Proof.
move=> /and3P[h1 h2 _]; split; try by apply: kind_in; rewrite ?h1 ?h2 ?orbT.
by apply/eqP => e'; move: h1 h2; rewrite e'; case: (s_kind _).
Qed.

Definition tEnt s (t : trm C) u v : C :=
  if t_parts t is [:: p; p'] then
    odflt 0 (t_freq t) * ((same s p.1 p'.1 u v)%:R *
      (oEnt p.2 (s_dim (subAt s p.1)) (nth 0%N u p.1) (nth 0%N v p.1) *
       oEnt p'.2 (s_dim (subAt s p'.1)) (nth 0%N u p'.1) (nth 0%N v p'.1)))
  else 0.
Definition tOk s (t : trm C) : Prop := exists M, termHam s t = Ok M /\ hasEnts s (tEnt s t) M.

Lemma pair_ok s e : dimsOk s -> goodEntry s e -> foldr (fun x b => tOk s x /\ b) True (pairOf e).
Proof.
move=> hd hg; have [ne hc hq] := good_in hg.
have dC : (1 < s_dim (subAt s (e_cav e)))%N by move/(all_nthP (sub0 C)): hd; apply.
have dQ : (1 < s_dim (subAt s (e_spin e)))%N by move/(all_nthP (sub0 C)): hd; apply.
move: hg => /and3P[_ _]; rewrite /pairOf; case: (e_shape e) => /= hg.
all: split; [|split=> //]; apply: termHamE => //; rewrite /oOk ?dC ?dQ //=.
all: by move: hg => /andP[_]; rewrite !inE => /orP[->|/eqP h] //; rewrite h in dQ.
Qed.

Lemma pair_ent s e u v : \sum_(t <- pairOf e) tEnt s t u v = e_g e * entryEnt s e u v.
Proof.
rewrite /pairOf !big_cons big_nil addr0 /tEnt /entryEnt /=.
case: (e_shape e) => /=; by rewrite ?mulrDl !mulrDr.
Qed.

Definition ledgerTerms (L : seq (entry C)) : seq (trm C) := flatten (map pairOf L).
Lemma ledger_ok s L : dimsOk s -> all (goodEntry s) L -> foldr (fun x b => tOk s x /\ b) True (ledgerTerms L).
Proof.
move=> hd; elim: L => [|e L IH] //= /andP[he /IH h].
by have [h1 [h2 _]] := pair_ok hd he.
Qed.

Lemma totalE s L : c_subs s <> [::] -> all (@plainSub C) (c_subs s) -> all (goodEntry s) L -> c_terms s = ledgerTerms L ->
  exists H, totalHam s = Ok H /\
    hasEnts s (fun u v => (u == v)%:R * freeEnergy s u + \sum_(e <- L) e_g e * entryEnt s e u v) H.
Proof.
move=> hne hp hL ht.
have hd : dimsOk s by apply: sub_all hp => x /and3P[].
pose P k := (k < size (c_subs s))%N.
have hI : foldr (fun k b => P k /\ b) True (iota 0 (size (c_subs s))).
  suff h n m : (m + n <= size (c_subs s))%N -> foldr (fun k b => P k /\ b) True (iota m n) by apply: h.
  elim: n m => [|n IH] m //= h; split; last by apply: IH; rewrite addSnnS.
  by apply: leq_trans h; rewrite -addSnnS leq_addr.
have hS k (hk : P k) := subHamE hd hk (elimT (all_nthP (sub0 C)) hp k hk).
have [As [a1 a2 a3 a4]] := allOkE hS hI.
have [|Bs [b1 b2 b3 b4]] := @allOkE s _ (termHam s) (tEnt s) (tOk s) (c_terms s) (fun x h => h).
- by rewrite ht; apply: ledger_ok.
have [||H [h1 h2 h3]] := @sumMatsE (prodn (dims s)) (As ++ Bs).
- by case: As {a1 a3 a4} a2; rewrite size_iota //; case: (c_subs s) hne.
- by rewrite all_cat a3.
exists H; rewrite /totalHam a1 /= b1 /= h1; split=> //; split=> // u v hu hv.
rewrite h3 big_cat /= a4 // b4 // ht big_flatten big_map.
congr (_ + _); last by apply: eq_bigr => e _; rewrite pair_ent.
rewrite -big_distrr /= /freeEnergy -(big_mkord xpredT (fun k => odflt 0 (s_freq (subAt s k)) * value C (s_oper (subAt s k)) (s_dim (subAt s k)) (nth 0%N u k))).
by rewrite /index_iota subn0.
Qed.

(** ** Histories *)
Variable lim : nat.
Hypothesis lim0 : (0 < lim)%N.

Lemma wanted_kinds s a1 a2 r : wanted s a1 a2 = Some r -> isCav (argKind s r.1) /\ isSpin (argKind s r.2).
Proof.
have nthK k : s_kind (nth (sub0 C) (c_subs s) k) = nth KOther (map (@s_kind C) (c_subs s)) k.
  have [h|h] := ltnP k (size (c_subs s)); first by rewrite (nth_map (sub0 C)).
  by rewrite !nth_default // size_map.
have hp p : picked s = Some p -> isCav (argKind s (In p.1)) /\ isSpin (argKind s (In p.2)).
  rewrite /picked -!has_find; case: ifP => // /and3P[h1 h2 _] [<-] /=.
  by rewrite !nthK !nth_find.
have ha : omap (fun p => (In p.1, In p.2)) (picked s) = Some r -> isCav (argKind s r.1) /\ isSpin (argKind s r.2).
  by case: (picked s) hp => [p|] // /(_ p erefl) h [<-].
rewrite /wanted; case: a1 => [x|]; case: a2 => [y|] //.
- case: ifP => [/andP[h1 h2] [<-]|_] //; by case: ifP => // /andP[h1 h2] [<-].
- by case: ifP.
- by case: ifP.
Qed.

Definition wfreq (g : C) (t : trm C) : trm C := Trm (t_parts t) (Some g).
Lemma setFreqE S (T T' : seq (trm C)) t1 t2 g :
  setFreq (Comp S (T ++ t1 :: t2 :: T')) (size T) g = Comp S (T ++ wfreq g t1 :: wfreq g t2 :: T').
Proof.
rewrite /setFreq /=; congr Comp; set t0 := Trm [::] None.
apply: (@eq_from_nth _ t0); first by rewrite size_mkseq !size_cat.
move=> i; rewrite size_mkseq => hi; rewrite nth_mkseq // !nth_cat; case: ltngtP => h.
- by rewrite ltn_eqF // ltnS ltnW.
- case e: (i - size T)%N => [|m]; first by move/eqP: e; rewrite subn_eq0 leqNgt h.
  have -> : i = (size T + m.+1)%N by rewrite -e subnKC // ltnW.
  by rewrite -[(size T).+1]addn1 eqn_add2l; case: m {e}.
- by rewrite h subnn.
Qed.

Lemma coupleE s g c q o1 o1' o2 o2' :
  couple s g c q o1 o1' o2 o2' =
  if [&& partOk s (c, o1), partOk s (q, o1'), partOk s (c, o2) & partOk s (q, o2')] then
    Ok (Comp (c_subs s) (c_terms s ++ [:: Trm [:: (posOf c, o1); (posOf q, o1')] (Some g); Trm [:: (posOf c, o2); (posOf q, o2')] (Some g)]),
        size (c_terms s))
  else Err Py.ValueError.
Proof.
rewrite /couple /createTerm /= !andbT.
case: (partOk s (c, o1)) => //=; case: (partOk s (q, o1')) => //=.
rewrite !andbT -[partOk (Comp _ _) (c, o2)]/(partOk s (c, o2)) -[partOk (Comp _ _) (q, o2')]/(partOk s (q, o2')).
case: (partOk s (c, o2)) => //=; case: (partOk s (q, o2')) => //=; congr (Ok (_, _)).
by rewrite -!cats1 -catA /= setFreqE.
Qed.

Lemma callE s w g a1 a2 :
  match added s w g a1 a2 with
  | Some e => goodEntry s e /\ callOf lim w s g a1 a2 = Ok (Comp (c_subs s) (c_terms s ++ pairOf e), size (c_terms s))
  | None => exists x, callOf lim w s g a1 a2 = Err x
  end.
Proof.
have hch := chooseE s a1 a2 lim0; have hk := @wanted_kinds s a1 a2.
rewrite /added; case ew: (wanted s a1 a2) hch hk => [[x y]|] hch hk; last first.
  have [er he] : exists er, choose lim s a1 a2 = Err er.
    by rewrite hch; case: a1 {hch ew hk} => [x|]; case: a2 => [y|] //; case: ifP => _; eexists.
  by exists er; case: w; rewrite /= /JC /Rabi /Dicke he.
have [kx ky] := hk _ erefl; rewrite /= in kx ky.
have pI i o : isCav (argKind s (In i)) || isSpin (argKind s (In i)) ->
    partOk s (In i, o) = isPauli o ==> (s_dim (subAt s i) \in [:: 2; 1]%N).
  by move=> h; rewrite /partOk /= kind_in.
have pO k o : partOk s (Out k, o) = false by [].
have hE (r : result (comp C * nat)) : (forall o, r <> Ok o) -> exists er, r = Err er by case: r => [o /(_ o)|er _] //; exists er.
case: x kx {hk ew} hch => [c|k] kx hch; last first.
  by apply: hE; case: w; rewrite /= /JC /Rabi /Dicke hch /= !coupleE !pO; case: ifP.
case: y ky hch => [q|k] ky hch; last first.
  by apply: hE; case: w; rewrite /= /JC /Rabi /Dicke hch /= !coupleE !pO !andbF; case: ifP.
have hx : isCav (argKind s (In c)) || isSpin (argKind s (In c)) by rewrite kx.
have hy : isCav (argKind s (In q)) || isSpin (argKind s (In q)) by rewrite ky orbT.
have kx' : isCav (s_kind (subAt s c)) by [].
have ky' : isSpin (s_kind (subAt s q)) by [].
rewrite -/(subAt s q).
case: w; rewrite /= /JC /Rabi /Dicke hch /= -/(subAt s q) !coupleE !pI //=; case hz: (zOper _) => /=;
  rewrite /goodEntry /= ?kx' ?ky' ?hz //=; try by eexists.
by case: ifP => hd; rewrite /= ?kx' ?ky' ?hz ?hd //=; eexists.
Qed.

Lemma mkseq_set (T : Type) (x0 : T) (f : T -> T) (L : seq T) k :
  mkseq (fun i => let e := nth x0 L i in if i == k then f e else e) (size L) =
  if (k < size L)%N then take k L ++ f (nth x0 L k) :: drop k.+1 L else L.
Proof.
elim: L k => [|y L IH] [|k] //=; rewrite /mkseq /=.
  congr cons; by rewrite (iotaDl 1 0) -map_comp drop0 -[in RHS](mkseq_nth x0 L) /mkseq; apply: eq_map.
rewrite (iotaDl 1 0) -map_comp ltnS.
have -> : [seq ((fun i => if i == k.+1 then f (nth x0 (y :: L) i) else nth x0 (y :: L) i) \o addn 1) i | i <- iota 0 (size L)] =
  mkseq (fun i => let e := nth x0 L i in if i == k then f e else e) (size L) by apply: eq_map.
by rewrite IH; case: ifP.
Qed.

Lemma size_ledgerTerms L : size (ledgerTerms L) = (size L).*2.
Proof. by elim: L => [|e L IH] //=; rewrite -/(ledgerTerms L) IH. Qed.
Lemma ledgerTerms_cat L L' : ledgerTerms (L ++ L') = ledgerTerms L ++ ledgerTerms L'.
Proof. by rewrite /ledgerTerms map_cat flatten_cat. Qed.

Lemma runE s l : c_terms s = [::] -> let L := ledger s l in
  [/\ run lim s l = World (Comp (c_subs s) (ledgerTerms L)) (mkseq double (size L)) & all (goodEntry s) L].
Proof.
case: s => S T /= ->; rewrite /run /ledger.
set s0 := Comp S [::].
elim/last_ind: l => [|l c [IH hg]]; first by [].
rewrite !foldl_rcons IH {IH}; set L := foldl _ _ l in hg *.
case: c => [w g a1 a2|k g]; cbn [step].
  have := callE (Comp S (ledgerTerms L)) w g a1 a2.
  rewrite -[added (Comp S (ledgerTerms L)) w g a1 a2]/(added s0 w g a1 a2) /post /=.
  case: (added s0 w g a1 a2) => [e|]; last by case=> x ->.
  case=> he -> /=; rewrite all_rcons hg andbT; split=> //.
  congr World; first by rewrite -[rcons L e]cats1 ledgerTerms_cat.
  by rewrite size_rcons /mkseq -[in RHS]addn1 iotaD map_cat /= cats1 add0n size_ledgerTerms.
pose e := nth (Entry Swap 0 0 0) L k; pose e' := Entry (e_shape e) (e_cav e) (e_spin e) g.
have -> : post s0 L (Freq k g) = if (k < size L)%N then take k L ++ e' :: drop k.+1 L else L.
  exact: (mkseq_set _ (fun e => Entry (e_shape e) (e_cav e) (e_spin e) g)).
rewrite /= size_mkseq; case: ltnP => hk //; rewrite nth_mkseq //.
have eL : L = take k L ++ e :: drop k.+1 L by rewrite -drop_nth // cat_take_drop.
have sz : size (take k L) = k by rewrite size_take hk.
split.
  congr World; last by rewrite [in LHS]eL !size_cat.
  have -> : k.*2 = size (ledgerTerms (take k L)) by rewrite size_ledgerTerms sz.
  by rewrite {1}eL !ledgerTerms_cat; apply: (setFreqE S (ledgerTerms (take k L)) (ledgerTerms (drop k.+1 L))).
rewrite eL all_cat /= in hg; rewrite all_cat /=.
by move: hg => /and3P[-> h ->]; rewrite andbT; move: h; rewrite /goodEntry /e'.
Qed.

(** ** Consequences *)
Lemma sqrtn_real n : (sqrtC n%:R)^* = sqrtC n%:R :> C.
Proof. by apply: geC0_conj; rewrite sqrtC_ge0 ler0n. Qed.
Lemma lower_real n n' : (lower C n n')^* = lower C n n'.
Proof. by rewrite /lower rmorphM conjC_nat sqrtn_real. Qed.
Lemma raise_real d n n' : (raise C d n n')^* = raise C d n n'.
Proof. by rewrite /raise rmorphM conjC_nat sqrtn_real. Qed.
Lemma shapeEnt_herm w d n n' i i' : shapeEnt C w d n n' i i' = (shapeEnt C w d n' n i' i)^*.
Proof.
have h2 : (2%:R^-1 : C)^* = 2%:R^-1 by rewrite fmorphV conjC_nat.
case: w => /=.
- move: (lower_real n n') (lower_real n' n) (raise_real d i i') (raise_real d i' i).
  move: (lower C n n') (lower C n' n) (raise C d i i') (raise C d i' i) => a b x y ha hb hx hy.
  by rewrite rmorphD !rmorphM /= ha hb hx hy addrC.
- move: (lower_real n n') (lower_real n' n) (lower_real i i') (lower_real i' i).
  move: (lower C n n') (lower C n' n) (lower C i i') (lower C i' i) => a b x y ha hb hx hy.
  by rewrite rmorphD !rmorphM /= ha hb hx hy addrC.
- move: (lower_real n n') (lower_real n' n); move: (lower C n n') (lower C n' n) => a b ha hb.
  by rewrite rmorphM rmorphD /= ha hb conjC_nat addrC eq_sym.
- move: (lower_real n n') (lower_real n' n) (raise_real d i i') (raise_real d i' i).
  move: (lower C n n') (lower C n' n) (raise C d i i') (raise C d i' i) => a b x y ha hb hx hy.
  by rewrite !rmorphM !rmorphD /= h2 ha hb hx hy addrC [x + y]addrC.
Qed.
Lemma sameC s c q u v : same s c q u v = same s c q v u.
Proof. by apply: eq_all => k; rewrite [nth 0%N u k == _]eq_sym. Qed.
Lemma entryEnt_herm s e u v : entryEnt s e u v = (entryEnt s e v u)^*.
Proof. by rewrite /entryEnt rmorphM conjC_nat -shapeEnt_herm sameC. Qed.

Lemma value_real o d i : (value C o d i)^* = value C o d i.
Proof.
case: o => //=; rewrite ?conjC_nat ?rmorph0 //; first by rewrite rmorphB rmorphM /= fmorphV !conjC_nat.
by case: eqP => _; rewrite ?rmorphN rmorph1.
Qed.

Lemma ledger_real s l : all (@realCall C) l -> all (fun e => e_g e \is Num.real) (ledger s l).
Proof.
rewrite /ledger; elim/last_ind: l => [|l c IH] //; rewrite all_rcons foldl_rcons => /andP[hc /IH h].
set L := foldl _ _ l in h *; case: c hc => [w g a1 a2|k g] hc.
  rewrite /post; case ea: (added s w g a1 a2) => [e|] //; rewrite all_rcons h andbT.
  have -> : e_g e = g; last by [].
  by move: ea; rewrite /added; case: (wanted _ _ _) => [[[c|x] [q|y]]|] //; case: w hc => // _; repeat (case: ifP => // _); case=> <-.
have -> : post s L (Freq k g) = if (k < size L)%N then take k L ++ (fun e => Entry (e_shape e) (e_cav e) (e_spin e) g) (nth (Entry Swap 0 0 0) L k) :: drop k.+1 L else L.
  exact: (mkseq_set _ (fun e => Entry (e_shape e) (e_cav e) (e_spin e) g)).
case: ifP => // hk; rewrite all_cat /= (hc : g \is Num.real) /=.
by rewrite -{1}[L](cat_take_drop k) all_cat (drop_nth (Entry Swap 0 0 0) hk) /= in h; case/and3P: h => -> _ ->.
Qed.

Definition jcShape (w : shape) : bool := match w with Exchange | Swap => true | _ => false end.
Lemma ledger_jc s l : all (@onlyJC C) l -> all (fun e => jcShape (e_shape e)) (ledger s l).
Proof.
rewrite /ledger; elim/last_ind: l => [|l c IH] //; rewrite all_rcons foldl_rcons => /andP[hc /IH h].
set L := foldl _ _ l in h *; case: c hc => [w g a1 a2|k g] hc.
  rewrite /post; case ea: (added s w g a1 a2) => [e|] //; rewrite all_rcons h andbT.
  by move: ea; rewrite /added; case: (wanted _ _ _) => [[[c|x] [q|y]]|] //; case: w hc => // _ [<-] /=; case: ifP.
have -> : post s L (Freq k g) = if (k < size L)%N then take k L ++ (fun e => Entry (e_shape e) (e_cav e) (e_spin e) g) (nth (Entry Swap 0 0 0) L k) :: drop k.+1 L else L.
  exact: (mkseq_set _ (fun e => Entry (e_shape e) (e_cav e) (e_spin e) g)).
case: ifP => // hk; rewrite all_cat /=.
by rewrite -{1}[L](cat_take_drop k) all_cat (drop_nth (Entry Swap 0 0 0) hk) /= in h; case/and3P: h => -> -> ->.
Qed.

Lemma exc_split s c q u v : c != q -> (c < size (c_subs s))%N -> (q < size (c_subs s))%N -> same s c q u v ->
  let x w k := excitation (subAt s k) (nth 0%N w k) in
  exists r, excitations s u = (x u c + (x u q + r))%N /\ excitations s v = (x v c + (x v q + r))%N.
Proof.
move=> ne hc hq hs x.
pose R w := (\sum_(k < size (c_subs s) | (k != Ordinal hc) && (k != Ordinal hq)) x w k)%N.
have h w : excitations s w = (x w c + (x w q + R w))%N.
  rewrite /excitations (bigD1 (Ordinal hc)) //= (bigD1 (Ordinal hq)) //=.
  by rewrite -val_eqE /= eq_sym.
exists (R u); rewrite !h; split=> //; congr (_ + (_ + _))%N; apply: eq_bigr => k /andP[h1 h2]; rewrite -!val_eqE /= in h1 h2.
move/allP: hs => /(_ k); rewrite mem_iota add0n ltn_ord (negbTE h1) (negbTE h2) => /(_ isT) /= /eqP e.
by rewrite /x e.
Qed.

Lemma lower0 n n' : n' != n.+1 -> lower C n n' = 0. Proof. by rewrite /lower => /negbTE ->; rewrite mul0r. Qed.
Lemma raise0 d n n' : n' != n.+1 -> raise C d n n' = 0. Proof. by rewrite /raise => /negbTE ->; rewrite mul0r. Qed.

Definition up1 (a b : nat) : Prop := b = a.+1.
Lemma lowerN0 n n' : lower C n n' <> 0 -> up1 n n'.
Proof. by move=> h; apply/eqP; apply: contra_notT h => /lower0 ->. Qed.
Lemma raiseN0 d n n' : raise C d n n' <> 0 -> up1 n n'.
Proof. by move=> h; apply/eqP; apply: contra_notT h => /(raise0 d) ->. Qed.
Lemma sumN0 (a b : C) : a + b <> 0 -> a <> 0 \/ b <> 0.
Proof. by move=> h; case: (eqVneq a 0) => [e|/eqP ne]; [right=> e'; apply: h; rewrite e e' addr0 | left]. Qed.
Lemma mulN0 (a b : C) : a * b <> 0 -> a <> 0 /\ b <> 0.
Proof. by move=> h; split=> e; apply: h; rewrite e ?mul0r ?mulr0. Qed.

Definition moves (w : shape) (n n' i i' : nat) : Prop :=
  match w with
  | Exchange => up1 n n' /\ up1 i i' \/ up1 n' n /\ up1 i' i
  | Swap => up1 n n' /\ up1 i' i \/ up1 n' n /\ up1 i i'
  | FlipX => (up1 n n' \/ up1 n' n) /\ i <> i'
  | FlipJ => (up1 n n' \/ up1 n' n) /\ (up1 i i' \/ up1 i' i)
  end.
Lemma shape_moves w d n n' i i' : shapeEnt C w d n n' i i' <> 0 -> moves w n n' i i'.
Proof.
case: w => /=.
- by move=> /sumN0[] /mulN0[/lowerN0 h1 /raiseN0 h2]; [left | right].
- by move=> /sumN0[] /mulN0[/lowerN0 h1 /lowerN0 h2]; [left | right].
- move=> /mulN0[/sumN0 h1 h2]; split; first by case: h1 => /lowerN0; [left | right].
  by move=> e; apply: h2; rewrite e eqxx.
- move=> /mulN0[/sumN0 h1 /mulN0[/sumN0 h2 _]]; split; first by case: h1 => /lowerN0; [left | right].
  by case: h2 => /raiseN0; [left | right].
Qed.

(** The change of the excitations by each kind of coupling. *)
Lemma entry_exc s e u v : dimsOk s -> goodEntry s e -> isIdx (dims s) u -> isIdx (dims s) v ->
  entryEnt s e u v <> 0 ->
  if jcShape (e_shape e) then excitations s u = excitations s v else odd (excitations s u) = odd (excitations s v).
Proof.
move=> hd hg hu hv; have [ne hc hq] := good_in hg; rewrite /entryEnt.
case hs: (same _ _ _ _ _); rewrite ?mul0r // mul1r => /shape_moves hm.
have [r [-> ->]] := exc_split ne hc hq hs.
have du := isIdx_nth hu; have dv := isIdx_nth hv; rewrite size_dims in du dv.
move: (du _ hq) (dv _ hq); rewrite !nth_dims // => hi hi'.
have dQ : (1 < s_dim (subAt s (e_spin e)))%N by move/(all_nthP (sub0 C)): hd; apply.
move: hg => /and3P[h1 h2 h3]; rewrite /excitation h2.
have -> : isSpin (s_kind (subAt s (e_cav e))) = false by case: (s_kind _) h1.
rewrite /=.
move: (nth 0%N u (e_cav e)) (nth 0%N v (e_cav e)) (nth 0%N u (e_spin e)) (nth 0%N v (e_spin e)) (s_dim _) h3 dQ hm hi hi' =>
  n n' i i' d.
have ar a b : up1 a b -> (b < d)%N -> (d.-1 - a = (d.-1 - b).+1)%N.
  by case: d => // d -> h; rewrite /= subnSK.
case: (e_shape e) => /=.
- move=> -> dQ + hi hi'; case=> -[e1 e2]; [rewrite e1 (ar _ _ e2) // | rewrite e1 (ar _ _ e2) //]; by rewrite !addSn addnS.
- move=> /negbTE -> dQ + hi hi'; case=> -[-> ->]; by rewrite !addSn addnS.
- move=> /andP[-> hd2] dQ [h hii'] hi hi'.
  have d2 : d = 2%N by move: hd2; rewrite !inE => /orP[/eqP|/eqP e0] //; rewrite e0 in dQ.
  have -> : odd (n' + (d.-1 - i' + r)) = odd (n' + (i' + r).+1).
    by rewrite d2 in hi' *; rewrite addnS /= !oddD; case: i' hi' {hii'} => [|[|]] //= _; case: (odd n'); case: (odd r).
  have -> : odd (n + (d.-1 - i + r)) = odd (n + (i + r).+1).
    by rewrite d2 in hi *; rewrite addnS /= !oddD; case: i hi {hii'} => [|[|]] //= _; case: (odd n); case: (odd r).
  rewrite !addnS /= !oddD; congr (~~ _).
  have -> : odd i' = ~~ odd i by rewrite d2 in hi hi'; case: i i' hi hi' hii' => [|[|]] // [|[|]].
  have -> : odd n' = ~~ odd n by case: h => -> /=; rewrite ?negbK.
  by case: (odd n); case: (odd i); case: (odd r).
- move=> -> dQ [h h'] hi hi'.
  have on : odd n' = ~~ odd n by case: h => -> /=; rewrite ?negbK.
  have oi : odd (d.-1 - i') = ~~ odd (d.-1 - i) by case: h' => h'; rewrite (ar _ _ h') //= ?negbK.
  by rewrite !oddD on oi; case: (odd n); case: (odd _); case: (odd r).
Qed.
End CP.
