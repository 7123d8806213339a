(** Proofs for C94: the invariant of the bookkeeping of dimensions of a composite system of single systems. *)
From Verif Require Import Py.
From mathcomp Require Import all_ssreflect.
From Verif Require Import OldDimModel OldDimSpec.
Set Implicit Arguments.
Unset Strict Implicit.
Unset Printing Implicit Defensive.

(** ** Lists *)
Fixpoint bf (D : nat -> nat) (t : nat) (l : seq nat) : nat :=
  match l with [::] => 1 | x :: l' => if x == t then 1 else D x * bf D t l' end.
Fixpoint af (D : nat -> nat) (t : nat) (l : seq nat) : nat :=
  match l with [::] => 1 | x :: l' => if x == t then \prod_(y <- l') D y else af D t l' end.
Lemma bfE D t l : bf D t l = \prod_(x <- take (index t l) l) D x.
Proof. by elim: l => [|x l IH] /=; rewrite ?big_nil //; case: (x == t); rewrite ?big_nil // big_cons IH. Qed.
Lemma afE D t l : af D t l = \prod_(x <- drop (index t l).+1 l) D x.
Proof. by elim: l => [|x l IH] /=; rewrite ?big_nil //; case: (x == t); rewrite ?drop0. Qed.

Section Lists.
Variable D : nat -> nat.
Hypothesis pos : forall x, 0 < D x.
Lemma prod_pos l : 0 < \prod_(x <- l) D x.
Proof. by elim: l => [|x l IH]; rewrite ?big_nil // big_cons muln_gt0 pos. Qed.
Lemma bf_pos t l : 0 < bf D t l.
Proof. by rewrite bfE prod_pos. Qed.
Lemma af_pos t l : 0 < af D t l.
Proof. by rewrite afE prod_pos. Qed.
Lemma bf_le t l : bf D t l <= \prod_(x <- l) D x.
Proof.
by elim: l => [|x l IH] /=; rewrite ?big_nil // big_cons; case: (x == t); rewrite ?leq_mul // muln_gt0 pos prod_pos.
Qed.
Lemma af_le t l : af D t l <= \prod_(x <- l) D x.
Proof.
by elim: l => [|x l IH] /=; rewrite ?big_nil // big_cons; case: (x == t); [|apply: leq_trans IH _]; rewrite leq_pmull.
Qed.
Lemma bfaf t l : t \in l -> D t * bf D t l * af D t l = \prod_(x <- l) D x.
Proof.
elim: l => //= x l IH; rewrite inE big_cons eq_sym; case: eqP => [->|_] /=; first by rewrite muln1.
by move=> h; rewrite -(IH h) mulnCA !mulnA.
Qed.

Lemma bf_cat t l s : t \in l -> bf D t (l ++ [:: s]) = bf D t l.
Proof. by elim: l => //= x l IH; rewrite inE eq_sym; case: eqP => //= _ h; rewrite IH. Qed.
Lemma af_cat t l s : t \in l -> af D t (l ++ [:: s]) = af D t l * D s.
Proof. by elim: l => //= x l IH; rewrite inE eq_sym; case: eqP => //= _ h; rewrite ?big_cat ?big_seq1 // IH. Qed.
Lemma bf_last l s : s \notin l -> bf D s (l ++ [:: s]) = \prod_(x <- l) D x.
Proof.
elim: l => [|x l IH] /=; first by rewrite eqxx big_nil.
by rewrite inE negb_or eq_sym big_cons => /andP [/negbTE -> h]; rewrite IH.
Qed.
Lemma af_last l s : s \notin l -> af D s (l ++ [:: s]) = 1.
Proof.
elim: l => [|x l IH] /=; first by rewrite eqxx big_nil.
by rewrite inE negb_or eq_sym => /andP [/negbTE -> h]; rewrite IH.
Qed.

Lemma prod_set q n l : uniq l -> q \in l ->
  \prod_(x <- l) D x = (\prod_(x <- rem q l) D x) * D q /\ \prod_(x <- l) setAt D q n x = (\prod_(x <- rem q l) D x) * n.
Proof.
move=> u h; rewrite !(perm_big _ (perm_to_rem h)) !big_cons /= [D q * _]mulnC [setAt _ _ _ _ * _]mulnC {2}/setAt eqxx.
split=> //; congr (_ * _); rewrite big_seq [RHS]big_seq; apply: eq_bigr => x.
by rewrite mem_rem_uniq // inE /= /setAt => /andP [/negbTE -> _].
Qed.
Lemma prod_setN q n l : q \notin l -> \prod_(x <- l) setAt D q n x = \prod_(x <- l) D x.
Proof.
move=> h; rewrite big_seq [RHS]big_seq; apply: eq_bigr => x hx; rewrite /setAt; case: eqP => // e.
by rewrite -e hx in h.
Qed.
Lemma set_self q n l : uniq l -> bf (setAt D q n) q l = bf D q l /\ af (setAt D q n) q l = af D q l.
Proof.
elim: l => //= x l IH /andP [h1 /IH [e1 e2]]; case: eqP => [e|ne]; last first.
  by rewrite e1 e2 /setAt; move/eqP/negbTE: ne => ->.
by rewrite prod_setN // -e.
Qed.
Lemma set_other q n t l : uniq l -> q \in l -> t \in l -> t != q ->
  if index t l < index q l then
    bf (setAt D q n) t l = bf D t l /\ exists R, af D t l = R * D q /\ af (setAt D q n) t l = R * n
  else index q l < index t l /\
    af (setAt D q n) t l = af D t l /\ exists R, bf D t l = R * D q /\ bf (setAt D q n) t l = R * n.
Proof.
elim: l => //= x l IH /andP [xl u]; rewrite !inE.
case: (eqVneq x q) => [e|nq]; case: (eqVneq x t) => [e'|nt].
- by move=> _ _; rewrite -e e' eqxx.
- rewrite -e in xl * => _; rewrite eq_sym (negbTE nt) /= => ht _; split=> //; split.
    elim: (l) xl ht u {IH} => //= y l' IH; rewrite !inE negb_or => /andP [xy xl].
    by rewrite eq_sym; case: (eqVneq y t) => /= [_ _ _|_ ht /andP [_ u]]; rewrite ?prod_setN // IH.
  exists (bf D t l); rewrite [D x * _]mulnC [setAt _ _ _ x * _]mulnC {2}/setAt eqxx; split=> //; congr (_ * _).
  elim: (l) xl {IH ht u} => //= y l' IH; rewrite inE negb_or => /andP [xy xl].
  by rewrite IH // /setAt [y == x]eq_sym (negbTE xy).
- rewrite /= => hq _ _; split=> //.
  have [e1 e2] := prod_set n u hq; exists (\prod_(y <- rem q l) D y); split=> //.
rewrite /= => hq ht ne; move: (IH u hq ht ne); rewrite ltnS.
have -> : setAt D q n x = D x by rewrite /setAt (negbTE nq).
case: ifP => _.
  by move=> [-> h]; split.
by move=> [h1 [-> [R [e1 e2]]]]; split=> //; split=> //; exists (D x * R); rewrite e1 e2 !mulnA.
Qed.
Lemma rem_other q t l : uniq l -> q \in l -> t \in l -> t != q ->
  if index t l < index q l then bf D t (rem q l) = bf D t l /\ af D t l = af D t (rem q l) * D q
  else index q l < index t l /\ af D t (rem q l) = af D t l /\ bf D t l = bf D t (rem q l) * D q.
Proof.
elim: l => //= x l IH /andP [xl u]; rewrite !inE.
case: (eqVneq x q) => [e|nq]; case: (eqVneq x t) => [e'|nt].
- by move=> _ _; rewrite -e e' eqxx.
- by move=> _ _ _; rewrite e mulnC.
- rewrite /= => hq _ _; rewrite e' eqxx; split=> //.
  by rewrite (perm_big _ (perm_to_rem hq)) big_cons mulnC.
rewrite /= => hq ht ne; move: (IH u hq ht ne); rewrite ltnS (negbTE nt).
case: ifP => _; first by move=> [-> h].
by move=> [h1 [-> ->]]; rewrite mulnA.
Qed.
End Lists.

(** ** Systems without sub-systems *)
Section Heap.
Variable fdiv : nat -> nat -> nat.
#[local] Arguments setBef : simpl never.
#[local] Arguments setAft : simpl never.
#[local] Arguments dimension : simpl never.
#[local] Arguments ind : simpl never.

Lemma setBef1 lim o v h : subs (h o) = [::] -> setBef fdiv lim.+1 o v h = (upd h o (withBef v (h o)), Ok tt).
Proof. by move=> e; rewrite /setBef /bindM /getBef /put /get /= /upd eqxx /= e. Qed.
Lemma setAft1 lim o v h : subs (h o) = [::] -> setAft fdiv lim.+1 o v h = (upd h o (withAft v (h o)), Ok tt).
Proof. by move=> e; rewrite /setAft /bindM /getAft /put /get /= /upd eqxx /= e. Qed.
Lemma dimension1 lim o d h : dim (h o) = Some d -> dimension lim.+1 o h = (h, Ok d).
Proof. by move=> e; rewrite /dimension /bindM /get /= e. Qed.
Lemma ind1 lim o c h : sup (h o) = Some c -> sup (h c) = None -> o \in subs (h c) ->
  ind lim.+1 o h = (h, Ok (index o (subs (h c)))).
Proof. by move=> e1 e2 e3; rewrite /ind /bindM /get /= e1 e2 e3. Qed.
Lemma getBefP o h : 0 < bef (h o) -> getBef o h = (h, Ok (bef (h o))).
Proof. by rewrite /getBef; case: (bef (h o)). Qed.
Lemma getAftP o h : 0 < aft (h o) -> getAft o h = (h, Ok (aft (h o))).
Proof. by rewrite /getAft; case: (aft (h o)). Qed.
Lemma bindOk A B (m : M A) (f : A -> M B) h h' x : m h = (h', Ok x) -> bindM m f h = f x h'.
Proof. by rewrite /bindM => ->. Qed.
Lemma updE h o x : upd h o x o = x.
Proof. by rewrite /upd eqxx. Qed.
Lemma updN h o x i : i != o -> upd h o x i = h i.
Proof. by rewrite /upd => /negbTE ->. Qed.

Lemma add_loop lim s (D : nat -> nat) l : (forall x, 0 < D x) -> uniq l -> s \notin l -> forall h,
  (forall t, t \in l -> [/\ subs (h t) = [::], dim (h t) = Some (D t) & 0 < aft (h t)]) ->
  subs (h s) = [::] -> dim (h s) = Some (D s) -> 0 < bef (h s) ->
  exists h', each l (fun t =>
      bindM (getAft t) (fun a => bindM (dimension lim.+1 s) (fun d => bindM (setAft fdiv lim.+1 t (a * d)) (fun _ =>
      bindM (getBef s) (fun b => bindM (dimension lim.+1 t) (fun e => setBef fdiv lim.+1 s (b * e))))))) h = (h', Ok tt) /\
    forall i, h' i = if i == s then withBef (bef (h s) * \prod_(x <- l) D x) (h s)
                     else if i \in l then withAft (aft (h i) * D s) (h i) else h i.
Proof.
move=> pos; elim: l => [|t l IH] /= u ns h hl e1 e2 e3.
  exists h; split=> // i; case: eqP => // ->; rewrite big_nil muln1.
  by case: (h s) => *.
move: u ns; rewrite inE negb_or => /andP [tl u] /andP [st sl].
have [ht1 ht2 ht3] := hl t (mem_head _ _).
rewrite (@bindOk _ _ _ _ h (upd (upd h t (withAft (aft (h t) * D s) (h t))) s (withBef (bef (h s) * D t) (h s))) tt); last first.
  rewrite (bindOk _ (getAftP ht3)) (bindOk _ (dimension1 _ e2)) (bindOk _ (setAft1 _ _ ht1)).
  have es : upd h t (withAft (aft (h t) * D s) (h t)) s = h s by rewrite updN.
  rewrite (bindOk _ (getBefP _)) ?es // (bindOk _ (@dimension1 _ _ (D t) _ _)); last by rewrite updE.
  by rewrite setBef1 es.
set h1 := upd _ _ _; have [||||h' [r p]] := IH u sl h1.
- move=> x xl; have xs : x != s by apply: contraNneq sl => <-.
  have xt : x != t by apply: contraNneq tl => <-.
  by rewrite /h1 !updN //; apply: hl; rewrite inE xl orbT.
- by rewrite /h1 updE.
- by rewrite /h1 updE.
- by rewrite /h1 updE muln_gt0 e3 pos.
exists h'; split=> // i; rewrite p /h1 updE big_cons inE.
case: (eqVneq i s) => [_|is'] /=; first by rewrite /withBef /= mulnA.
case: (eqVneq i t) => [->|it] /=; first by rewrite (negbTE tl) updN ?updE // eq_sym.
by rewrite !updN.
Qed.

(** A loop in which every system changes itself only. *)
Lemma each_pt (P : heap -> Prop) (f : nat -> M unit) (g : nat -> obj -> obj) l :
  (forall h t, P h -> t \in l -> exists h1, [/\ f t h = (h1, Ok tt), P h1 & forall i, h1 i = if i == t then g t (h t) else h i]) ->
  uniq l ->
  forall h, P h -> exists h', [/\ each l f h = (h', Ok tt), P h' & forall i, h' i = if i \in l then g i (h i) else h i].
Proof.
elim: l => [|t l IH] /= hf u h ph; first by exists h.
move: u => /andP [tl u]; have [h1 [e p1 e1]] := hf h t ph (mem_head _ _).
rewrite (bindOk _ e); have [|h' [r p2 q]] := IH _ u _ p1.
  by move=> h2 x hp xl; apply: hf => //; rewrite inE xl orbT.
exists h'; split=> // i; rewrite q inE e1; case: (eqVneq i t) => [->|it] //=.
by rewrite (negbTE tl).
Qed.

(** The members of the composite system [c], all of them single systems. *)
Definition flatAt (c : nat) (m : seq nat) (dm : nat -> option nat) (h : heap) : Prop :=
  [/\ subs (h c) = m, sup (h c) = None &
      forall t, t \in m -> [/\ subs (h t) = [::], sup (h t) = Some c & dim (h t) = dm t]].
Definition nz (n : nat) : nat := if n == 0 then 1 else n.
Definition resc (k i : nat) (fa fb : nat -> nat) (x : obj) : obj :=
  if k < i then withAft (fa (nz (aft x))) x else if i < k then withBef (fb (nz (bef x))) x else x.
Lemma flatAt_resc c m dm h h1 t k i fa fb : c \notin m -> t \in m -> flatAt c m dm h ->
  (forall j, h1 j = if j == t then resc k i fa fb (h t) else h j) -> flatAt c m dm h1.
Proof.
move=> cm tm [p1 p2 p3] e; have ct : c != t by apply: contraNneq cm => ->.
rewrite /flatAt e (negbTE ct); split=> // j jm; rewrite e; case: eqP => [->|_]; last exact: p3.
by rewrite /resc; case: ifP => _; [|case: ifP => _]; apply: p3.
Qed.

Lemma rescale1 lim s k i new old h : subs (h s) = [::] -> 0 < old ->
  exists h1, rescale fdiv lim.+1 s k i new old h = (h1, Ok tt) /\
    forall j, h1 j = if j == s then resc k i (fun a => fdiv (a * new) old) (fun b => fdiv (b * new) old) (h s) else h j.
Proof.
move=> e; case: old => // old _; rewrite /rescale /resc; case: ifP => _; [|case: ifP => _].
- by eexists; split; [rewrite /bindM /getAft /quot /ret /= setAft1|].
- by eexists; split; [rewrite /bindM /getBef /quot /ret /= setBef1|].
by exists h; split=> // j; case: eqP => [->|].
Qed.
Lemma shrink1 lim s k i d h : subs (h s) = [::] -> 0 < d ->
  exists h1, shrink fdiv lim.+1 s k i d h = (h1, Ok tt) /\
    forall j, h1 j = if j == s then resc k i (fun a => fdiv a d) (fun b => fdiv b d) (h s) else h j.
Proof.
move=> e; case: d => // d _; rewrite /shrink /resc; case: ifP => _; [|case: ifP => _].
- by eexists; split; [rewrite /bindM /getAft /quot /ret /= setAft1|].
- by eexists; split; [rewrite /bindM /getBef /quot /ret /= setBef1|].
by exists h; split=> // j; case: eqP => [->|].
Qed.
Lemma ind_flat lim c m dm h t : flatAt c m dm h -> t \in m -> ind lim.+1 t h = (h, Ok (index t m)).
Proof. by move=> [p1 p2 p3] tm; have [_ e _] := p3 t tm; rewrite (ind1 _ e p2) p1. Qed.

Lemma update_loop lim c m dm i new old h : uniq m -> c \notin m -> 0 < old -> flatAt c m dm h ->
  exists h', [/\ each m (fun s => bindM (ind lim.+1 s) (fun k => rescale fdiv lim.+1 s k i new old)) h = (h', Ok tt),
    flatAt c m dm h' &
    forall t, h' t = if t \in m then resc (index t m) i (fun a => fdiv (a * new) old) (fun b => fdiv (b * new) old) (h t)
                     else h t].
Proof.
move=> u cm ho hf.
apply: (each_pt (g := fun t => resc (index t m) i (fun a => fdiv (a * new) old) (fun b => fdiv (b * new) old))) => // k t pk tm.
have [_ _ p3] := pk; have [e _ _] := p3 t tm; have [h1 [e1 e2]] := rescale1 lim (index t m) i new e ho.
exists h1; split=> //; first by rewrite (bindOk _ (ind_flat lim pk tm)).
exact: (flatAt_resc cm tm pk e2).
Qed.
Lemma remove_loop lim c m dm q d h : uniq m -> c \notin m -> q \in m -> dm q = Some d -> 0 < d -> flatAt c m dm h ->
  exists h', [/\ each m (fun s => bindM (ind lim.+1 s) (fun k => bindM (ind lim.+1 q) (fun i =>
      if k == i then ret tt else bindM (dimension lim.+1 q) (fun d => shrink fdiv lim.+1 s k i d)))) h = (h', Ok tt),
    flatAt c m dm h' &
    forall t, h' t = if t \in m then resc (index t m) (index q m) (fun a => fdiv a d) (fun b => fdiv b d) (h t) else h t].
Proof.
move=> u cm qm hd hp hf.
apply: (each_pt (g := fun t => resc (index t m) (index q m) (fun a => fdiv a d) (fun b => fdiv b d))) => // k t pk tm.
have [_ _ p3] := pk; have [e _ _] := p3 t tm; have [_ _ eq] := p3 q qm.
have [h1 [e1 e2]] := shrink1 lim (index t m) (index q m) e hp.
rewrite (bindOk _ (ind_flat lim pk tm)) (bindOk _ (ind_flat lim pk qm)).
case: eqP => [ei|_].
  exists k; split=> // j; case: eqP => // ->; rewrite /resc ei ltnn.
  by [].
exists h1; split=> //; first by rewrite (bindOk _ (dimension1 lim (etrans eq hd))).
exact: (flatAt_resc cm tm pk e2).
Qed.
End Heap.

(** ** The invariant of a session *)
Section Session.
Variable fdiv : nat -> nat -> nat.
Variable big : nat.
Hypothesis hdiv : exactUpTo big fdiv.
Variable c : nat.
#[local] Arguments setBef : simpl never.
#[local] Arguments setAft : simpl never.
#[local] Arguments dimension : simpl never.
#[local] Arguments ind : simpl never.
#[local] Arguments each : simpl never.
#[local] Arguments updateDim : simpl never.
#[local] Arguments rm : simpl never.

Lemma updateDimS lim c' q new old exc : updateDim fdiv lim.+1 c' q new old exc =
    put c' (withDim None) ;;;
    x <- get c' ;;
    exc1 <- (if q \in subs x then
               put q (withDim (Some new)) ;;;
               i <- ind lim q ;;
               each (subs x) (fun s => k <- ind lim s ;; rescale fdiv lim s k i new old) ;;;
               ret (rcons exc c')
             else ret exc) ;;
    exc2 <- (if c' \in exc1 then ret exc1 else
               a <- getAft c' ;; b <- getBef c' ;;
               if (a != 1) || (b != 1) then
                 k <- ind lim c' ;; i <- supInd lim q ;; rescale fdiv lim c' k i new old ;;; ret (rcons exc1 c')
               else rescaleOthers fdiv lim q new old (subs x) (rcons exc1 c')) ;;
    match sup x with
    | Some p => updateDim fdiv lim p q new old exc2
    | None => ret exc2
    end.
Proof. by []. Qed.
Lemma rmS lim c' q exc : rm fdiv lim.+1 c' q exc =
    x <- get c' ;;
    if isComp x then
      exc1 <- (if q \in subs x then
                 each (subs x) (fun s =>
                   k <- ind lim s ;; i <- ind lim q ;;
                   if k == i then ret tt else d <- dimension lim q ;; shrink fdiv lim s k i d) ;;;
                 put c' (fun y => withSubs (rem q (subs y)) y) ;;;
                 ret (rcons exc c')
               else ret exc) ;;
      exc2 <- (if c' \in exc1 then ret exc1 else
                 a <- getAft c' ;; b <- getBef c' ;;
                 (if (a != 1) || (b != 1) then
                    k <- ind lim c' ;; i <- supInd lim q ;;
                    if k == i then ret tt else d <- dimension lim q ;; shrink fdiv lim c' k i d
                  else ret tt) ;;;
                 foldEx (fun s e => rm fdiv lim s q e) (subs x) (rcons exc1 c')) ;;
      exc3 <- match sup x with
              | Some p => e <- rm fdiv lim p q exc2 ;; ret (rcons e p)
              | None => ret exc2
              end ;;
      setAft fdiv lim q 1 ;;; setBef fdiv lim q 1 ;;; put c' (withDim None) ;;; ret exc3
    else if c' \in exc then ret exc
    else match sup x with
         | Some p => rm fdiv lim p q (rcons exc c')
         | None => ret (rcons exc c')
         end.
Proof. by []. Qed.

Definition inv (f : flat) (h : heap) : Prop :=
  [/\ uniq (members f), c \notin members f, forall x, 0 < dims f x,
      exists d, h c = Obj true d 1 1 (members f) None /\ (d = None \/ d = Some (total f)) &
      forall s, s != c -> h s = Obj false (Some (dims f s))
        (if s \in members f then bf (dims f) s (members f) else 1)
        (if s \in members f then af (dims f) s (members f) else 1) [::]
        (if (s \in members f) || (s \in gone f) then Some c else None)].

Lemma nc f s : c \notin members f -> s \in members f -> s != c.
Proof. by move=> h1 h2; apply: contraNneq h1 => <-. Qed.
Lemma inv_flatAt f h : inv f h -> flatAt c (members f) (fun t => Some (dims f t)) h.
Proof.
move=> [u cm pos [d [ec _]] hs]; rewrite /flatAt ec; split=> // t tm.
by rewrite (hs t (nc cm tm)) /= tm.
Qed.
Lemma nzP n : 0 < n -> nz n = n.
Proof. by case: n. Qed.

Lemma add_ok lim f h s : inv f h -> s != c -> exists h', addSub fdiv lim.+1 c s h = (h', Ok tt) /\ inv (step f (Add c s)) h'.
Proof.
move=> i sc; have [u cm pos [d [ec hd]] hs] := i; rewrite /addSub.
rewrite (@bindOk _ _ _ _ h h (h c)) // ec /=; case: ifP => [sm|/negbT sm]; first by exists h.
have [||||h1 [e1 p1]] := add_loop fdiv lim pos u sm (h := h).
- by move=> t tm; rewrite (hs t (nc cm tm)) /= tm af_pos.
- by rewrite hs.
- by rewrite hs.
- by rewrite hs //= (negbTE sm).
rewrite (bindOk _ e1); eexists; split; first by [].
rewrite /inv /=; split=> //.
- by rewrite cats1 rcons_uniq sm.
- by rewrite mem_cat inE negb_or cm eq_sym.
- exists None; split; last by left.
  by rewrite !updE /withDim /= !(updN _ _ (_ : c != s)) 1?eq_sym // !updE /= p1 eq_sym (negbTE sc) (negbTE cm) ec.
move=> t tc; rewrite updN // mem_cat inE /upd.
have cs : c != s by rewrite eq_sym.
case: (eqVneq t s) => [->|ts] /=.
  rewrite (negbTE sc) p1 eqxx hs // orbT /= (negbTE sm) mul1n bf_last // af_last //.
rewrite (negbTE tc) p1 (negbTE ts) orbF hs //.
by case tm: (t \in members f) => //=; rewrite /withAft /= bf_cat // af_cat.
Qed.

Lemma dim_ok lim f h q n : inv f h -> q != c -> 0 < n -> (q \in members f) || (q \notin gone f) ->
  total (step f (Dim q n)) <= big ->
  exists h', setDim fdiv lim.+2 q n h = (h', Ok tt) /\ inv (step f (Dim q n)) h'.
Proof.
move=> i qc np hq hb; have [u cm pos [d [ec hd]] hs] := i; rewrite /setDim.
have pos' x : 0 < setAt (dims f) q n x by rewrite /setAt; case: ifP.
rewrite (@bindOk _ _ _ _ h h (h q)) // (@bindOk _ _ _ _ h (upd h q (withDim (Some n) (h q))) tt) //.
set h1 := upd h q _; have -> : dim (h q) = Some (dims f q) by rewrite hs.
have -> : sup (h q) = if (q \in members f) || (q \in gone f) then Some c else None by rewrite hs.
case qm: (q \in members f); last first.
  rewrite qm /= in hq; rewrite (negbTE hq) /=; eexists; split; first by [].
  rewrite /inv /=; split=> //.
    by exists d; rewrite /h1 updN 1?eq_sym // ec /total /= prod_setN // qm.
  move=> s sc; rewrite /h1 /upd; case: (eqVneq s q) => [->|sq].
    by rewrite hs // /withDim /= qm (negbTE hq) /setAt eqxx.
  rewrite hs // /setAt (negbTE sq); congr (Obj _ _ _ _ _ _); case: ifP => // sm.
    by rewrite !bfE prod_setN //; apply: contraFN qm; apply: mem_take.
  by rewrite !afE prod_setN //; apply: contraFN qm; apply: mem_drop.
have cq : c != q by rewrite eq_sym.
pose hc := upd h1 c (withDim None (h1 c)); pose h2 := upd hc q (withDim (Some n) (hc q)).
have e2 j : h2 j = if j == q then withDim (Some n) (h q) else if j == c then withDim None (h c) else h j.
  rewrite /h2 /hc /h1 /upd; case: (eqVneq j q) => [_|jq]; first by rewrite (negbTE qc) ?eqxx /withDim /=.
  by case: (eqVneq j c) => [_|] //; rewrite (negbTE cq).
have ex : hc c = Obj true None 1 1 (members f) None.
  by rewrite /hc updE /h1 updN // ec.
have hf : flatAt c (members f) (fun t => Some (setAt (dims f) q n t)) h2.
  rewrite /flatAt !e2 (negbTE cq) eqxx ec /=; split=> // t tm; have tc := nc cm tm.
  rewrite e2 (negbTE tc) /setAt; case: (eqVneq t q) => [_|_]; rewrite hs //= ?qm ?tm //.
rewrite /=; have [h3 [e3 hf3 p3]] := update_loop fdiv lim (index q (members f)) n u cm (pos q) hf.
rewrite (@bindOk _ _ _ _ h1 h3 [:: c]); last first.
  rewrite updateDimS (@bindOk _ _ _ _ h1 hc tt) // (@bindOk _ _ _ _ hc hc (hc c)) // ex /= qm.
  rewrite (@bindOk _ _ _ _ hc h3 [:: c]).
    by rewrite inE eqxx.
  by rewrite (@bindOk _ _ _ _ hc h2 tt) // (bindOk _ (ind_flat lim hf qm)) (bindOk _ e3).
exists h3; split; first by [].
rewrite /inv /=; split=> //.
  exists None; split; last by left.
  by rewrite p3 (negbTE cm) e2 (negbTE cq) eqxx ec.
move=> s sc; rewrite p3 e2 (negbTE sc); case: ifP => [sm|/negbT sm]; last first.
  have sq : s != q by apply: contraNneq sm => ->.
  by rewrite (negbTE sq) hs // (negbTE sm) /setAt (negbTE sq).
case: (eqVneq s q) => [->|sq].
  have [b1 b2] := set_self (dims f) q n u.
  by rewrite /resc ltnn hs // /withDim /= qm b1 b2 /setAt eqxx.
rewrite hs // sm /= /resc /=; have := set_other (dims f) n u qm sm sq.
have le : forall x, x <= \prod_(t <- members f) setAt (dims f) q n t -> x <= big.
  by move=> x hx; apply: leq_trans hx hb.
case: ifP => _ /=.
  move=> [-> [R [r1 r2]]]; rewrite /withAft /= nzP ?af_pos // r2 r1.
  rewrite mulnAC hdiv //; first by rewrite /setAt (negbTE sq).
  by apply: le; rewrite -r2 af_le.
move=> [-> [-> [R [r1 r2]]]]; rewrite /withBef /= nzP ?bf_pos // r2 r1.
rewrite mulnAC hdiv //; first by rewrite /setAt (negbTE sq).
by apply: le; rewrite -r2 bf_le.
Qed.

Lemma remove_ok lim f h q : inv f h -> q \in members f -> total f <= big ->
  exists h', (exists e, rm fdiv lim.+3 c q [::] h = (h', Ok e)) /\ inv (step f (Remove c q)) h'.
Proof.
move=> i qm hb; have [u cm pos [d [ec hd]] hs] := i; have qc := nc cm qm; have cq : c != q by rewrite eq_sym.
have [h1 [e1 [f1 f2 f3] p1]] := remove_loop fdiv lim.+1 u cm qm (erefl _) (pos q) (inv_flatAt i).
pose h2 := upd h1 c (withSubs (rem q (subs (h1 c))) (h1 c)).
pose h3 := upd h2 q (withAft 1 (h2 q)); pose h4 := upd h3 q (withBef 1 (h3 q)); pose h5 := upd h4 c (withDim None (h4 c)).
have hc1 : h1 c = h c by rewrite p1 (negbTE cm).
have sq : subs (h2 q) = [::] by rewrite /h2 updN //; have [] := f3 q qm.
exists h5; split.
  exists [:: c]; rewrite rmS (@bindOk _ _ _ _ h h (h c)) // {1 2}ec /= qm.
  rewrite (@bindOk _ _ _ _ h h2 [:: c]); last by rewrite {1}ec /= (bindOk _ e1).
  rewrite (@bindOk _ _ _ _ h2 h2 [:: c]); last by rewrite inE eqxx.
  rewrite (@bindOk _ _ _ _ h2 h2 [:: c]); last by rewrite ec.
  rewrite (@bindOk _ _ _ _ h2 h3 tt); last by rewrite setAft1.
  by rewrite (@bindOk _ _ _ _ h3 h4 tt) //; rewrite setBef1 // /h3 updE.
have e5 j : h5 j = if j == c then Obj true None 1 1 (rem q (members f)) None
    else if j == q then Obj false (Some (dims f q)) 1 1 [::] (Some c) else h1 j.
  rewrite /h5 /h4 /h3 /h2 /upd; case: (eqVneq j c) => [_|jc].
    rewrite ?eqxx (negbTE cq) ?eqxx.
    by rewrite hc1 ec.
  by case: (eqVneq j q) => [_|_]; rewrite ?eqxx ?(negbTE qc) // p1 qm /resc ltnn hs //= qm.
rewrite /inv /=; split=> //.
- exact: rem_uniq.
- by apply: contra cm; apply: mem_rem.
- by exists None; rewrite e5 eqxx; split=> //; left.
move=> s sc; rewrite e5 (negbTE sc) mem_rem_uniq // !inE.
case: (eqVneq s q) => [->|sq'] /=; first by [].
rewrite p1; case: ifP => [sm|/negbT sm]; last by rewrite hs // (negbTE sm).
rewrite hs // sm /= /resc /=; have := rem_other (dims f) u qm sm sq'.
case: ifP => _ /=.
  move=> [-> r]; rewrite /withAft /= nzP ?af_pos // r hdiv //.
  by apply: leq_trans hb; apply: leq_trans (af_le pos s _); rewrite r leq_pmulr.
move=> [-> [-> r]]; rewrite /withBef /= nzP ?bf_pos // r hdiv //.
by apply: leq_trans hb; apply: leq_trans (bf_le pos s _); rewrite r leq_pmulr.
Qed.

(** Reading dimensions *)
Lemma prodDims_ok lim f h l acc : inv f h -> {subset l <= members f} ->
  prodDims (dimension lim.+1) l acc h = (h, Ok (acc * \prod_(s <- l) dims f s)).
Proof.
move=> i; have [u cm pos _ hs] := i; elim: l acc => [|s l IH] acc hl /=; first by rewrite big_nil muln1.
have sm : s \in members f by apply: hl; rewrite mem_head.
rewrite (bindOk _ (@dimension1 _ _ (dims f s) _ _)); last by rewrite hs // (nc cm).
by rewrite IH ?big_cons ?mulnA // => x xl; apply: hl; rewrite inE xl orbT.
Qed.
Lemma read_comp lim f h : inv f h ->
  exists h', [/\ dimension lim.+2 c h = (h', Ok (total f)), inv f h' & totalDim lim.+2 c h = (h', Ok (total f))].
Proof.
move=> i; have [u cm pos [d [ec hd]] hs] := i.
have E : exists h', [/\ dimension lim.+2 c h = (h', Ok (total f)), inv f h' & bef (h' c) = 1 /\ aft (h' c) = 1].
  case: hd => ed; last by exists h; rewrite (@dimension1 _ _ (total f)) ?ec.
  exists (upd h c (withDim (Some (total f)) (h c))); split.
  - rewrite -[dimension _ _]/(bindM _ _) (@bindOk _ _ _ _ h h (h c)) // ec ed /=.
    by rewrite (bindOk _ (prodDims_ok lim 1 i (fun x hx => hx))) mul1n /bindM /put /= ec ed.
  - split=> //; first by exists (Some (total f)); rewrite updE ec; split=> //; right.
    by move=> s sc; rewrite updN // hs.
  by rewrite updE ec.
have [h' [e1 e2 [e3 e4]]] := E; exists h'; split=> //.
by rewrite /totalDim (bindOk _ e1) /bindM /getBef /getAft e3 e4 /= !muln1.
Qed.
Lemma read_one lim f h s : inv f h -> s != c ->
  totalDim lim.+1 s h = (h, Ok (if s \in members f then total f else dims f s)).
Proof.
move=> i sc; have [u cm pos _ hs] := i.
rewrite /totalDim (bindOk _ (@dimension1 _ _ (dims f s) _ _)); last by rewrite hs.
rewrite (bindOk _ (getBefP _)) hs //=; last by case: ifP => // _; rewrite bf_pos.
rewrite (bindOk _ (getAftP _)) hs //=; last by case: ifP => // _; rewrite af_pos.
by case: ifP => sm; rewrite ?muln1 // bfaf.
Qed.

Lemma step_ok lim f h a : inv f h -> goodOp c f a -> total f <= big -> total (step f a) <= big ->
  exists h', does fdiv lim.+3 a h = (h', Ok tt) /\ inv (step f a) h'.
Proof.
case: a => [c' s|q n|c' q|o] i /=.
- by move=> /andP [/eqP -> sc] _ _; apply: add_ok.
- by move=> /and3P [h1 h2 h3] _ hb; apply: dim_ok.
- move=> /andP [/eqP -> qm] hb _; have [h' [[e r] p]] := remove_ok lim i qm hb.
  by exists h'; rewrite (bindOk _ r).
move=> _ _ _; case: (eqVneq o c) => [->|oc].
  by have [h' [_ p r]] := read_comp lim.+1 i; exists h'; rewrite (bindOk _ r).
by exists h; rewrite (bindOk _ (read_one lim.+2 i oc)).
Qed.
Lemma run_inv lim l f h : inv f h -> total f <= big -> good c big f l ->
  exists h', run fdiv lim.+3 l h = (h', Ok tt) /\ inv (foldl step f l) h'.
Proof.
elim: l f h => [|a l IH] f h i hb /=; first by exists h.
move=> /and3P [g1 g2 g3]; have [h1 [e i1]] := step_ok lim i g1 hb g2; rewrite (bindOk _ e).
exact: IH.
Qed.
Lemma start_inv ds : (forall x, 0 < ds x) -> inv (Flat [::] ds [::]) (start (pred1 c) ds).
Proof.
move=> pos; split=> //=; first by exists None; rewrite /start /= eqxx; split=> //; left.
by move=> s sc; rewrite /start /= (negbTE sc).
Qed.
End Session.
