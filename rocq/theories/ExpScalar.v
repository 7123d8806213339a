(** The scalar exponential, Euler's formula, and exponentials of matrices with
    known eigenvectors.  Models no code. *)
From Coq Require Import Reals.
From mathcomp Require Import all_ssreflect all_algebra.
From mathcomp Require Import complex.
From Verif Require Import CField RC ExpSeries ExpMatrix ExpmSpec MatModel ExpmProofs.
Set Implicit Arguments.
Unset Strict Implicit.
Unset Printing Implicit Defensive.
Import GRing.Theory Num.Theory Order.TTheory.
Local Open Scope ring_scope.

Section Alg.
Variable F : numClosedFieldType.
Add Field Ff : (@C_field F).
Lemma alg_even (i a b y s u v w : F) :
  a + i * (y * b) + u * (s * w) + v * (i * y * (s * w)) = a + s * u * w + i * (y * (b + s * v * w)).
Proof. by cnorm1 F; ring. Qed.
Lemma alg_cis (a b c d : F) :
  a * b - c * d + 'i * (c * b + a * d) = (a + 'i * c) * (b + 'i * d).
Proof.
have h : 'i * 'i = -1 :> F by rewrite -expr2 sqrCi.
rewrite mulrDl !mulrDr -[_ * _ * ('i * d)]mulrA [c * ('i * d)]mulrCA ['i * ('i * _)]mulrA h.
by set i := 'i; cnorm1 F; ring.
Qed.
End Alg.

Local Notation C := RC.

Definition ssum (N : nat) (z : C) : C := \sum_(0 <= k < N) fi C k * z ^+ k.
Definition cexp (z : C) : C := mexp (z%:M : 'M[C]_1) 0 0.

Lemma psum_eig n m (A : 'M[C]_n.+1) (M : 'M[C]_(n.+1, m)) (z : C) N :
  A *m M = z *: M -> psum N A *m M = ssum N z *: M.
Proof.
move=> h; have hp k : A ^+ k *m M = z ^+ k *: M.
  elim: k => [|k IH]; first by rewrite !expr0 mul1mx scale1r.
  by rewrite exprSr -mulmxA h -scalemxAr IH scalerA exprS.
rewrite /psum /ssum mulmx_suml scaler_suml; apply: eq_bigr => k _.
by rewrite -scalemxAl hp scalerA.
Qed.

Lemma cexp_cvg z : cvg (fun N => ssum N z) (cexp z).
Proof.
apply: (cvg_ext _ (mexp_cvg (z%:M : 'M[C]_1) 0 0)) => N.
have := @psum_eig 0 1 z%:M 1 z N; rewrite mulmx1 scalemx1 => /(_ erefl).
by rewrite mulmx1 scalemx1 => ->; rewrite mxE eqxx mulr1n.
Qed.

Lemma mexp_eig n m (A : 'M[C]_n.+1) (M : 'M[C]_(n.+1, m)) (z : C) :
  A *m M = z *: M -> mexp A *m M = cexp z *: M.
Proof.
move=> h; apply/matrixP => i j; rewrite !mxE.
apply: (@cvg_unique (fun N => (psum N A *m M) i j)).
  apply: (@cvg_ext (fun N => \sum_k psum N A i k * M k j)); first by move=> N; rewrite mxE.
  by apply: cvg_sum => k; apply: cvgM; [apply: mexp_cvg | apply: cvgC].
apply: (@cvg_ext (fun N => ssum N z * M i j)); first by move=> N; rewrite (psum_eig N h) mxE.
by apply: cvgM; [apply: cexp_cvg | apply: cvgC].
Qed.

Lemma gexp_eig n m (A : 'M[C]_n) (M : 'M[C]_(n, m)) (z : C) :
  A *m M = z *: M -> gexp A *m M = cexp z *: M.
Proof. by case: n A M => [|n] A M h; [exact: (etrans (flatmx0 _) (esym (flatmx0 _))) | exact: mexp_eig]. Qed.

(** * Euler's formula *)
Lemma sub_cvg f l : cvg f l -> cvg (fun N => f N.*2) l.
Proof.
move=> h e he; have [N hN] := h e he; exists N => m hm; apply: hN.
by apply: leq_trans hm _; rewrite -addnn leq_addr.
Qed.

Lemma iXn2 j : ('i : C) ^+ j.*2 = (-1) ^+ j.
Proof. by rewrite -muln2 mulnC exprM sqrCi. Qed.

Lemma Rm1 : (-1)%R = (- (1 : R))%R :> R.
Proof. by []. Qed.

Definition cosum (N : nat) (x : R) : R := \sum_(0 <= j < N) (-1) ^+ j * fi [numFieldType of R] j.*2 * (x ^+ 2) ^+ j.
Definition sisum (N : nat) (x : R) : R := \sum_(0 <= j < N) (-1) ^+ j * fi [numFieldType of R] j.*2.+1 * (x ^+ 2) ^+ j.

Lemma fiC k : fi C k = ofR (fi [numFieldType of R] k).
Proof. by rewrite /fi /ofR fmorphV rmorph_nat. Qed.

Lemma ssum_even N x : ssum N.*2 ('i * ofR x) = ofR (cosum N x) + 'i * ofR (x * sisum N x).
Proof.
elim: N => [|N IH]; first by rewrite /ssum /cosum /sisum !big_nil mulr0 /ofR /= mulr0 addr0.
rewrite doubleS /ssum !big_nat_recr //= -/(ssum _ _) IH /cosum /sisum !big_nat_recr //= -/(cosum N x) -/(sisum N x).
have e1 : ('i * ofR x : C) ^+ N.*2 = (-1) ^+ N * ofR (x ^+ 2) ^+ N.
  by rewrite exprMn iXn2 /ofR rmorphX -exprM mul2n.
rewrite exprS e1 !fiC /ofR !rmorphD /= !rmorphM /= !rmorphX /= rmorphN rmorph1 /= !rmorphD /= !rmorphM /= !rmorphX /= rmorphN rmorph1.
set a := ((cosum N x)%:C)%C; set b := ((sisum N x)%:C)%C; set y := (x%:C)%C; set s := (-1) ^+ N.
set u := ((fi _ N.*2)%:C)%C; set v := ((fi _ N.*2.+1)%:C)%C; set w := (y ^+ 2) ^+ N.
exact: alg_even.
Qed.

Local Notation RF := [numFieldType of R].

Lemma RfactE k : Rinv (INR (Factorial.fact k)) = fi RF k.
Proof. by rewrite factE /fi (RinvE (fact_neq0 RF k)) RnatE. Qed.

Lemma double2 i : (2 * i)%coq_nat = i.*2.
Proof. by rewrite multE mul2n. Qed.

Lemma cosum_f N x : cosum N.+1 x = sum_f_R0 (fun i => Rmult (cos_n i) (pow (Rsqr x) i)) N.
Proof.
have t i : (-1) ^+ i * fi RF i.*2 * (x ^+ 2) ^+ i = Rmult (cos_n i) (pow (Rsqr x) i).
  by rewrite /cos_n double2 /Rdiv RfactE !RmulE -!RexpE /Rsqr expr2.
elim: N => [|N IH]; first by rewrite /cosum big_nat1 t.
by rewrite /cosum big_nat_recr //= -/(cosum N.+1 x) IH t RaddE.
Qed.
Lemma sisum_f N x : sisum N.+1 x = sum_f_R0 (fun i => Rmult (sin_n i) (pow (Rsqr x) i)) N.
Proof.
have t i : (-1) ^+ i * fi RF i.*2.+1 * (x ^+ 2) ^+ i = Rmult (sin_n i) (pow (Rsqr x) i).
  by rewrite /sin_n double2 plusE addn1 /Rdiv RfactE !RmulE -!RexpE /Rsqr expr2.
elim: N => [|N IH]; first by rewrite /sisum big_nat1 t.
by rewrite /sisum big_nat_recr //= -/(sisum N.+1 x) IH t RaddE.
Qed.

Lemma inf_null f (a : nat -> R) l : (forall N, f N.+1 = sum_f_R0 a N) -> infinite_sum a l ->
  null (fun N => f N - l).
Proof.
move=> hf h e /RltP he; have [N hN] := h e he.
exists N.+1 => -[//|m] hm; apply/RltP; rewrite hf RnormE.
by apply: hN; apply/ssrnat.leP.
Qed.

Lemma cos_null x : null (fun N => cosum N x - cos x).
Proof. by apply: (inf_null (fun N => cosum_f N x)); rewrite /cos; case: exist_cos. Qed.
Lemma sin_null x : exists2 s, sin x = x * s & null (fun N => sisum N x - s).
Proof.
rewrite /sin; case: exist_sin => s hs; exists s; first by [].
by apply: (inf_null (fun N => sisum_f N x)).
Qed.

Lemma cvg_ofR (f : nat -> R) l : null (fun N => f N - l) -> cvg (fun N => ofR (f N)) (ofR l).
Proof.
move=> h e he; have [N hN] := h e he; exists N => m hm.
have -> : ofR (f m) - ofR l = ofR (f m - l) by rewrite /ofR rmorphB.
have -> : cabs (ofR (f m - l)) = `|f m - l|; last exact: hN.
by apply: RC_inj; rewrite -cabsE /ofR normc_def /= expr0n addr0 sqrtr_sqr.
Qed.

Lemma euler x : cexp ('i * ofR x) = cis x.
Proof.
apply: (cvg_unique (sub_cvg (cexp_cvg ('i * ofR x)))).
apply: (@cvg_ext (fun N => ofR (cosum N x) + 'i * (ofR x * ofR (sisum N x)))).
  by move=> N; rewrite ssum_even /ofR rmorphM.
have [s e hs] := sin_null x.
have -> : cis x = ofR (cos x) + 'i * (ofR x * ofR s) by rewrite /cis e /ofR rmorphM.
apply: cvgD; first by apply: cvg_ofR; apply: cos_null.
by do 2 apply: cvgZ; apply: cvg_ofR.
Qed.

(** * The phase [e^(i x)] *)
Lemma cisD x y : cis (x + y) = cis x * cis y.
Proof.
have hc : cos (x + y) = cos x * cos y - sin x * sin y by exact: cos_plus.
have hs : sin (x + y) = sin x * cos y + cos x * sin y by exact: sin_plus.
rewrite /cis hc hs /ofR rmorphB rmorphD /= !rmorphM /=; exact: alg_cis.
Qed.
Lemma cis0 : cis 0 = 1.
Proof. by rewrite /cis -[0]/R0 cos_0 sin_0 /ofR /= mulr0 addr0. Qed.
Lemma conj_ofR (x : R) : (ofR x)^* = ofR x.
Proof. by rewrite conjC_RC; exact: conjc_real. Qed.
Lemma ofRN (x : R) : ofR (- x) = - ofR x. Proof. by rewrite /ofR rmorphN. Qed.
Lemma cisN x : cis (- x) = (cis x)^*.
Proof.
have hc : cos (- x) = cos x by exact: cos_neg.
have hs : sin (- x) = - sin x by exact: sin_neg.
by rewrite /cis hc hs rmorphD rmorphM conjCi ofRN !conj_ofR mulrN mulNr.
Qed.
Lemma cis_norm x : `|cis x| = 1.
Proof.
apply/eqP; rewrite -(@eqr_expn2 _ 2) ?normr_ge0 ?ler01 // expr1n normCK -cisN -cisD subrr cis0.
by [].
Qed.
Lemma cis_2PI : cis (2%:R * PI) = 1.
Proof. by rewrite /cis RnatE cos_2PI sin_2PI /ofR /= mulr0 addr0. Qed.
Lemma cis_PI : cis PI = -1.
Proof. by rewrite /cis cos_PI sin_PI /ofR /= mulr0 addr0; apply/eqP; rewrite eq_complex /= !eqxx oppr0 eqxx. Qed.

Lemma cexpI x : cexp (- 'i * ofR x) = cis (- x).
Proof. by rewrite -euler ofRN mulrN mulNr. Qed.

(** A matrix is what it does on a family of vectors that spans. *)
Lemma gexp_invol n (A : 'M[C]_n) (x : R) : A *m A = 1%:M ->
  gexp ((- 'i * ofR x) *: A) = ofR (cos x) *: 1%:M - ('i * ofR (sin x)) *: A.
Proof.
move=> hA.
have hp : ((- 'i * ofR x) *: A) *m (1%:M + A) = (- 'i * ofR x) *: (1%:M + A).
  by rewrite -scalemxAl mulmxDr mulmx1 hA addrC.
have hm : ((- 'i * ofR x) *: A) *m (1%:M - A) = (- 'i * ofR (- x)) *: (1%:M - A).
  by rewrite -scalemxAl mulmxBr mulmx1 hA -opprB scalerN ofRN mulrN scaleNr.
have := gexp_eig hm; have := gexp_eig hp.
rewrite !cexpI opprK => e1 e2.
have two : (2%:R : C) != 0 by rewrite pnatr_eq0.
apply: (scalerI two); rewrite !scaler_nat.
have -> : gexp ((- 'i * ofR x) *: A) *+ 2 = gexp ((- 'i * ofR x) *: A) *m (1%:M + A) + gexp ((- 'i * ofR x) *: A) *m (1%:M - A).
  by rewrite -mulmxDr addrACA subrr addr0 mulmxDr !mulmx1 mulr2n.
rewrite e1 e2 cisN !scalerDr scalerN addrACA -scalerDl -scalerBl.
set c := ofR (cos x); set s := ofR (sin x).
have cc : c^* = c by exact: conj_ofR.
have cs : s^* = s by exact: conj_ofR.
have -> : cis x = c + 'i * s by [].
rewrite rmorphD rmorphM conjCi cc cs mulNr mulrnBl; congr (_ + _).
  by rewrite addrACA addNr addr0 scalerDl mulr2n.
by rewrite mulr2n -scalerDl -scaleNr; congr (_ *: _); rewrite !opprD addrACA subrr add0r.
Qed.
