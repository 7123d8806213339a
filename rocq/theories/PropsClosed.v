(** C66 and C67: closed-system evolution and rotations, with the matrix
    exponential itself. *)
From Coq Require Import Reals.
From mathcomp Require Import all_ssreflect all_algebra.
From mathcomp Require Import complex.
From Verif Require Py.
From Verif Require Import RC ExpSeries ExpMatrix ExpmSpec ExpmProofs ExpScalar ExpKron.
From Verif Require Import GateProofs PropsState.
From Verif Require Import MatModel OperModel StateModel EvolModel HamModel MatLib MatSpec MatProofs CField OperProofs GateProofs StateSpec StateProofs ExpmInst EvolSpec EvolProofs LindProofs.
From Verif Require Import PropsEvol PropsOpen PropsOper.
Set Implicit Arguments.
Unset Strict Implicit.
Unset Printing Implicit Defensive.
Import Order.TTheory GRing.Theory Num.Theory.
Local Open Scope ring_scope.

Local Notation C := RC.
Local Notation cexp := ExpScalar.cexp.

Lemma UnitaryE expm n (D : 'M[C]_n) (t : C) : matrixExponential expm ->
  Unitary expm (Mat D) t = Ok (Mat (gexp (t *: (- 'i *: D)))).
Proof. by move=> hE; rewrite /Unitary !scale_Mat (expm_Mat _ hE). Qed.

Lemma comm_scale n (a b : C) (X Y : 'M[C]_n) : X *m Y = Y *m X -> (a *: X) *m (b *: Y) = (b *: Y) *m (a *: X).
Proof. by move=> h; rewrite -!scalemxAl -!scalemxAr !scalerA mulrC h. Qed.

Lemma mmul_Mat r k c (A : 'M[C]_(r, k)) (B : 'M[C]_(k, c)) : mmul (Mat A) (Mat B) = Ok (Mat (A *m B)).
Proof. by rewrite mmulE // (mulm_Mat A B). Qed.

Lemma adjZ n (a : C) (X : 'M[C]_n) : adjmx (a *: X) = a^* *: adjmx X.
Proof. by apply/matrixP => i j; rewrite !mxE rmorphM. Qed.

(** Evolutions for two times compose to the evolution for the sum, evolution
    for no time does nothing, and evolution backwards is the adjoint. *)
Theorem C66_group expm (n : nat) (H : mat C) (t1 t2 : C) : matrixExponential expm -> square n H ->
  exists U1 U2, Unitary expm H t1 = Ok U1 /\ Unitary expm H t2 = Ok U2 /\
    mmul U1 U2 = Unitary expm H (t1 + t2) /\ Unitary expm H 0 = Ok (idm C n) /\
    (hermitian n H -> t1^* = t1 -> Unitary expm H (- t1) = Ok (hc U1)).
Proof.
move=> hE /square_Mat[D ->]; rewrite !UnitaryE //.
set X := - 'i *: D.
exists (Mat (gexp (t1 *: X))), (Mat (gexp (t2 *: X))).
split; first by []. split; first by []. split.
  by rewrite mmul_Mat scalerDl gexpD //; apply: comm_scale.
split; first by rewrite scale0r gexp0 idm_Mat.
move=> /hermitianE[_]; rewrite hc_Mat => /(@Mat_inj _ _ _ _ _) eD ht.
rewrite hc_Mat -gexp_adj /X !adjZ eD ht rmorphN conjCi opprK.
by rewrite !scalerA mulrN mulNr opprK.
Qed.
Print Assumptions C66_group.

(** Hamiltonians that commute evolve independently. *)
Theorem C66_commuting expm (n : nat) (H1 H2 H : mat C) (t : C) : matrixExponential expm ->
  square n H1 -> square n H2 -> mmul H1 H2 = mmul H2 H1 -> madd H1 H2 = Ok H ->
  exists U1 U2, Unitary expm H1 t = Ok U1 /\ Unitary expm H2 t = Ok U2 /\
    mmul U1 U2 = Unitary expm H t /\ mmul U2 U1 = Unitary expm H t.
Proof.
move=> hE /square_Mat[D ->] /square_Mat[D' ->]; rewrite !mmul_Mat => /(@Ok_inj _ _ _) /(@Mat_inj _ _ _ _ _) hc.
rewrite maddE // add_Mat => -[<-]; rewrite !UnitaryE //.
exists (Mat (gexp (t *: (- 'i *: D)))), (Mat (gexp (t *: (- 'i *: D')))).
split; first by []. split; first by [].
by rewrite !mmul_Mat !scalerDr -!gexpD ?[_ + t *: (- 'i *: D)]addrC //; do 2 apply: comm_scale.
Qed.
Print Assumptions C66_commuting.

Lemma quadE n (B : 'M[C]_n) (x : 'cV[C]_n) : quadratic n (Mat B) (Mat x) = (adjmx x *m B *m x) 0 0.
Proof.
rewrite mxE /quadratic exchange_big /=; apply: eq_bigr => j _.
rewrite mxE big_distrl /=; apply: eq_bigr => i _; rewrite /amp !mxE.
rewrite !(ent_in _ (ltn_ord _) (ltn_ord _)) !(ent_in _ (ltn_ord _) (ltn0Sn 0)).
by congr (_^* * _ * _); congr (fun_of_matrix _ _ _); apply: val_inj.
Qed.

Lemma adj_U n (D : 'M[C]_n) (t : C) : hermitian n (Mat D) -> t^* = t ->
  adjmx (gexp (t *: (- 'i *: D))) *m gexp (t *: (- 'i *: D)) = 1%:M.
Proof.
move=> /hermitianE[_]; rewrite hc_Mat => /(@Mat_inj _ _ _ _ _) eD ht.
rewrite -gexp_adj !adjZ eD ht rmorphN conjCi opprK.
have -> : t *: ('i *: D) = - (t *: (- 'i *: D)) by rewrite scaleNr scalerN opprK.
exact: gexpNl.
Qed.

(** What commutes with the Hamiltonian is conserved: it commutes with the
    evolution and its expectation in every ket stays the same, for a Hermitian
    Hamiltonian and a real time.  In particular the energy is conserved. *)
Theorem C66_conserved expm (n : nat) (H A : mat C) (t : C) : matrixExponential expm ->
  square n H -> square n A -> mmul A H = mmul H A ->
  exists U, Unitary expm H t = Ok U /\ mmul A U = mmul U A /\
    (hermitian n H -> t^* = t ->
     forall v w, isKet n v -> mmul U v = Ok w -> quadratic n A w = quadratic n A v).
Proof.
move=> hE sH sA hc; have [D eD] := square_Mat sH; have [B eB] := square_Mat sA; subst H A.
move: hc; rewrite !mmul_Mat => /(@Ok_inj _ _ _) /(@Mat_inj _ _ _ _ _) hc.
have sU : square n (Mat (gexp (t *: (- 'i *: D)))) by [].
exists (Mat (gexp (t *: (- 'i *: D)))); rewrite UnitaryE // !mmul_Mat; split; first by [].
have cU : B *m gexp (t *: (- 'i *: D)) = gexp (t *: (- 'i *: D)) *m B.
  by apply: gexp_comm; rewrite -!scalemxAr -!scalemxAl hc.
split; first by rewrite cU.
move=> hH ht v w /hasShape_Mat[x ->]; rewrite mmul_Mat => -[<-].
rewrite !quadE adj_mul; have e := adj_U hH ht.
by rewrite -!mulmxA [B *m (_ *m x)]mulmxA cU !mulmxA -[adjmx x *m _ *m _]mulmxA e mulmx1.
Qed.
Print Assumptions C66_conserved.

(** A state of energy [E] acquires the phase [exp(-i E t)]. *)
Theorem C66_eigenstate expm (n : nat) (H v : mat C) (E t : R) : matrixExponential expm ->
  square n H -> isKet n v -> mmul H v = Ok (scalem (ofR E) v) ->
  exists U, Unitary expm H (ofR t) = Ok U /\ mmul U v = Ok (scalem (cis (- (E * t))) v).
Proof.
move=> hE /square_Mat[D ->] /hasShape_Mat[x ->]; rewrite mmul_Mat scale_Mat => /(@Ok_inj _ _ _) /(@Mat_inj _ _ _ _ _) hx.
exists (Mat (gexp (ofR t *: (- 'i *: D)))); rewrite UnitaryE // mmul_Mat; split; first by [].
have h : (ofR t *: (- 'i *: D)) *m x = (- 'i * ofR (E * t)) *: x.
  rewrite -!scalemxAl hx !scalerA; congr (_ *: _).
  have -> : ofR (E * t) = ofR E * ofR t by rewrite /ofR rmorphM.
  by rewrite -mulrA mulrCA [ofR t * _]mulrC.
by rewrite (gexp_eig h) cexpI scale_Mat.
Qed.
Print Assumptions C66_eigenstate.

(** Evolving one sub-system of a composite system is evolving it alone. *)
Theorem C66_local expm (n b a : nat) (H G : mat C) (t : C) : matrixExponential expm ->
  square n H -> compositeOp H b a = Ok G ->
  exists U, Unitary expm H t = Ok U /\ Unitary expm G t = compositeOp U b a.
Proof.
move=> hE sH; rewrite compositeOpE => -[<-].
have s2 : square n (scalem t (scalem (- 'i) H)) by case: sH.
have [U [eU [sU _]]] := hE _ _ s2.
exists U; split; first by []; rewrite compositeOpE -!/(comp _ _ _) /Unitary !comp_scale.
exact: (expm_comp _ _ hE s2 eU).
Qed.
Print Assumptions C66_local.

(** ** Open systems *)

Lemma cexp0 : cexp 0 = 1.
Proof. by rewrite -cis0 -euler /ofR /= mulr0. Qed.

Lemma LiouExpE expm m H l rates double t (D : 'M[C]_m) : matrixExponential expm ->
  Liouvillian H (CList l) rates double = Ok (Mat D) ->
  LiouvillianExp expm H t (CList l) rates true double = Ok (Mat (gexp (t *: D))).
Proof.
move=> hE hL; rewrite /LiouvillianExp; have -> : match H with Some _ => Ok tt | None => match l with [::] => Err Py.IndexError | _ => Ok tt end end = Ok tt.
  by case: H hL => //; case: l.
by rewrite /= hL /= scale_Mat (expm_Mat _ hE).
Qed.

(** The super-operators of the open evolution compose like the unitaries. *)
Theorem C66_open_semigroup expm (m : nat) H l rates double L (t1 t2 : C) : matrixExponential expm ->
  Liouvillian H (CList l) rates double = Ok L -> square m L ->
  exists E1 E2, LiouvillianExp expm H t1 (CList l) rates true double = Ok E1 /\
    LiouvillianExp expm H t2 (CList l) rates true double = Ok E2 /\
    mmul E1 E2 = LiouvillianExp expm H (t1 + t2) (CList l) rates true double /\
    LiouvillianExp expm H 0 (CList l) rates true double = Ok (idm C m).
Proof.
move=> hE hL /square_Mat[D eD]; subst L; rewrite !(LiouExpE _ hE hL).
exists (Mat (gexp (t1 *: D))), (Mat (gexp (t2 *: D))).
split; first by []. split; first by [].
split; last by rewrite scale0r gexp0 idm_Mat.
by rewrite mmul_Mat scalerDl gexpD //; apply: comm_scale.
Qed.
Print Assumptions C66_open_semigroup.

(** A state on which the Liouvillian vanishes is stationary. *)
Theorem C66_stationary expm (n : nat) H l rates double L (t : C) rho : matrixExponential expm ->
  Liouvillian H (CList l) rates double = Ok L -> square (n * n) L -> square n rho ->
  applySO L rho = Ok (zerom C n n) ->
  exists E, LiouvillianExp expm H t (CList l) rates true double = Ok E /\ applySO E rho = Ok rho.
Proof.
move=> hE hL sL sr h0; have [D eD] := square_Mat sL; subst L; rewrite (LiouExpE _ hE hL).
have sv : hasShape (vecm rho) (n * n) 1 by case: sr => r1 r2; split; rewrite /= ?r1 ?r2.
have [v ev] := hasShape_Mat sv.
exists (Mat (gexp (t *: D))); split; first by [].
have sG : square (n * n) (Mat (gexp (t *: D))) by [].
move: h0; rewrite !(applyE _ sr) // ev !mulm_Mat => /(@Ok_inj _ _ _) h0.
have hv : D *m v = 0.
  apply: Mat_inj; rewrite -zerom_Mat -(@vecK _ n (Mat (D *m v))) // h0.
  by apply: mat_ext => // i j hi hj; case: j hj => // _; rewrite ent_vecm hi !ent_zerom.
have h : (t *: D) *m v = 0 *: v by rewrite -scalemxAl hv scaler0 scale0r.
by rewrite (gexp_eig h) cexp0 scale1r -ev unvecK.
Qed.
Print Assumptions C66_stationary.

(** Without collapse operators in the list the open evolution is the closed
    one: [rho -> U rho U^+]. *)
Theorem C66_open_closed expm (n : nat) (H : mat C) (t : C) rates double : matrixExponential expm ->
  (0 < n)%N -> hermitian n H -> t^* = t ->
  exists U E, Unitary expm H t = Ok U /\
    LiouvillianExp expm (Some H) t (CList [::]) rates true double = Ok E /\
    forall rho, square n rho -> isMatrix n (prod3 n U rho (hc U)) (applySO E rho).
Proof.
move=> hE hn hH ht; have sH : square n H by case: hH.
have [h1 h2] := sH.
have hL : Liouvillian (Some H) (CList [::]) rates double = Ok (hamm n H) by rewrite (LiouvillianE _ _ _ hn sH).
pose A := scalem t (scalem (- 'i) H).
have sA : square n A by [].
have [U [eU [sU _]]] := hE _ _ sA; have [u1 u2] := sU.
have [_ [_ [eC [_ _]]]] := laws_true hE.
have eV := eC _ _ _ sA eU.
have e1 : expm (kron (idm C n) A) = Ok (kron (idm C n) U).
  by have := expm_comp n 1 hE sA eU; rewrite /comp !kronm1.
have sB : square n (conjm A) by [].
have e2 : expm (kron (conjm A) (idm C n)) = Ok (kron (conjm U) (idm C n)).
  by have := expm_comp 1 n hE sB eV; rewrite /comp !kron1m.
have sK1 : square (n * n) (kron (idm C n) A) by split; rewrite /= ?h1 ?h2.
have sK2 : square (n * n) (kron (conjm A) (idm C n)) by split; rewrite /= ?h1 ?h2.
have eS : scalem t (hamm n H) = addm (kron (idm C n) A) (kron (conjm A) (idm C n)).
  have /hermitianE[_ hh] := hH.
  have eT : conjm H = trm H by rewrite -{1}hh; apply: mat_ext; rewrite /= ?h1 ?h2 // => i j hi hj; rewrite ent_conjm ent_hc conjCK ent_trm.
  have -> : conjm A = scalem (t * 'i) (trm H).
    apply: mat_ext; rewrite /= ?h1 ?h2 // => i j hi hj.
    by rewrite ent_conjm !ent_scalem !rmorphM rmorphN conjCi opprK ht mulrA -eT ent_conjm.
  apply: mat_ext; rewrite /= ?h1 ?h2 ?mulnn // => i j hi hj.
  rewrite ent_scalem /hamm ent_addm /= ?h1 ?h2 ?mulnn // ent_zerom add0r ent_scalem ent_subm //= ?h1 ?h2 //.
  rewrite ent_addm /= ?h1 ?h2 // kron_scaleml !kron_scalemr !ent_scalem.
  by rewrite [- 'i * (_ - _)]mulrBr mulrBr; congr (_ + _); rewrite mulNr mulrN opprK mulrA.
have eE : LiouvillianExp expm (Some H) t (CList [::]) rates true double = Ok (kron (conjm U) U).
  rewrite /LiouvillianExp hL /= eS.
  have [K1 k1] := square_Mat sK1; have [K2 k2] := square_Mat sK2.
  have cm : K1 *m K2 = K2 *m K1.
    apply: Mat_inj; rewrite -!mulm_Mat -k1 -k2 !kron_mulm /= ?h1 ?h2 // !mul1m /= ?h1 ?h2 //.
    by rewrite !mulm1 /= ?h1 ?h2.
  have g1 : Mat (gexp K1) = kron (idm C n) U by apply: (@Ok_inj); rewrite -(expm_Mat K1 hE) -k1.
  have g2 : Mat (gexp K2) = kron (conjm U) (idm C n) by apply: (@Ok_inj); rewrite -(expm_Mat K2 hE) -k2.
  rewrite k1 k2 add_Mat (expm_Mat _ hE) gexpD // -(mulm_Mat (gexp K1) (gexp K2)) g1 g2.
  by rewrite kron_mulm /= ?u1 ?u2 // mul1m /= ?u1 // mulm1 //= u2.
exists U, (kron (conjm U) U); split; first exact: eU; split=> // rho hr.
have eT : conjm U = trm (hc U) by apply: mat_ext => // i j hi hj; rewrite ent_conjm ent_trm ent_hc.
have sh : square n (hc U) by split.
apply: applyM => //; first by split; rewrite /= ?u1 ?u2.
by move=> i j hi hj; rewrite eT act_kron // (@prod3E C n) //; case: hr.
Qed.
Print Assumptions C66_open_closed.

(** sigma_z and an operator it commutes with, an eigenstate of energy -1, and the
    embedding of sigma_z between a two- and a three-level system. *)
Example C66_ex : exists expm Z S v G, matrixExponential expm /\ @sigmaz C = Ok Z /\ square 2 Z /\ hermitian 2 Z /\
  S = m2 1 0 0 'i /\ mmul Z S = mmul S Z /\ Z <> S /\ madd Z S = Ok (addm Z S) /\
  basis C 2 1 = Ok v /\ isKet 2 v /\ mmul Z v = Ok (scalem (ofR (-1)) v) /\ compositeOp Z 2 3 = Ok G.
Proof.
have [[v [eV [sV aV]]] _] := @C44_basis C 2 1 isT.
have hz : hermitian 2 (m2 1 0 0 (-1) : mat C) by apply/hermitianE; split; [|have [_ _] := gen_hc C].
have [G eG] : exists G, compositeOp (m2 1 0 0 (-1) : mat C) 2 3 = Ok G by rewrite compositeOpE; eexists.
exists expmT, (m2 1 0 0 (-1)), (m2 1 0 0 'i), v, G.
split; first exact: expmT_exp. split; first exact: sigmazE. split; first by split. split; first exact: hz.
split; first by []. split.
  rewrite !mmulE //; congr Ok; apply: mat_ext => // i j hi hj; rewrite !ent_mulm.
  rewrite [cols _]/= !big_ord_recl !big_ord0; move: i j hi hj => [|[|i]] [|[|j]] // _ _; rewrite !ent_mk // ?mulr0 ?mul0r ?addr0 ?add0r //.
  by rewrite mulrC.
have ni : -1 <> 'i :> C.
  move=> h; have := sqrCi C; rewrite -h sqrrN expr1n => /eqP.
  by rewrite -subr_eq0 opprK -[1 + 1](natrD _ 1 1) pnatr_eq0.
split; first by move=> /(congr1 (fun X => ent X 1 1)); rewrite !ent_mk // => h; apply: ni; exact: h.
split; first by rewrite /madd.
split; first exact: eV. split; first exact: sV. split; last exact: eG.
have [r c] := sV; rewrite mmulE ?r //; congr Ok; apply: mat_ext => [||i j hi hj].
- by rewrite [LHS]/= [RHS]/= r.
- by rewrite [LHS]/= [RHS]/= c.
have {}hi : (i < 2)%N by []. have {}hj : (j < 1)%N by move: hj; rewrite /= c.
rewrite ent_mulm [cols _]/= !big_ord_recl !big_ord0 ent_scalem; case: j hj => // _.
have a0 : ent v 0 0 = 0 by rewrite -[LHS]/(amp v 0) aV.
have a1 : ent v 1 0 = 1 by rewrite -[LHS]/(amp v 1) aV.
rewrite ofRN -[ent v (nat_of_ord ord0) 0]/(ent v 0 0) -[ent v (lift _ _) 0]/(ent v 1 0) a0 a1.
by move: i hi => [|[|i]] // _; rewrite ?a0 ?a1 !ent_mk // ?mulr0 ?mul0r ?addr0 ?add0r ?mulr1.
Qed.
