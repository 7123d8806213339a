(** Gaussian and Beta integrals used for the densities of random-matrix theory. *)
From Coq Require Import Reals Lra Lia Psatz ZArith.
From Coquelicot Require Import Coquelicot.
From Verif Require Import Py RmtModel RmtSpec.
Local Open Scope R_scope.

(** ** The Gaussian integral *)

Definition gauss (t : R) : R := exp (- t ^ 2).
Definition erfI (x : R) : R := RInt gauss 0 x.
Definition aux (x t : R) : R := exp (- (x ^ 2 * (1 + t ^ 2))) / (1 + t ^ 2).
Definition auxI (x : R) : R := RInt (aux x) 0 1.

Lemma den_pos t : 0 < 1 + t ^ 2.
Proof. nra. Qed.

Lemma cont_derivable (f : R -> R) (x : R) : ex_derive f x -> continuous f x.
Proof. intros H. now apply (ex_derive_continuous (K := R_AbsRing) (V := R_NormedModule)). Qed.

Lemma cont_gauss x : continuous gauss x.
Proof. apply cont_derivable. unfold gauss. auto_derive. trivial. Qed.

Lemma ex_gauss a b : ex_RInt gauss a b.
Proof. apply (ex_RInt_continuous (V := R_CompleteNormedModule)). intros; apply cont_gauss. Qed.

Lemma erfI_derive x : is_derive erfI x (gauss x).
Proof.
apply (is_derive_RInt gauss erfI 0).
- apply filter_forall. intros b. apply (RInt_correct gauss). apply ex_gauss.
- apply cont_gauss.
Qed.

Lemma cont_aux x t : continuous (aux x) t.
Proof.
apply cont_derivable. unfold aux. auto_derive. pose proof (den_pos t). simpl in *; lra.
Qed.

Lemma ex_aux x : ex_RInt (aux x) 0 1.
Proof. apply (ex_RInt_continuous (V := R_CompleteNormedModule)). intros; apply cont_aux. Qed.

Lemma aux_derive x t :
  is_derive (fun u => aux u t) x (-2 * x * exp (- (x ^ 2 * (1 + t ^ 2)))).
Proof.
unfold aux. pose proof (den_pos t). auto_derive; [simpl in *; lra|].
simpl in *. match goal with |- context [exp ?a] => generalize (exp a) end. intros e. field. lra.
Qed.

Lemma aux_Derive x t : Derive (fun u => aux u t) x = -2 * x * exp (- (x ^ 2 * (1 + t ^ 2))).
Proof. apply is_derive_unique, aux_derive. Qed.

Lemma auxI_derive x :
  is_derive auxI x (RInt (fun t => -2 * x * exp (- (x ^ 2 * (1 + t ^ 2)))) 0 1).
Proof.
replace (RInt (fun t => -2 * x * exp (- (x ^ 2 * (1 + t ^ 2)))) 0 1)
  with (RInt (fun t => Derive (fun u => aux u t) x) 0 1)
  by (apply RInt_ext; intros; apply aux_Derive).
apply (is_derive_RInt_param aux 0 1 x).
- apply filter_forall. intros y t _. eexists. apply aux_derive.
- intros t _.
  apply continuity_2d_pt_ext with (f := fun u v => (-2 * u) * exp (- (u ^ 2 * (1 + v ^ 2)))).
  { intros u v. symmetry. apply aux_Derive. }
  apply continuity_2d_pt_mult.
  + apply continuity_2d_pt_mult; [apply continuity_2d_pt_const|apply continuity_2d_pt_id1].
  + apply continuity_1d_2d_pt_comp.
    { apply derivable_continuous_pt, derivable_pt_exp. }
    apply continuity_2d_pt_opp. apply continuity_2d_pt_mult.
    * simpl. apply continuity_2d_pt_mult; [apply continuity_2d_pt_id1|].
      apply continuity_2d_pt_mult; [apply continuity_2d_pt_id1|apply continuity_2d_pt_const].
    * apply continuity_2d_pt_plus; [apply continuity_2d_pt_const|].
      simpl. apply continuity_2d_pt_mult; [apply continuity_2d_pt_id2|].
      apply continuity_2d_pt_mult; [apply continuity_2d_pt_id2|apply continuity_2d_pt_const].
- apply filter_forall. intros y. apply ex_aux.
Qed.

Lemma auxI_slope x :
  RInt (fun t => -2 * x * exp (- (x ^ 2 * (1 + t ^ 2)))) 0 1 = -2 * gauss x * erfI x.
Proof.
unfold erfI.
assert (E : RInt (fun y => x * gauss (x * y + 0)) 0 1 = RInt gauss 0 x).
{ transitivity (RInt gauss (x * 0 + 0) (x * 1 + 0)).
  - rewrite <- (RInt_comp_lin (V := R_CompleteNormedModule) gauss x 0 0 1).
    + apply RInt_ext. reflexivity.
    + apply ex_gauss.
  - f_equal; ring. }
rewrite <- E.
transitivity (RInt (fun y => scal (-2 * gauss x) (x * gauss (x * y + 0))) 0 1).
- apply RInt_ext. intros t _. unfold scal; simpl; unfold mult; simpl. unfold gauss.
  replace (- (x * (x * 1) * (1 + t * (t * 1)))) with (- x ^ 2 + - (x * t + 0) ^ 2) by ring.
  rewrite exp_plus. ring.
- rewrite (RInt_scal (V := R_CompleteNormedModule) (fun y => x * gauss (x * y + 0))).
  + reflexivity.
  + apply (ex_RInt_continuous (V := R_CompleteNormedModule)). intros z _. apply cont_derivable. unfold gauss.
    auto_derive. trivial.
Qed.

Lemma gauss_const x : 0 <= x -> erfI x ^ 2 + auxI x = PI / 4.
Proof.
intros Hx.
assert (H0 : erfI 0 ^ 2 + auxI 0 = PI / 4).
{ assert (Z : erfI 0 = 0) by exact (RInt_point (V := R_CompleteNormedModule) 0 gauss).
  rewrite Z. replace (0 ^ 2 + auxI 0) with (auxI 0) by ring. unfold auxI.
  apply (is_RInt_unique (aux 0)).
  assert (P4 : minus (atan 1) (atan 0) = PI / 4) by (rewrite atan_1, atan_0; unfold minus, plus, opp; simpl; lra).
  rewrite <- P4.
  apply is_RInt_ext with (f := fun t => / (1 + t ^ 2)).
  - intros t _. unfold aux. replace (- (0 ^ 2 * (1 + t ^ 2))) with 0 by ring. rewrite exp_0.
    unfold Rdiv. symmetry. apply Rmult_1_l.
  - apply (is_RInt_derive (V := R_CompleteNormedModule) atan).
    + intros t _. apply is_derive_Reals. exact (derivable_pt_lim_atan t).
    + intros t _. apply cont_derivable. auto_derive. pose proof (den_pos t). simpl in *; lra. }
destruct (Rle_lt_or_eq_dec 0 x Hx) as [Hlt|<-]; [|exact H0].
rewrite <- H0. symmetry.
apply (eq_is_derive (fun y => erfI y ^ 2 + auxI y) 0 x); [|exact Hlt].
intros t _.
assert (Z : plus (INR 2 * gauss t * erfI t ^ (Init.Nat.pred 2)) (-2 * gauss t * erfI t) = 0)
  by (unfold plus; simpl; ring).
change (@zero R_NormedModule) with 0. rewrite <- Z.
apply (is_derive_plus (fun y => erfI y ^ 2) auxI).
- apply (is_derive_pow erfI 2 t (gauss t)). apply erfI_derive.
- rewrite <- auxI_slope. apply auxI_derive.
Qed.

Lemma auxI_bounds x : 0 <= auxI x <= exp (- x ^ 2).
Proof.
unfold auxI. split.
- apply RInt_ge_0; [lra|apply ex_aux|]. intros t _. unfold aux.
  apply Rlt_le, Rdiv_lt_0_compat; [apply exp_pos|apply den_pos].
- replace (exp (- x ^ 2)) with (RInt (fun _ => exp (- x ^ 2)) 0 1).
  2: { rewrite RInt_const. unfold scal; simpl. unfold mult; simpl. ring. }
  apply RInt_le; [lra|apply ex_aux|apply ex_RInt_const|].
  intros t _. unfold aux. pose proof (den_pos t).
  apply Rle_trans with (exp (- x ^ 2) / 1).
  + unfold Rdiv. apply Rmult_le_compat.
    * apply Rlt_le, exp_pos.
    * apply Rlt_le, Rinv_0_lt_compat; lra.
    * destruct (Req_dec (x ^ 2 * t ^ 2) 0) as [E|E].
      -- replace (- (x ^ 2 * (1 + t ^ 2))) with (- x ^ 2) by lra. lra.
      -- apply Rlt_le, exp_increasing. assert (0 <= x ^ 2 * t ^ 2) by (simpl; nra). lra.
    * apply Rinv_le_contravar; [lra|]. simpl in *; nra.
  + lra.
Qed.

Lemma erfI_nonneg x : 0 <= x -> 0 <= erfI x.
Proof.
intros Hx. apply RInt_ge_0; [exact Hx|apply ex_gauss|]. intros. apply Rlt_le, exp_pos.
Qed.

(** ** Limits at infinity *)

Lemma lim_squeeze0 (f g : R -> R) : (forall x, 1 <= x -> 0 <= f x <= g x) ->
  is_lim g p_infty 0 -> is_lim f p_infty 0.
Proof.
intros H Hg. apply is_lim_le_le_loc with (f := fun _ => 0) (g := g).
- exists 1. intros x Hx. apply H. lra.
- apply is_lim_const.
- exact Hg.
Qed.

Lemma lim_inv_x : is_lim (fun x => / x) p_infty 0.
Proof.
replace (Finite 0) with (Rbar_inv p_infty) by reflexivity.
apply is_lim_inv; [apply is_lim_id|discriminate].
Qed.

Lemma lim_scal (f : R -> R) (c l m : R) : is_lim f p_infty l -> m = c * l ->
  is_lim (fun x => c * f x) p_infty m.
Proof. intros H ->. exact (is_lim_scal_l f c p_infty l H). Qed.

Lemma x_exp_le c x : 0 < c -> 1 <= x -> 0 <= x * exp (- (c * x ^ 2)) <= / c * / x.
Proof.
intros Hc Hx. split.
{ apply Rmult_le_pos; [lra|apply Rlt_le, exp_pos]. }
assert (P : 0 < c * x ^ 2) by (simpl; apply Rmult_lt_0_compat; nra).
assert (E : c * x ^ 2 <= exp (c * x ^ 2)) by (pose proof (exp_ineq1 (c * x ^ 2)); lra).
rewrite exp_Ropp.
apply Rle_trans with (x * / (c * x ^ 2)).
- apply Rmult_le_compat_l; [lra|]. apply Rinv_le_contravar; assumption.
- right. field. lra.
Qed.

Lemma lim_x_exp c : 0 < c -> is_lim (fun x => x * exp (- (c * x ^ 2))) p_infty 0.
Proof.
intros Hc. apply lim_squeeze0 with (g := fun x => / c * / x).
- intros x Hx. now apply x_exp_le.
- apply lim_scal with 0; [apply lim_inv_x|ring].
Qed.

Lemma lim_pow_exp k : forall a, 0 < a -> is_lim (fun x => x ^ k * exp (- (a * x ^ 2))) p_infty 0.
Proof.
induction k as [|k IH]; intros a Ha.
- apply lim_squeeze0 with (g := fun x => x * exp (- (a * x ^ 2))); [|now apply lim_x_exp].
  intros x Hx. pose proof (exp_pos (- (a * x ^ 2))). split; [lra|].
  apply Rmult_le_compat_r; lra.
- apply is_lim_ext with (f := fun x => (x ^ k * exp (- (a / 2 * x ^ 2))) * (x * exp (- (a / 2 * x ^ 2)))).
  { intros x. replace (- (a * x ^ 2)) with (- (a / 2 * x ^ 2) + - (a / 2 * x ^ 2)) by field.
    rewrite exp_plus. simpl. ring. }
  assert (L := is_lim_mult _ _ p_infty _ _ (IH (a / 2) ltac:(lra)) (lim_x_exp (a / 2) ltac:(lra)) I).
  simpl in L. now rewrite Rmult_0_l in L.
Qed.

Lemma erfI_lim : is_lim erfI p_infty (sqrt PI / 2).
Proof.
assert (A : is_lim auxI p_infty 0).
{ apply lim_squeeze0 with (g := fun x => x ^ 0 * exp (- (1 * x ^ 2))).
  - intros x _. replace (x ^ 0 * exp (- (1 * x ^ 2))) with (exp (- x ^ 2)).
    + apply auxI_bounds.
    + rewrite Rmult_1_l. simpl. now rewrite Rmult_1_l.
  - apply (lim_pow_exp 0 1). lra. }
assert (PP := PI_RGT_0).
replace (sqrt PI / 2) with (sqrt (PI / 4 - 0)).
2: { rewrite Rminus_0_r. rewrite sqrt_div_alt by lra.
     replace 4 with (2 * 2) by ring. now rewrite sqrt_square by lra. }
apply is_lim_ext_loc with (f := fun x => sqrt (PI / 4 - auxI x)).
- exists 1. intros x Hx. rewrite <- (gauss_const x) by lra.
  replace (erfI x ^ 2 + auxI x - auxI x) with (erfI x * erfI x) by ring.
  apply sqrt_square, erfI_nonneg. lra.
- apply (is_lim_comp_continuous (fun x => PI / 4 - auxI x) sqrt p_infty (PI / 4 - 0)).
  + apply (is_lim_minus' (fun _ => PI / 4) auxI p_infty (PI / 4) 0); [apply is_lim_const|exact A].
  + apply continuous_sqrt.
Qed.

(** ** Moments of a Gaussian *)

Definition mom (k : nat) (a x : R) : R := x ^ k * exp (- (a * x ^ 2)).

Lemma mom_cont k a x : continuous (mom k a) x.
Proof. apply cont_derivable. unfold mom. auto_derive. trivial. Qed.

Lemma mom_ex k a u v : ex_RInt (mom k a) u v.
Proof. apply (ex_RInt_continuous (V := R_CompleteNormedModule)). intros; apply mom_cont. Qed.

Definition momLim (k : nat) (a l : R) : Prop := is_lim (fun b => RInt (mom k a) 0 b) p_infty l.

Lemma mom0 a : 0 < a -> momLim 0 a (sqrt PI / (2 * sqrt a)).
Proof.
intros Ha. assert (S : 0 < sqrt a) by now apply sqrt_lt_R0.
unfold momLim.
apply is_lim_ext with (f := fun b => / sqrt a * erfI (sqrt a * b)).
{ intros b. unfold erfI.
  assert (E : RInt (fun y => sqrt a * gauss (sqrt a * y + 0)) 0 b = RInt gauss 0 (sqrt a * b)).
  { transitivity (RInt gauss (sqrt a * 0 + 0) (sqrt a * b + 0)).
    - rewrite <- (RInt_comp_lin (V := R_CompleteNormedModule) gauss (sqrt a) 0 0 b).
      + apply RInt_ext. reflexivity.
      + apply ex_gauss.
    - f_equal; ring. }
  rewrite <- E.
  transitivity (RInt (fun y => scal (/ sqrt a) (sqrt a * gauss (sqrt a * y + 0))) 0 b).
  - rewrite (RInt_scal (V := R_CompleteNormedModule) (fun y => sqrt a * gauss (sqrt a * y + 0))).
    + reflexivity.
    + apply (ex_RInt_continuous (V := R_CompleteNormedModule)). intros z _. apply cont_derivable.
      unfold gauss. auto_derive. trivial.
  - apply RInt_ext. intros t _. unfold scal; simpl; unfold mult; simpl. unfold mom, gauss.
    replace (- (sqrt a * t + 0) ^ 2) with (- (sqrt a * sqrt a * t ^ 2)) by ring.
    rewrite sqrt_sqrt by lra. simpl. field. lra. }
apply lim_scal with (sqrt PI / 2); [|field; lra].
apply is_lim_ext with (f := fun b => erfI (sqrt a * b + 0)); [intros; f_equal; ring|].
apply (is_lim_comp_lin erfI (sqrt a) 0 p_infty); [|lra].
replace (Rbar_plus (Rbar_mult (sqrt a) p_infty) 0) with p_infty; [apply erfI_lim|].
unfold Rbar_mult, Rbar_mult'. destruct (Rle_dec 0 (sqrt a)) as [H|H]; [|exfalso; lra].
destruct (Rle_lt_or_eq_dec 0 (sqrt a) H); [reflexivity|exfalso; lra].
Qed.

Lemma mom_rec k a b : 0 < a ->
  RInt (mom (S (S k)) a) 0 b
  = / (2 * a) * (INR (S k) * RInt (mom k a) 0 b - b ^ (S k) * exp (- (a * b ^ 2))).
Proof.
intros Ha.
assert (D : is_RInt (fun x => INR (S k) * mom k a x - 2 * a * mom (S (S k)) a x) 0 b
              (b ^ (S k) * exp (- (a * b ^ 2)))).
{ replace (b ^ (S k) * exp (- (a * b ^ 2)))
    with (minus (b ^ (S k) * exp (- (a * b ^ 2))) (0 ^ (S k) * exp (- (a * 0 ^ 2)))).
  2: { unfold minus, plus, opp; simpl. ring. }
  apply (is_RInt_derive (V := R_CompleteNormedModule) (fun x => x ^ (S k) * exp (- (a * x ^ 2)))).
  - intros x _. unfold mom. auto_derive; trivial.
    replace (x * (x * 1)) with (x ^ 2) by ring.
    generalize (exp (- (a * x ^ 2))). intros e. rewrite S_INR. destruct k; simpl; ring.
  - intros x _. apply cont_derivable. unfold mom. auto_derive. trivial. }
assert (D2 : is_RInt (fun x => INR (S k) * mom k a x - 2 * a * mom (S (S k)) a x) 0 b
              (INR (S k) * RInt (mom k a) 0 b - 2 * a * RInt (mom (S (S k)) a) 0 b)).
{ apply (is_RInt_minus (V := R_NormedModule) (fun x => INR (S k) * mom k a x) (fun x => 2 * a * mom (S (S k)) a x)).
  - apply (is_RInt_scal (V := R_NormedModule) (mom k a)). apply (RInt_correct (V := R_CompleteNormedModule)), mom_ex.
  - apply (is_RInt_scal (V := R_NormedModule) (mom (S (S k)) a)).
    apply (RInt_correct (V := R_CompleteNormedModule)), mom_ex. }
assert (E : b ^ (S k) * exp (- (a * b ^ 2))
            = INR (S k) * RInt (mom k a) 0 b - 2 * a * RInt (mom (S (S k)) a) 0 b).
{ exact (eq_trans (eq_sym (is_RInt_unique (V := R_CompleteNormedModule) _ _ _ _ D))
                      (is_RInt_unique (V := R_CompleteNormedModule) _ _ _ _ D2)). }
assert (A : forall u v e : R, e = INR (S k) * u - 2 * a * v -> v = / (2 * a) * (INR (S k) * u - e))
  by (intros u v e ->; field; lra).
exact (A _ _ _ E).
Qed.

Lemma mom_step k a l m : 0 < a -> momLim k a l -> m = INR (S k) * l / (2 * a) -> momLim (S (S k)) a m.
Proof.
intros Ha H ->. unfold momLim.
apply is_lim_ext with (f := fun b => / (2 * a) * (INR (S k) * RInt (mom k a) 0 b - b ^ (S k) * exp (- (a * b ^ 2)))).
{ intros b. symmetry. now apply mom_rec. }
apply lim_scal with (INR (S k) * l - 0); [|field; lra].
apply (is_lim_minus' (fun b => INR (S k) * RInt (mom k a) 0 b)).
- now apply lim_scal with l.
- now apply lim_pow_exp.
Qed.

Lemma mom1 a : 0 < a -> momLim 1 a (/ (2 * a)).
Proof.
intros Ha. unfold momLim.
apply is_lim_ext with (f := fun b => / (2 * a) * (1 - b ^ 0 * exp (- (a * b ^ 2)))).
{ intros b. symmetry. apply (is_RInt_unique (V := R_CompleteNormedModule)).
  replace (/ (2 * a) * (1 - b ^ 0 * exp (- (a * b ^ 2))))
    with (minus (- / (2 * a) * exp (- (a * b ^ 2))) (- / (2 * a) * exp (- (a * 0 ^ 2)))).
  2: { replace (- (a * 0 ^ 2)) with 0 by ring. rewrite exp_0. unfold minus, plus, opp; simpl. ring. }
  apply (is_RInt_derive (V := R_CompleteNormedModule) (fun x => - / (2 * a) * exp (- (a * x ^ 2)))).
  - intros x _. unfold mom. auto_derive; trivial.
    replace (x * (x * 1)) with (x ^ 2) by ring.
    generalize (exp (- (a * x ^ 2))). intros e. field. lra.
  - intros x _. apply mom_cont. }
apply lim_scal with (1 - 0); [|field; lra].
apply (is_lim_minus' (fun _ => 1)); [apply is_lim_const|now apply lim_pow_exp].
Qed.

(** ** The spacing densities *)

Lemma half_of_lim (f : R -> R) (l : R) : (forall b, ex_RInt f 0 b) ->
  is_lim (fun b => RInt f 0 b) p_infty l -> integralHalfLine f l.
Proof.
intros E H. split; [intros; apply E|].
intros eps He. apply is_lim_spec in H. destruct (H (mkposreal eps He)) as [B HB].
exists B. intros b Hb. exact (HB b Hb).
Qed.

Lemma half_mom (f : R -> R) k a c l m : 0 < a -> (forall x, f x = c * mom k a x) -> momLim k a l -> m = c * l ->
  integralHalfLine f m.
Proof.
intros Ha Hf Hl Hm.
assert (I : forall b, is_RInt f 0 b (c * RInt (mom k a) 0 b)).
{ intros b. apply is_RInt_ext with (f := fun x => c * mom k a x); [intros; symmetry; apply Hf|].
  apply (is_RInt_scal (V := R_NormedModule) (mom k a)).
  apply (RInt_correct (V := R_CompleteNormedModule)), mom_ex. }
apply half_of_lim.
- intros b. eexists. apply I.
- apply is_lim_ext with (f := fun b => c * RInt (mom k a) 0 b).
  + intros b. symmetry. apply (is_RInt_unique (V := R_CompleteNormedModule)), I.
  + now apply lim_scal with l.
Qed.

Lemma lim_exp_neg : is_lim (fun x => exp (- x)) p_infty 0.
Proof.
apply lim_squeeze0 with (g := fun x => / x); [|apply lim_inv_x].
intros x Hx. split; [apply Rlt_le, exp_pos|]. rewrite exp_Ropp.
apply Rinv_le_contravar; [lra|]. pose proof (exp_ineq1 x). lra.
Qed.

Lemma lim_x_exp_neg : is_lim (fun x => x * exp (- x)) p_infty 0.
Proof.
apply lim_squeeze0 with (g := fun x => 4 * / x).
2: { apply lim_scal with 0; [apply lim_inv_x|ring]. }
intros x Hx. split; [apply Rmult_le_pos; [lra|apply Rlt_le, exp_pos]|].
rewrite exp_Ropp.
assert (E : x ^ 2 / 4 <= exp x).
{ replace x with (x / 2 + x / 2) at 2 by field. rewrite exp_plus.
  pose proof (exp_ineq1 (x / 2)). simpl. nra. }
apply Rle_trans with (x * / (x ^ 2 / 4)).
- apply Rmult_le_compat_l; [lra|]. apply Rinv_le_contravar; [simpl; nra|exact E].
- right. field. lra.
Qed.

Lemma half_prim (f F : R -> R) (l : R) : (forall x, is_derive F x (f x)) -> (forall x, continuous f x) ->
  is_lim F p_infty l -> integralHalfLine f (l - F 0).
Proof.
intros D Cf L.
assert (I : forall b, is_RInt f 0 b (F b - F 0)).
{ intros b. apply (is_RInt_derive (V := R_CompleteNormedModule) F); intros; [apply D|apply Cf]. }
apply half_of_lim.
- intros b. eexists. apply I.
- apply is_lim_ext with (f := fun b => F b - F 0).
  + intros b. symmetry. apply (is_RInt_unique (V := R_CompleteNormedModule)), I.
  + apply (is_lim_minus' F (fun _ => F 0)); [exact L|apply is_lim_const].
Qed.

Lemma exp_total : integralHalfLine (fun x => exp (- x)) 1.
Proof.
replace 1 with (0 - - exp (- 0)) by (rewrite Ropp_0, exp_0; ring).
apply (half_prim (fun x => exp (- x)) (fun x => - exp (- x))).
- intros x. auto_derive; trivial. ring.
- intros x. apply cont_derivable. auto_derive. trivial.
- replace 0 with (- 0) by ring. apply (is_lim_opp _ p_infty 0), lim_exp_neg.
Qed.

Lemma exp_mean : integralHalfLine (fun x => x * exp (- x)) 1.
Proof.
replace 1 with (- (0 + 0) - - (0 * exp (- 0) + exp (- 0))) by (rewrite Ropp_0, exp_0; ring).
apply (half_prim (fun x => x * exp (- x)) (fun x => - (x * exp (- x) + exp (- x)))).
- intros x. auto_derive; trivial. ring.
- intros x. apply cont_derivable. auto_derive. trivial.
- apply (is_lim_opp _ p_infty (0 + 0)).
  apply (is_lim_plus' (fun x => x * exp (- x)) (fun x => exp (- x)) p_infty 0 0);
    [apply lim_x_exp_neg|apply lim_exp_neg].
Qed.

(** The scale of the Gaussian factor for each Dyson parameter and the factor in
    front of it. *)
Definition wdScale (beta : nat) : R :=
  match beta with 1%nat => PI / 4 | 2%nat => 4 / PI | _ => 64 / (9 * PI) end.
Definition wdCoef (beta : nat) : R :=
  match beta with 1%nat => PI / 2 | 2%nat => 32 / PI ^ 2 | _ => 2 ^ 18 / (3 ^ 6 * PI ^ 3) end.

Definition oneTwoFour (k : nat) := (k = 1 \/ k = 2 \/ k = 4)%nat.

Lemma wd_pos k : 0 < wdScale k /\ 0 < wdCoef k.
Proof.
assert (PP := PI_RGT_0).
assert (P3 : 0 < PI ^ 3) by (apply pow_lt; lra).
assert (P2 : 0 < PI ^ 2) by (apply pow_lt; lra).
destruct k as [|[|[|k]]]; unfold wdScale, wdCoef; split; try (apply Rdiv_lt_0_compat; lra).
Qed.

Lemma wd_eq k x : oneTwoFour k -> WignerDyson x (Z.of_nat k) = Ok (wdCoef k * mom k (wdScale k) x).
Proof.
assert (PP := PI_RGT_0).
intros [->|[->| ->]]; unfold WignerDyson; simpl Z.of_nat; simpl Z.eqb; cbv iota; f_equal; unfold mom, wdCoef, wdScale.
- replace (- PI * x ^ 2 * (1 / 4)) with (- (PI / 4 * x ^ 2)) by field. simpl powerRZ. simpl (x ^ 1). ring.
- replace (- 4 * x ^ 2 / PI) with (- (4 / PI * x ^ 2)) by (field; lra).
  simpl powerRZ. generalize (exp (- (4 / PI * x ^ 2))). intros. simpl. field. lra.
- replace (-64 * x ^ 2 / (9 * PI)) with (- (64 / (9 * PI) * x ^ 2)) by (field; lra).
  simpl powerRZ. generalize (exp (- (64 / (9 * PI) * x ^ 2))). intros. simpl. field. lra.
Qed.

Lemma sqrt_quot a b : 0 < a -> 0 < b -> sqrt (a * a / b) = a / sqrt b.
Proof. intros Ha Hb. rewrite sqrt_div_alt by exact Hb. now rewrite sqrt_square by lra. Qed.

Lemma wd_total k : oneTwoFour k -> integralHalfLine (fun x => wdCoef k * mom k (wdScale k) x) 1.
Proof.
assert (PP := PI_RGT_0). assert (SP : 0 < sqrt PI) by now apply sqrt_lt_R0.
assert (SS : sqrt PI * sqrt PI = PI) by (apply sqrt_sqrt; lra).
intros H. destruct (wd_pos k) as [Pa Pc].
destruct H as [->|[->| ->]].
- eapply half_mom; [exact Pa|reflexivity|now apply mom1|]. unfold wdScale, wdCoef. field. lra.
- eapply half_mom; [exact Pa|reflexivity|eapply mom_step; [exact Pa|now apply mom0|reflexivity]|].
  unfold wdScale, wdCoef. replace (4 / PI) with (2 * 2 / PI) by (field; lra).
  rewrite sqrt_quot by lra. simpl INR.
  replace (sqrt PI / (2 * (2 / sqrt PI))) with (sqrt PI * sqrt PI / 4) by (field; lra).
  rewrite SS. field. lra.
- eapply half_mom; [exact Pa|reflexivity|
    eapply mom_step; [exact Pa|eapply mom_step; [exact Pa|now apply mom0|reflexivity]|reflexivity]|].
  unfold wdScale, wdCoef. replace (64 / (9 * PI)) with (8 / 3 * (8 / 3) / PI) by (field; lra).
  rewrite sqrt_quot by lra. simpl INR.
  replace (sqrt PI / (2 * (8 / 3 / sqrt PI))) with (3 * (sqrt PI * sqrt PI) / 16) by (field; lra).
  rewrite SS. field. lra.
Qed.

Lemma wd_mean k : oneTwoFour k -> integralHalfLine (fun x => x * (wdCoef k * mom k (wdScale k) x)) 1.
Proof.
assert (PP := PI_RGT_0). assert (SP : 0 < sqrt PI) by now apply sqrt_lt_R0.
assert (SS : sqrt PI * sqrt PI = PI) by (apply sqrt_sqrt; lra).
intros H. destruct (wd_pos k) as [Pa Pc].
assert (R1 : forall x, x * (wdCoef k * mom k (wdScale k) x) = wdCoef k * mom (S k) (wdScale k) x)
  by (intros; unfold mom; simpl; ring).
destruct H as [->|[->| ->]].
- eapply half_mom; [exact Pa|exact R1|eapply mom_step; [exact Pa|now apply mom0|reflexivity]|].
  unfold wdScale, wdCoef. replace (PI / 4) with (PI / (2 * 2)) by field.
  rewrite sqrt_div_alt by lra. rewrite sqrt_square by lra. simpl INR.
  replace (sqrt PI / (2 * (sqrt PI / 2))) with 1 by (field; lra). field. lra.
- eapply half_mom; [exact Pa|exact R1|eapply mom_step; [exact Pa|now apply mom1|reflexivity]|].
  unfold wdScale, wdCoef. simpl INR. field. lra.
- eapply half_mom; [exact Pa|exact R1|
    eapply mom_step; [exact Pa|eapply mom_step; [exact Pa|now apply mom1|reflexivity]|reflexivity]|].
  unfold wdScale, wdCoef. simpl INR. field. lra.
Qed.

(** ** The Poisson distribution *)

Section Gamma.
Variable gammaln : R -> R.
Hypothesis G : isLogGamma gammaln.

Lemma lg_fact n : exp (- gammaln (INR n + 1)) = / INR (fact n).
Proof.
destruct G as [_ [G1 GS]].
induction n as [|n IH].
- simpl INR. rewrite Rplus_0_l, G1, Ropp_0, exp_0. field.
- assert (P : 0 < INR (S n)) by (apply lt_0_INR; lia).
  replace (INR (S n) + 1) with (INR (2 * S n) / 2 + 1) by (rewrite mult_INR; simpl (INR 2); field).
  rewrite GS by lia. rewrite mult_INR. simpl (INR 2). replace ((1 + 1) * INR (S n) / 2) with (INR (S n)) by field.
  rewrite Ropp_plus_distr, exp_plus. replace (gammaln (INR (S n))) with (gammaln (INR n + 1)) by now rewrite S_INR.
  rewrite IH.
  rewrite exp_Ropp, exp_ln by exact P. rewrite fact_simpl, mult_INR. field.
  split; [apply INR_fact_neq_0|lra].
Qed.

Lemma poisson_eq n lam : 0 < lam ->
  Poissonian gammaln (INR n) lam = exp (- lam) * (/ INR (fact n) * lam ^ n).
Proof. intros Hl. unfold Poissonian. rewrite lg_fact, Rpower_pow by exact Hl. ring. Qed.

Lemma exp_series lam : is_series (fun n => / INR (fact n) * lam ^ n) (exp lam).
Proof.
generalize (is_exp_Reals lam). unfold is_pseries. apply is_series_ext.
intros n. unfold scal; simpl. unfold mult; simpl. rewrite pow_n_pow. ring.
Qed.

Lemma poisson_total lam : 0 < lam -> is_series (fun n => Poissonian gammaln (INR n) lam) 1.
Proof.
intros Hl.
apply is_series_ext with (a := fun n => exp (- lam) * (/ INR (fact n) * lam ^ n)).
{ intros n. symmetry. now apply poisson_eq. }
replace 1 with (exp (- lam) * exp lam) by (rewrite <- exp_plus, Rplus_opp_l; apply exp_0).
apply (is_series_scal (V := R_NormedModule) (exp (- lam)) _ _ (exp_series lam)).
Qed.

Lemma poisson_mean lam : 0 < lam -> is_series (fun n => INR n * Poissonian gammaln (INR n) lam) lam.
Proof.
intros Hl.
assert (T : is_series (fun n => INR (S n) * Poissonian gammaln (INR (S n)) lam) lam).
{ apply is_series_ext with (a := fun n => lam * Poissonian gammaln (INR n) lam).
  { intros n. rewrite !poisson_eq by exact Hl. rewrite fact_simpl, mult_INR.
    simpl (lam ^ S n). assert (INR (S n) <> 0) by (apply not_0_INR; lia).
    assert (A : forall l e p f s : R, s <> 0 -> f <> 0 -> l * (e * (/ f * p)) = s * (e * (/ (s * f) * (l * p))))
      by (intros; field; split; assumption).
    apply A; [assumption|apply INR_fact_neq_0]. }
  rewrite <- (Rmult_1_r lam) at 1.
  apply (is_series_scal (V := R_NormedModule) lam _ _ (poisson_total lam Hl)). }
apply (is_series_decr_1 (V := R_NormedModule)).
assert (E : lam + - (INR 0 * Poissonian gammaln (INR 0) lam) = lam) by (simpl INR; ring).
exact (eq_ind_r (fun z => is_series (V := R_NormedModule) _ z) T E).
Qed.
End Gamma.

(** ** The eigenvector densities *)

Lemma unit_prim (f F : R -> R) :
  (forall x, 0 < x < 1 -> is_derive F x (f x)) -> (forall x, 0 < x < 1 -> continuous f x) ->
  continuous F 0 -> continuous F 1 -> integralUnit f (F 1 - F 0).
Proof.
intros D Cf C0 C1.
assert (I : forall a b, 0 < a -> a <= b -> b < 1 -> is_RInt f a b (F b - F a)).
{ intros a b Ha Hab Hb. apply (is_RInt_derive (V := R_CompleteNormedModule) F);
    intros x; rewrite Rmin_left, Rmax_right by exact Hab; intros Hx; [apply D|apply Cf]; lra. }
split.
- intros a b Ha Hab Hb. eexists. now apply I.
- intros eps He.
  assert (He2 : 0 < eps / 2) by lra.
  destruct (proj1 (filterlim_locally F (F 0)) C0 (mkposreal _ He2)) as [d0 H0].
  destruct (proj1 (filterlim_locally F (F 1)) C1 (mkposreal _ He2)) as [d1 H1].
  exists (Rmin (1 / 2) (Rmin d0 d1)). split.
  { repeat apply Rmin_glb_lt; try lra; apply cond_pos. }
  intros a b Ha Hb.
  assert (M1 := Rmin_l (1 / 2) (Rmin d0 d1)). assert (M2 := Rmin_r (1 / 2) (Rmin d0 d1)).
  assert (M3 := Rmin_l d0 d1). assert (M4 := Rmin_r d0 d1).
  assert (Ea : Rabs (F a - F 0) < eps / 2).
  { apply (H0 a). unfold ball; simpl. unfold AbsRing_ball, abs, minus, plus, opp; simpl.
    rewrite Ropp_0, Rplus_0_r, Rabs_pos_eq by lra. lra. }
  assert (Eb : Rabs (F b - F 1) < eps / 2).
  { apply (H1 b). unfold ball; simpl. unfold AbsRing_ball, abs, minus, plus, opp; simpl.
    rewrite Rabs_left by lra. lra. }
  assert (E : RInt f a b = F b - F a).
  { apply (is_RInt_unique (V := R_CompleteNormedModule)). apply I; lra. }
  rewrite E. replace (F b - F a - (F 1 - F 0)) with ((F b - F 1) - (F a - F 0)) by ring.
  apply Rle_lt_trans with (Rabs (F b - F 1) + Rabs (F a - F 0)); [|lra].
  unfold Rminus at 1. eapply Rle_trans; [apply Rabs_triang|]. rewrite Rabs_Ropp. lra.
Qed.

(** The density of the orthogonal class, with n = dim - 1, up to its factor. *)
Definition betaK (n : nat) (x : R) : R := sqrt (1 - x) ^ n / ((1 - x) * sqrt x).

Section Orth.
Variable gammaln : R -> R.
Hypothesis G : isLogGamma gammaln.

Definition orthC (n : nat) : R := exp (gammaln (INR (S n) / 2) - gammaln (INR n / 2)).

Lemma orthC_pos n : 0 < orthC n.
Proof. apply exp_pos. Qed.

Lemma orthC_step n : (0 < n)%nat -> orthC (S (S n)) = INR (S n) / INR n * orthC n.
Proof.
destruct G as [_ [_ GS]]. intros Hn. unfold orthC.
assert (P : 0 < INR n) by now apply lt_0_INR.
assert (P' : 0 < INR (S n)) by (apply lt_0_INR; lia).
replace (INR (S (S (S n))) / 2) with (INR (S n) / 2 + 1) by (rewrite !S_INR; field).
replace (INR (S (S n)) / 2) with (INR n / 2 + 1) by (rewrite !S_INR; field).
rewrite !GS by lia.
replace (ln (INR (S n) / 2) + gammaln (INR (S n) / 2) - (ln (INR n / 2) + gammaln (INR n / 2)))
  with (ln (INR (S n) / 2) + (- ln (INR n / 2) + (gammaln (INR (S n) / 2) - gammaln (INR n / 2)))) by ring.
rewrite !exp_plus, exp_Ropp, !exp_ln by lra. field. lra.
Qed.

Lemma orthC_1 : orthC 1 = / sqrt PI.
Proof.
destruct G as [Gh [G1 _]]. unfold orthC. simpl INR.
replace ((1 + 1) / 2) with 1 by field. rewrite G1, Gh.
assert (0 < sqrt PI) by (apply sqrt_lt_R0, PI_RGT_0).
unfold Rminus. rewrite Rplus_0_l, exp_Ropp, exp_ln; trivial.
Qed.

Lemma orthC_2 : orthC 2 = sqrt PI / 2.
Proof.
destruct G as [Gh [G1 GS]]. unfold orthC.
replace (INR 3 / 2) with (INR 1 / 2 + 1) by (simpl; field).
rewrite GS by lia. simpl INR. replace ((1 + 1) / 2) with 1 by field. rewrite G1, Gh.
assert (0 < sqrt PI) by (apply sqrt_lt_R0, PI_RGT_0).
unfold Rminus. rewrite Ropp_0, Rplus_0_r, exp_plus, !exp_ln by lra. field.
Qed.

Definition orthPrim (n : nat) (F : R -> R) : Prop :=
  (forall x, 0 < x < 1 -> is_derive F x (betaK n x)) /\ continuous F 0 /\ continuous F 1 /\
  F 1 - F 0 = sqrt PI / orthC n.

Lemma orth_1 : orthPrim 1 (fun x => 4 * atan (sqrt x / (1 + sqrt (1 - x)))).
Proof.
assert (Ct : forall z, continuous (fun x => 4 * atan (sqrt x / (1 + sqrt (1 - x)))) z).
{ intros z. apply (continuous_mult (fun _ => 4)); [apply continuous_const|].
  apply (continuous_comp (fun x => sqrt x / (1 + sqrt (1 - x))) atan).
  - apply (continuous_mult sqrt (fun x => / (1 + sqrt (1 - x)))); [apply continuous_sqrt|].
    apply continuous_comp.
    + apply (continuous_plus (fun _ => 1) (fun x => sqrt (1 - x))); [apply continuous_const|].
      apply (continuous_comp (fun x => 1 - x) sqrt); [|apply continuous_sqrt].
      apply cont_derivable. auto_derive. trivial.
    + apply continuous_Rinv. pose proof (sqrt_pos (1 - z)). lra.
  - apply cont_derivable. eexists. apply is_derive_Reals, derivable_pt_lim_atan. }
split; [|split; [|split]]; try apply Ct.
- intros x Hx. unfold betaK.
  assert (S1 : 0 < sqrt x) by (apply sqrt_lt_R0; lra).
  assert (S2 : 0 < sqrt (1 - x)) by (apply sqrt_lt_R0; lra).
  assert (Q1 : sqrt x * sqrt x = x) by (apply sqrt_sqrt; lra).
  assert (Q2 : sqrt (1 - x) * sqrt (1 - x) = 1 - x) by (apply sqrt_sqrt; lra).
  evar_last.
  + apply (is_derive_scal (fun x => atan (sqrt x / (1 + sqrt (1 - x))))).
    apply (is_derive_comp atan (fun x => sqrt x / (1 + sqrt (1 - x)))).
    * apply is_derive_Reals, derivable_pt_lim_atan.
    * auto_derive; [repeat split; try lra|reflexivity].
      match goal with |- 1 + sqrt ?e <> 0 => pose proof (sqrt_pos e); lra end.
  + unfold scal; simpl; unfold mult; simpl. unfold Rsqr.
    replace (1 + - x) with (1 - x) by ring.
    revert S1 S2 Q1 Q2. generalize (sqrt x) (sqrt (1 - x)). intros s c S1 S2 Q1 Q2.
    assert (Z : 1 + s / (1 + c) * (s / (1 + c)) = 2 / (1 + c)).
    { assert (W : s * s = (1 - c) * (1 + c)) by lra.
      replace (s / (1 + c) * (s / (1 + c))) with (s * s / ((1 + c) * (1 + c))) by (field; lra).
      rewrite W. field. lra. }
    rewrite Rmult_1_r, Z. rewrite <- Q2.
    field_simplify_eq; [|repeat split; lra].
    assert (W : s * s = 1 - c * c) by lra.
    replace (s ^ 2) with (1 - c * c) by (rewrite <- W; ring). ring.
- rewrite orthC_1. replace (1 - 1) with 0 by ring. rewrite sqrt_0, sqrt_1.
  replace (1 / (1 + 0)) with 1 by field. replace (1 - 0) with 1 by ring. rewrite sqrt_1.
  replace (0 / (1 + 1)) with 0 by field. rewrite atan_1, atan_0.
  assert (0 < sqrt PI) by (apply sqrt_lt_R0, PI_RGT_0).
  replace (sqrt PI / / sqrt PI) with (sqrt PI * sqrt PI) by (field; lra).
  rewrite sqrt_sqrt by (apply Rlt_le, PI_RGT_0). field.
Qed.

Lemma orth_2 : orthPrim 2 (fun x => 2 * sqrt x).
Proof.
assert (Ct : forall z, continuous (fun x => 2 * sqrt x) z).
{ intros z. apply (continuous_mult (fun _ => 2)); [apply continuous_const|apply continuous_sqrt]. }
split; [|split; [|split]]; try apply Ct.
- intros x Hx. unfold betaK.
  assert (S1 : 0 < sqrt x) by (apply sqrt_lt_R0; lra).
  auto_derive; [lra|].
  simpl pow. rewrite Rmult_1_r, sqrt_sqrt by lra. field. lra.
- rewrite sqrt_1, sqrt_0, orthC_2.
  assert (0 < sqrt PI) by (apply sqrt_lt_R0, PI_RGT_0). field. lra.
Qed.

Lemma orth_step n F : (0 < n)%nat -> orthPrim n F ->
  orthPrim (S (S n)) (fun x => (INR n * F x + 2 * (sqrt x * sqrt (1 - x) ^ n)) / INR (S n)).
Proof.
intros Hn [D [C0 [C1 E]]].
assert (P : 0 < INR n) by now apply lt_0_INR.
assert (P' : 0 < INR (S n)) by (apply lt_0_INR; lia).
assert (Ct : forall z, continuous F z ->
  continuous (fun x => (INR n * F x + 2 * (sqrt x * sqrt (1 - x) ^ n)) / INR (S n)) z).
{ intros z Cz.
  apply (continuous_mult _ (fun _ => / INR (S n))); [|apply continuous_const].
  apply (continuous_plus (fun x => INR n * F x) (fun x => 2 * (sqrt x * sqrt (1 - x) ^ n))).
  - apply (continuous_mult (fun _ => INR n) F); [apply continuous_const|exact Cz].
  - apply (continuous_mult (fun _ => 2)); [apply continuous_const|].
    apply (continuous_mult sqrt (fun x => sqrt (1 - x) ^ n)); [apply continuous_sqrt|].
    apply (continuous_comp (fun x => sqrt (1 - x)) (fun y => y ^ n)).
    + apply (continuous_comp (fun x => 1 - x) sqrt); [|apply continuous_sqrt].
      apply cont_derivable. auto_derive. trivial.
    + apply cont_derivable. auto_derive. trivial. }
split; [|split; [|split]]; try (apply Ct; assumption).
- intros x Hx.
  assert (S1 : 0 < sqrt x) by (apply sqrt_lt_R0; lra).
  assert (S2 : 0 < sqrt (1 - x)) by (apply sqrt_lt_R0; lra).
  assert (Q1 : sqrt x * sqrt x = x) by (apply sqrt_sqrt; lra).
  assert (Q2 : sqrt (1 - x) * sqrt (1 - x) = 1 - x) by (apply sqrt_sqrt; lra).
  assert (DH : is_derive (fun x => 2 * (sqrt x * sqrt (1 - x) ^ n)) x
                 (INR (S n) * betaK (S (S n)) x - INR n * betaK n x)).
  { auto_derive; [repeat split; lra|].
    unfold betaK. replace (1 + - x) with (1 - x) by ring.
    destruct n as [|m]; [lia|]. simpl Init.Nat.pred. rewrite !S_INR. rewrite <- Q2.
    replace (sqrt (sqrt (1 - x) * sqrt (1 - x))) with (sqrt (1 - x)) by now rewrite Q2.
    revert S1 S2 Q1 Q2. generalize (sqrt x) (sqrt (1 - x)) (INR m). intros s c k S1 S2 Q1 Q2.
    assert (W : s * s = 1 - c * c) by lra.
    simpl pow. generalize (c ^ m). intros w.
    field_simplify_eq; [|repeat split; lra].
    replace (s ^ 2) with (1 - c * c) by (rewrite <- W; ring). ring. }
  evar_last.
  + apply (is_derive_ext (fun x => / INR (S n) * (INR n * F x + 2 * (sqrt x * sqrt (1 - x) ^ n)))).
    { intros t. unfold Rdiv. apply Rmult_comm. }
    apply (is_derive_scal (fun x => INR n * F x + 2 * (sqrt x * sqrt (1 - x) ^ n))).
    apply (is_derive_plus (fun x => INR n * F x) (fun x => 2 * (sqrt x * sqrt (1 - x) ^ n))).
    * apply (is_derive_scal F). apply D, Hx.
    * exact DH.
  + transitivity (/ INR (S n) * (INR n * betaK n x + (INR (S n) * betaK (S (S n)) x - INR n * betaK n x)));
      [reflexivity|field; lra].
- rewrite (orthC_step n Hn).
  replace (1 - 1) with 0 by ring. rewrite sqrt_0. rewrite pow_i by exact Hn.
  assert (Q := orthC_pos n).
  transitivity (INR n * (F 1 - F 0) / INR (S n)); [field; lra|]. rewrite E. field. lra.
Qed.

Lemma orth_prim n : (0 < n)%nat -> exists F, orthPrim n F.
Proof.
intros Hn. cut ((exists F, orthPrim n F) /\ exists F, orthPrim (S n) F); [tauto|].
induction n as [|n IH]; [lia|].
destruct n as [|n].
- split; eexists; [apply orth_1|apply orth_2].
- destruct IH as [[F HF] H2]; [lia|]. split; [exact H2|].
  eexists. apply orth_step; [lia|exact HF].
Qed.

Lemma betaK_cont n x : 0 < x < 1 -> continuous (betaK n) x.
Proof.
intros Hx. apply cont_derivable. unfold betaK. auto_derive.
assert (S1 : 0 < sqrt x) by (apply sqrt_lt_R0; lra).
repeat split; try lra. apply Rmult_integral_contrapositive; lra.
Qed.

Lemma orth_total n : (0 < n)%nat -> integralUnit (fun x => orthC n * (betaK n x / sqrt PI)) 1.
Proof.
intros Hn. destruct (orth_prim n Hn) as [F [D [C0 [C1 E]]]].
assert (SP : 0 < sqrt PI) by (apply sqrt_lt_R0, PI_RGT_0).
assert (Q := orthC_pos n).
replace 1 with (orthC n / sqrt PI * F 1 - orthC n / sqrt PI * F 0).
2: { rewrite <- Rmult_minus_distr_l, E. field. lra. }
apply (unit_prim _ (fun x => orthC n / sqrt PI * F x)).
- intros x Hx. evar_last; [apply (is_derive_scal F), D, Hx|]. simpl. field. lra.
- intros x Hx. apply (continuous_mult (fun _ => orthC n)); [apply continuous_const|].
  apply (continuous_mult (betaK n) (fun _ => / sqrt PI)); [now apply betaK_cont|apply continuous_const].
- apply (continuous_mult (fun _ => orthC n / sqrt PI) F); [apply continuous_const|exact C0].
- apply (continuous_mult (fun _ => orthC n / sqrt PI) F); [apply continuous_const|exact C1].
Qed.

Lemma orth_eq n x : 0 < x < 1 -> (0 < n)%nat ->
  EigenVectorDist gammaln x (Z.of_nat (S n)) 1 = Ok (clampVal (orthC n * (betaK n x / sqrt PI))).
Proof.
intros Hx Hn. unfold EigenVectorDist. simpl Z.eqb. cbv iota. f_equal. f_equal. rewrite <- INR_IZR_INZ.
unfold orthC. f_equal.
{ f_equal. f_equal. rewrite S_INR. f_equal. field. }
unfold betaK.
assert (SP : 0 < sqrt PI) by (apply sqrt_lt_R0, PI_RGT_0).
assert (S1 : 0 < sqrt x) by (apply sqrt_lt_R0; lra).
assert (S2 : 0 < sqrt (1 - x)) by (apply sqrt_lt_R0; lra).
rewrite sqrt_mult by (try apply Rlt_le, PI_RGT_0; lra).
assert (E : Rpower (1 - x) ((INR (S n) - 3) / 2) = sqrt (1 - x) ^ n / (1 - x)).
{ rewrite <- (Rpower_pow n (sqrt (1 - x))) by exact S2.
  rewrite <- Rpower_sqrt by lra. rewrite Rpower_mult.
  replace ((INR (S n) - 3) / 2) with (/ 2 * INR n + Ropp 1) by (rewrite S_INR; field).
  rewrite Rpower_plus, Rpower_Ropp, Rpower_1 by lra. reflexivity. }
rewrite E. field. lra.
Qed.
End Orth.

(** ** The limits on the returned value *)

Lemma tiny_pos : 0 < tinyVal.
Proof. unfold tinyVal. apply Rinv_0_lt_compat, pow_lt. lra. Qed.

Lemma tiny_huge : tinyVal < hugeVal.
Proof.
unfold tinyVal, hugeVal. assert (1 < 10 ^ 30) by (apply Rlt_pow_R1; [lra|lia]).
apply Rlt_trans with 1; [|assumption]. rewrite <- Rinv_1. apply Rinv_lt_contravar; lra.
Qed.

Lemma clamp_eq y : clampVal y = Rmax tinyVal (Rmin hugeVal y).
Proof.
assert (T := tiny_pos). assert (H := tiny_huge). unfold clampVal.
destruct (Rlt_dec hugeVal y) as [A|A].
- rewrite Rmin_left by lra. destruct (Rlt_dec hugeVal tinyVal); [lra|].
  destruct (Req_EM_T hugeVal 0); [lra|]. rewrite Rmax_right; lra.
- rewrite Rmin_right by lra. destruct (Rlt_dec y tinyVal).
  + destruct (Req_EM_T tinyVal 0); [lra|]. rewrite Rmax_left; lra.
  + destruct (Req_EM_T y 0); [lra|]. rewrite Rmax_right; lra.
Qed.

Lemma clamp_forced y : forced y (clampVal y).
Proof.
assert (T := tiny_pos). assert (H := tiny_huge). rewrite clamp_eq. unfold forced. fold tinyVal hugeVal.
split; [|split]; intros Hy.
- rewrite Rmin_right by lra. rewrite Rmax_left; lra.
- rewrite Rmin_left by lra. rewrite Rmax_right; lra.
- rewrite Rmin_right by lra. rewrite Rmax_right; lra.
Qed.

Lemma clamp_range y : tinyVal <= clampVal y <= hugeVal.
Proof.
assert (T := tiny_huge). rewrite clamp_eq. split; [apply Rmax_l|].
apply Rmax_lub; [lra|apply Rmin_l].
Qed.

Lemma clamp_upper y : 0 <= y -> clampVal y <= y + tinyVal.
Proof.
intros Hy. assert (T := tiny_pos). rewrite clamp_eq. apply Rmax_lub; [lra|].
eapply Rle_trans; [apply Rmin_r|lra].
Qed.

Lemma clamp_lower y : y <= hugeVal -> y <= clampVal y.
Proof. intros Hy. rewrite clamp_eq. rewrite Rmin_right by exact Hy. apply Rmax_r. Qed.

Lemma cont_max (f : R -> R) c x : continuous f x -> continuous (fun t => Rmax c (f t)) x.
Proof.
intros Cf.
apply continuous_ext with (f := fun t => / 2 * ((c + f t) + Rabs (c - f t))).
{ intros t. unfold Rmax. destruct (Rle_dec c (f t)).
  - rewrite Rabs_left1 by lra. lra.
  - rewrite Rabs_pos_eq by lra. lra. }
apply (continuous_mult (fun _ => / 2)); [apply continuous_const|].
apply (continuous_plus (fun t => c + f t) (fun t => Rabs (c - f t))).
- apply (continuous_plus (fun _ => c) f); [apply continuous_const|exact Cf].
- apply (continuous_comp (fun t => c - f t) Rabs); [|apply continuous_Rabs].
  apply (continuous_minus (fun _ => c) f); [apply continuous_const|exact Cf].
Qed.

Lemma clamp_cont (f : R -> R) x : continuous f x -> continuous (fun t => clampVal (f t)) x.
Proof.
intros Cf.
apply continuous_ext with (f := fun t => Rmax tinyVal (- Rmax (- hugeVal) (- f t))).
{ intros t. rewrite clamp_eq. f_equal. unfold Rmin, Rmax.
  destruct (Rle_dec hugeVal (f t)), (Rle_dec (- hugeVal) (- f t)); lra. }
apply (cont_max (fun t => - Rmax (- hugeVal) (- f t))).
apply (continuous_opp (fun t => Rmax (- hugeVal) (- f t))).
apply (cont_max (fun t => - f t)).
now apply (continuous_opp f).
Qed.

Lemma clamp_integral (f : R -> R) T : (forall x, continuous f x) -> is_RInt f 0 1 T ->
  (forall x, 0 < x < 1 -> 0 <= f x) ->
  ex_RInt (fun x => clampVal (f x)) 0 1 /\ RInt (fun x => clampVal (f x)) 0 1 <= T + tinyVal /\
  ((forall x, 0 < x < 1 -> f x <= hugeVal) -> T <= RInt (fun x => clampVal (f x)) 0 1).
Proof.
intros Cf HT Hpos.
assert (E : ex_RInt (fun x => clampVal (f x)) 0 1).
{ apply (ex_RInt_continuous (V := R_CompleteNormedModule)). intros. now apply clamp_cont. }
split; [exact E|]. split.
- assert (I2 : is_RInt (fun x => f x + tinyVal) 0 1 (T + tinyVal)).
  { apply (is_RInt_plus (V := R_NormedModule) f (fun _ => tinyVal) 0 1 T tinyVal HT).
    evar_last; [apply (is_RInt_const (V := R_NormedModule))|].
    unfold scal; simpl; unfold mult; simpl. ring. }
  rewrite <- (is_RInt_unique (V := R_CompleteNormedModule) _ _ _ _ I2).
  apply RInt_le; [lra|exact E|eexists; exact I2|].
  intros x Hx. apply clamp_upper. now apply Hpos.
- intros Hh. rewrite <- (is_RInt_unique (V := R_CompleteNormedModule) _ _ _ _ HT).
  apply RInt_le; [lra|eexists; exact HT|exact E|].
  intros x Hx. apply clamp_lower. now apply Hh.
Qed.

(** The unitary class, dim = m + 2. *)
Lemma unit_eq gammaln m x :
  EigenVectorDist gammaln x (Z.of_nat (S (S m))) 2 = Ok (clampVal (INR (S m) * (1 - x) ^ m)).
Proof.
unfold EigenVectorDist. simpl Z.eqb. cbv iota. f_equal. f_equal.
replace (Z.of_nat (S (S m)) - 1)%Z with (Z.of_nat (S m)) by lia.
replace (Z.of_nat (S (S m)) - 2)%Z with (Z.of_nat m) by lia.
now rewrite <- INR_IZR_INZ, <- pow_powerRZ.
Qed.

Lemma unit_total m : is_RInt (fun x => INR (S m) * (1 - x) ^ m) 0 1 1.
Proof.
evar_last.
- apply (is_RInt_derive (V := R_CompleteNormedModule) (fun x => - (1 - x) ^ (S m))).
  + intros x _. auto_derive; trivial. simpl Init.Nat.pred.
    change (match m with O => 1 | S _ => INR m + 1 end) with (INR (S m)). rewrite <- Ropp_mult_distr_l. unfold Rminus.
    ring.
  + intros x _. apply cont_derivable. auto_derive. trivial.
- unfold minus, plus, opp; simpl. rewrite Rminus_0_r, pow1. ring.
Qed.

(** The symplectic class, dim = n + 1. *)
Lemma symp_eq gammaln n x :
  EigenVectorDist gammaln x (Z.of_nat (S n)) 4
  = Ok (clampVal (INR n * (INR n - 1) * (x * (1 - x) ^ n))).
Proof.
unfold EigenVectorDist. simpl Z.eqb. cbv iota. f_equal. f_equal.
replace (Z.of_nat (S n) - 1)%Z with (Z.of_nat n) by lia.
replace (Z.of_nat (S n) - 2)%Z with (Z.of_nat n - 1)%Z by lia.
rewrite mult_IZR, minus_IZR. now rewrite <- INR_IZR_INZ, <- pow_powerRZ.
Qed.

Lemma symp_total n :
  is_RInt (fun x => INR n * (INR n - 1) * (x * (1 - x) ^ n)) 0 1
    (INR n * (INR n - 1) / ((INR n + 1) * (INR n + 2))).
Proof.
assert (P := pos_INR n).
set (c := INR n * (INR n - 1)).
pose (F := fun x => c * ((1 - x) ^ (S (S n)) / (INR n + 2) - (1 - x) ^ (S n) / (INR n + 1))).
replace (c / ((INR n + 1) * (INR n + 2))) with (minus (F 1) (F 0)).
2: { unfold F, minus, plus, opp; simpl. rewrite Rminus_0_r, pow1.
     replace (1 - 1) with 0 by ring. field. lra. }
apply (is_RInt_derive (V := R_CompleteNormedModule) F).
- intros x _. unfold F. auto_derive; [lra|].
  replace (match n with O => 1 | S _ => INR n + 1 end) with (INR n + 1) by (destruct n; simpl; ring).
  simpl pow. replace (1 + - x) with (1 - x) by ring. generalize ((1 - x) ^ n). intros w. field. lra.
- intros x _. apply cont_derivable. auto_derive. trivial.
Qed.
