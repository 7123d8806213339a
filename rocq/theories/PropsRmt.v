(** C80: the densities of random-matrix theory (QuantumToolbox/rmtDistributions.py). *)
From Coq Require Import Reals Lra Lia ZArith List.
From Coquelicot Require Import Coquelicot.
From Verif Require Import Py RmtModel RmtSpec RmtProofs.
Import ListNotations.
Local Open Scope R_scope.

(** ** Level spacings *)

(** For each of the four Dyson parameters WignerDyson is a probability density
    on [0, infinity) with mean spacing one, and it shows level repulsion of
    degree beta: it behaves like a positive multiple of x^beta near zero. *)
Theorem C80_spacings : forall beta : Z, In beta [0; 1; 2; 4]%Z ->
  exists P : R -> R,
    (forall x, WignerDyson x beta = Ok (P x)) /\
    (forall x, 0 <= x -> 0 <= P x) /\
    integralHalfLine P 1 /\
    integralHalfLine (fun x => x * P x) 1 /\
    (exists c, 0 < c /\ is_lim (fun x => P x / powerRZ x beta) 0 c).
Proof.
intros beta [<-|H].
- exists (fun x => exp (- x)). split; [reflexivity|]. split.
  { intros; apply Rlt_le, exp_pos. }
  split; [apply exp_total|]. split; [apply exp_mean|].
  exists 1. split; [lra|].
  apply is_lim_ext with (f := fun x => exp (- x)); [intros; simpl; field|].
  replace (Finite 1) with (Finite (exp (- 0))) by (now rewrite Ropp_0, exp_0).
  apply (is_lim_continuity (fun x => exp (- x)) 0).
  apply (proj2 (continuity_pt_filterlim (fun x => exp (- x)) 0)), (cont_derivable (fun x => exp (- x)) 0). auto_derive. trivial.
- assert (K : exists k, oneTwoFour k /\ beta = Z.of_nat k).
  { destruct H as [<-|[<-|[<-|[]]]]; [exists 1%nat|exists 2%nat|exists 4%nat]; unfold oneTwoFour; split; auto. }
  destruct K as [k [Hk ->]]. destruct (wd_pos k) as [Pa Pc].
  exists (fun x => wdCoef k * mom k (wdScale k) x).
  split; [intros; now apply wd_eq|]. split.
  { intros x Hx. unfold mom. apply Rmult_le_pos; [lra|].
    apply Rmult_le_pos; [now apply pow_le|apply Rlt_le, exp_pos]. }
  split; [now apply wd_total|]. split; [now apply wd_mean|].
  exists (wdCoef k). split; [exact Pc|].
  apply is_lim_ext_loc with (f := fun x => wdCoef k * exp (- (wdScale k * x ^ 2))).
  { exists (mkposreal 1 Rlt_0_1). intros x _ Hx. unfold mom. rewrite <- pow_powerRZ.
    field. now apply pow_nonzero. }
  replace (Finite (wdCoef k)) with (Finite (wdCoef k * exp (- (wdScale k * 0 ^ 2)))).
  2: { replace (- (wdScale k * 0 ^ 2)) with 0 by ring. now rewrite exp_0, Rmult_1_r. }
  apply (is_lim_continuity (fun x => wdCoef k * exp (- (wdScale k * x ^ 2))) 0).
  apply (proj2 (continuity_pt_filterlim (fun x => wdCoef k * exp (- (wdScale k * x ^ 2))) 0)).
  apply (cont_derivable (fun x => wdCoef k * exp (- (wdScale k * x ^ 2))) 0). auto_derive. trivial.
Qed.

(** Any other Dyson parameter raises. *)
Theorem C80_otherBeta : forall gammaln x dim (beta : Z),
  (~ In beta [0; 1; 2; 4]%Z -> WignerDyson x beta = Err UnboundLocalError) /\
  (~ In beta [1; 2; 4]%Z -> EigenVectorDist gammaln x dim beta = Err UnboundLocalError).
Proof.
intros gammaln x dim beta. simpl. unfold WignerDyson, EigenVectorDist.
destruct (Z.eqb_spec beta 1) as [->|H1]; [tauto|].
destruct (Z.eqb_spec beta 2) as [->|H2]; [tauto|].
destruct (Z.eqb_spec beta 4) as [->|H4]; [tauto|].
destruct (Z.eqb_spec beta 0) as [->|H0]; tauto.
Qed.

(** ** The Poisson distribution *)

(** Over the natural numbers Poissonian is non-negative, its values add up to
    one, and its mean is lambda. *)
Theorem C80_poisson : forall gammaln lam, isLogGamma gammaln -> 0 < lam ->
  (forall n, 0 < Poissonian gammaln (INR n) lam) /\
  infinite_sum (fun n => Poissonian gammaln (INR n) lam) 1 /\
  infinite_sum (fun n => INR n * Poissonian gammaln (INR n) lam) lam /\
  (forall n, INR (S n) * Poissonian gammaln (INR (S n)) lam = lam * Poissonian gammaln (INR n) lam).
Proof.
intros g lam G Hl. split; [|split; [|split]].
- intros n. rewrite poisson_eq by assumption. apply Rmult_lt_0_compat; [apply exp_pos|].
  apply Rmult_lt_0_compat; [apply Rinv_0_lt_compat, INR_fact_lt_0|now apply pow_lt].
- apply is_series_Reals. now apply poisson_total.
- apply is_series_Reals. now apply poisson_mean.
- intros n. rewrite !poisson_eq by assumption. rewrite fact_simpl, mult_INR. simpl (lam ^ S n).
  assert (INR (S n) <> 0) by (apply not_0_INR; lia). field. split; [apply INR_fact_neq_0|assumption].
Qed.

(** ** Eigenvector components *)

(** Every value returned lies between 10^-30 and 10^30; in particular it is never
    zero, so it can be used inside a logarithm or as a divisor. *)
Theorem C80_range : forall gammaln x dim beta v, EigenVectorDist gammaln x dim beta = Ok v ->
  / 10 ^ 30 <= v <= 10 ^ 30 /\ 0 < v.
Proof.
intros g x dim beta v.
cut (forall y, Ok (clampVal y) = Ok v -> / 10 ^ 30 <= v <= 10 ^ 30 /\ 0 < v).
{ unfold EigenVectorDist. intros H.
  destruct (Z.eqb beta 1); [apply H|]. destruct (Z.eqb beta 2); [apply H|].
  destruct (Z.eqb beta 4); [apply H|discriminate]. }
intros y E. injection E as <-. generalize (clamp_range y). unfold tinyVal, hugeVal. intros B.
split; [exact B|]. pose proof tiny_pos as T. unfold tinyVal in T. lra.
Qed.

(** Orthogonal class: the returned value is a probability density on (0, 1),
    forced into the range above. *)
Theorem C80_orthogonal : forall gammaln (dim : Z), isLogGamma gammaln -> (2 <= dim)%Z ->
  exists P : R -> R,
    (forall x, 0 < x < 1 -> exists v, EigenVectorDist gammaln x dim 1 = Ok v /\ forced (P x) v) /\
    (forall x, 0 < x < 1 -> 0 < P x) /\
    integralUnit P 1.
Proof.
intros g dim G Hd.
assert (K : exists n, (0 < n)%nat /\ dim = Z.of_nat (S n)).
{ exists (Z.to_nat (dim - 1)). split; lia. }
destruct K as [n [Hn ->]].
exists (fun x => orthC g n * (betaK n x / sqrt PI)).
split; [|split].
- intros x Hx. eexists. split; [now apply orth_eq|apply clamp_forced].
- intros x Hx. apply Rmult_lt_0_compat; [apply orthC_pos|].
  apply Rdiv_lt_0_compat; [|apply sqrt_lt_R0, PI_RGT_0].
  unfold betaK. apply Rdiv_lt_0_compat; [apply pow_lt, sqrt_lt_R0; lra|].
  apply Rmult_lt_0_compat; [lra|apply sqrt_lt_R0; lra].
- now apply orth_total.
Qed.

(** Unitary class: the returned values themselves integrate to one over [0, 1] up to
    10^-30, and the uncut density integrates to exactly one. *)
Theorem C80_unitary : forall gammaln (dim : Z), (2 <= dim <= 10 ^ 30)%Z ->
  exists P V : R -> R,
    (forall x, EigenVectorDist gammaln x dim 2 = Ok (V x) /\ forced (P x) (V x)) /\
    (forall x, 0 <= x < 1 -> 0 < P x) /\
    is_RInt P 0 1 1 /\
    ex_RInt V 0 1 /\ 1 <= RInt V 0 1 <= 1 + / 10 ^ 30.
Proof.
intros g dim Hd.
assert (K : exists m, dim = Z.of_nat (S (S m))) by (exists (Z.to_nat (dim - 2)); lia).
destruct K as [m ->].
set (P := fun x => INR (S m) * (1 - x) ^ m).
assert (PS : 0 < INR (S m)) by (apply lt_0_INR; lia).
exists P, (fun x => clampVal (P x)).
split; [intros x; split; [apply unit_eq|apply clamp_forced]|].
split.
{ intros x Hx. apply Rmult_lt_0_compat; [exact PS|apply pow_lt; lra]. }
split; [apply unit_total|].
destruct (clamp_integral P 1) as [E [U L]].
- intros x. apply cont_derivable. unfold P. auto_derive. trivial.
- apply unit_total.
- intros x Hx. apply Rmult_le_pos; [lra|apply pow_le; lra].
- split; [exact E|]. split; [|exact U]. apply L.
  intros x Hx. unfold P. apply Rle_trans with (INR (S m) * 1).
  + apply Rmult_le_compat_l; [lra|]. apply Rle_trans with (1 ^ m); [apply pow_incr; lra|rewrite pow1; lra].
  + rewrite Rmult_1_r. unfold hugeVal. rewrite INR_IZR_INZ.
    rewrite pow_IZR. apply IZR_le. change (Z.of_nat 30) with 30%Z.
    revert Hd. generalize (10 ^ 30)%Z. intros z Hd. lia.
Qed.

(** Symplectic class: what the code returns is not a probability density.  Its
    integral over [0, 1] is at most (dim-1)(dim-2)/(dim(dim+1)) + 10^-30, which
    is below one: the exponent should be dim - 3, not dim - 1. *)
Theorem C80_symplectic_documented_refuted : forall gammaln (dim : Z), (2 <= dim <= 10 ^ 30)%Z ->
  exists V : R -> R,
    (forall x, EigenVectorDist gammaln x dim 4 = Ok (V x)) /\
    ex_RInt V 0 1 /\
    RInt V 0 1 <= IZR ((dim - 1) * (dim - 2)) / IZR (dim * (dim + 1)) + / 10 ^ 30 /\
    RInt V 0 1 < 1.
Proof.
intros g dim Hd.
assert (K : exists n, (0 < n)%nat /\ dim = Z.of_nat (S n)) by (exists (Z.to_nat (dim - 1)); split; lia).
destruct K as [n [Hn ->]].
set (P := fun x => INR n * (INR n - 1) * (x * (1 - x) ^ n)).
assert (P1 : 1 <= INR n) by (apply (le_INR 1); lia).
exists (fun x => clampVal (P x)).
split; [intros x; apply symp_eq|].
destruct (clamp_integral P (INR n * (INR n - 1) / ((INR n + 1) * (INR n + 2)))) as [E [U _]].
- intros x. apply cont_derivable. unfold P. auto_derive. trivial.
- apply symp_total.
- intros x Hx. unfold P. apply Rmult_le_pos; [nra|]. apply Rmult_le_pos; [lra|apply pow_le; lra].
- assert (E1 : IZR ((Z.of_nat (S n) - 1) * (Z.of_nat (S n) - 2)) / IZR (Z.of_nat (S n) * (Z.of_nat (S n) + 1))
               = INR n * (INR n - 1) / ((INR n + 1) * (INR n + 2))).
  { rewrite !mult_IZR, !minus_IZR, plus_IZR, <- INR_IZR_INZ, S_INR. f_equal; [ring|].
    f_equal. ring. }
  rewrite E1. unfold tinyVal in U. split; [exact E|]. split; [exact U|].
  eapply Rle_lt_trans; [exact U|].
  assert (B : INR n + 1 <= 10 ^ 30).
  { rewrite <- S_INR, INR_IZR_INZ. rewrite pow_IZR. apply IZR_le. change (Z.of_nat 30) with 30%Z.
    revert Hd. generalize (10 ^ 30)%Z. intros z Hd. lia. }
  assert (T : / 10 ^ 30 <= / (INR n + 1)) by (apply Rinv_le_contravar; lra).
  apply Rle_lt_trans with (INR n * (INR n - 1) / ((INR n + 1) * (INR n + 2)) + / (INR n + 1)); [lra|].
  apply (Rmult_lt_reg_r ((INR n + 1) * (INR n + 2))); [nra|].
  replace ((INR n * (INR n - 1) / ((INR n + 1) * (INR n + 2)) + / (INR n + 1)) * ((INR n + 1) * (INR n + 2)))
    with (INR n * (INR n - 1) + (INR n + 2)) by (field; lra).
  nra.
Qed.

(** ** The hypotheses can be met *)

(** A logarithm of Gamma on the half-integers: [lgH n] is its value at n/2. *)
Fixpoint lgH (n : nat) : R :=
  match n with
  | O => 0 | S O => ln (sqrt PI) | S (S O) => 0
  | S (S (S _ as m)) => ln (INR m / 2) + lgH m
  end.
Definition lgHalf (x : R) : R := lgH (Z.to_nat (Int_part (2 * x))).

Lemma lgHalf_at n : lgHalf (INR n / 2) = lgH n.
Proof.
unfold lgHalf. f_equal. replace (2 * (INR n / 2)) with (INR n) by field.
rewrite INR_IZR_INZ. rewrite <- (Nat2Z.id n) at 2. f_equal.
unfold Int_part. rewrite <- (tech_up (IZR (Z.of_nat n)) (Z.of_nat n + 1)); rewrite ?plus_IZR; lra || lia.
Qed.

Lemma lgHalf_ok : isLogGamma lgHalf.
Proof.
split; [|split].
- exact (lgHalf_at 1).
- replace 1 with (INR 2 / 2) by (simpl; field). apply (lgHalf_at 2).
- intros n Hn. replace (INR n / 2 + 1) with (INR (S (S n)) / 2) by (rewrite !S_INR; field).
  rewrite !lgHalf_at. destruct n as [|n]; [lia|]. reflexivity.
Qed.

(** Poissonian at 2 with lambda 3 is 9/2 e^-3, and the unitary density for a
    two-dimensional matrix is one. *)
Example C80_ex : isLogGamma lgHalf /\ Poissonian lgHalf 2 3 = 9 / 2 * exp (- 3) /\
  EigenVectorDist lgHalf (1 / 2) 2 2 = Ok 1 /\ WignerDyson 0 1 = Ok 0.
Proof.
split; [apply lgHalf_ok|]. split; [|split].
- replace (Poissonian lgHalf 2 3) with (Poissonian lgHalf (INR 2) 3) by (f_equal; simpl; ring).
  rewrite poisson_eq; [|apply lgHalf_ok|lra]. change (exp (-3)) with (exp (Ropp 3)). generalize (exp (Ropp 3)). intros e. simpl. field.
- etransitivity; [exact (unit_eq lgHalf 0 (1 / 2))|]. f_equal. simpl. rewrite Rmult_1_l.
  apply (proj2 (proj2 (clamp_forced 1))).
  assert (1 <= 10 ^ 30) by (apply pow_R1_Rle; lra).
  split; [|assumption]. rewrite <- Rinv_1. apply Rinv_le_contravar; lra.
- unfold WignerDyson. simpl. f_equal. ring.
Qed.

Print Assumptions C80_spacings.
Print Assumptions C80_otherBeta.
Print Assumptions C80_poisson.
Print Assumptions C80_range.
Print Assumptions C80_orthogonal.
Print Assumptions C80_unitary.
Print Assumptions C80_symplectic_documented_refuted.
Print Assumptions C80_ex.
