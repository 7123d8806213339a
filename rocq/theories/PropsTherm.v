(** C69: thermal occupation numbers and polarisations. *)
From Coq Require Import Reals Lra.
From Verif Require Import Py ThermModel.
Local Open Scope R_scope.

Lemma exp_one x : exp x = 1 <-> x = 0.
Proof. split; [intro h; rewrite <- exp_0 in h; now apply exp_inv | intros ->; apply exp_0]. Qed.

Lemma divOk x y : y <> 0 -> divR x y = Ok (x / y).
Proof. unfold divR; destruct (Req_EM_T y 0); [contradiction | reflexivity]. Qed.

Lemma inv1 x : 1 / x = / x.
Proof. unfold Rdiv; apply Rmult_1_l. Qed.

(** nBarThermal answers exactly when the field has a temperature of 0 or an
    energy; the number it returns is the one with [n / (n + 1)] the Boltzmann
    factor, written without division. *)
Theorem C69_nbar (w T h k : R) : h <> 0 -> k <> 0 ->
  (T = 0 -> nBarThermal exp w T h k = Ok 0) /\
  (T <> 0 -> w = 0 -> nBarThermal exp w T h k = Err ValueError) /\
  (T <> 0 -> w <> 0 -> exists n, nBarThermal exp w T h k = Ok n /\
     n = exp (- (h * w / (T * k))) * (n + 1) /\
     (forall n', n' = exp (- (h * w / (T * k))) * (n' + 1) -> n' = n)).
Proof.
intros hh hk; unfold nBarThermal; split; [|split].
- intros ->; destruct (Req_EM_T 0 0); [reflexivity | lra].
- intros hT ->; destruct (Req_EM_T T 0); [contradiction|].
  rewrite divOk by (apply Rmult_integral_contrapositive_currified; assumption); cbn.
  destruct (Req_EM_T _ 1) as [|hn]; [reflexivity|].
  exfalso; apply hn; apply exp_one; unfold Rdiv; rewrite Rmult_0_r, Rmult_0_l; reflexivity.
- intros hT hw; destruct (Req_EM_T T 0); [contradiction|].
  assert (hTk : T * k <> 0) by (apply Rmult_integral_contrapositive_currified; assumption).
  rewrite divOk by exact hTk; cbn.
  set (x := h * w / (T * k)).
  assert (hx : x <> 0).
  { unfold x, Rdiv; apply Rmult_integral_contrapositive_currified; [apply Rmult_integral_contrapositive_currified; assumption | apply Rinv_neq_0_compat; exact hTk]. }
  assert (hne : exp x <> 1) by (intro e; apply hx, exp_one, e).
  destruct (Req_EM_T (exp x) 1) as [|_]; [contradiction|].
  assert (hd : exp x - 1 <> 0) by lra.
  assert (he : exp x <> 0) by (pose proof (exp_pos x); lra).
  rewrite divOk by exact hd; eexists; split; [reflexivity|]; rewrite exp_Ropp; split.
  + field; split; assumption.
  + intros n' hn. apply (Rmult_eq_compat_l (exp x)) in hn.
    rewrite <- Rmult_assoc, Rinv_r, Rmult_1_l in hn by exact he.
    apply (Rmult_eq_reg_r (exp x - 1)); [|exact hd]. field_simplify; lra.
Qed.
Print Assumptions C69_nbar.

(** For positive energies and temperatures the number is positive, grows with
    the temperature and falls with the frequency. *)
Theorem C69_nbar_monotone (w w' T T' h k : R) : 0 < h -> 0 < k -> 0 < w -> w <= w' -> 0 < T' -> T' <= T ->
  exists n n', nBarThermal exp w T h k = Ok n /\ nBarThermal exp w' T' h k = Ok n' /\ 0 < n' /\ n' <= n /\
    (w < w' \/ T' < T -> n' < n).
Proof.
intros hh hk hw hww hT hTT.
assert (ok : forall w T, 0 < w -> 0 < T -> nBarThermal exp w T h k = Ok (1 / (exp (h * w / (T * k)) - 1)) /\ 1 < exp (h * w / (T * k))).
{ intros v S hv hS. unfold nBarThermal. destruct (Req_EM_T S 0); [lra|].
  assert (hSk : 0 < S * k) by (apply Rmult_lt_0_compat; assumption).
  rewrite divOk by lra; cbn.
  assert (0 < h * v / (S * k)) by (apply Rdiv_lt_0_compat; [apply Rmult_lt_0_compat|]; assumption).
  assert (1 < exp (h * v / (S * k))) by (rewrite <- exp_0; now apply exp_increasing).
  destruct (Req_EM_T _ 1); [lra|]. rewrite divOk by lra; split; [reflexivity | assumption]. }
destruct (ok w T hw ltac:(lra)) as [e1 l1], (ok w' T' ltac:(lra) hT) as [e2 l2].
assert (ratio : h * w / (T * k) <= h * w' / (T' * k) /\ (w < w' \/ T' < T -> h * w / (T * k) < h * w' / (T' * k))).
{ assert (a : 0 < h / k) by (apply Rdiv_lt_0_compat; assumption).
  replace (h * w / (T * k)) with (h / k * (w / T)) by (field; lra).
  replace (h * w' / (T' * k)) with (h / k * (w' / T')) by (field; lra).
  assert (iT : 0 < / T) by (apply Rinv_0_lt_compat; lra).
  assert (iT' : / T <= / T') by (apply Rinv_le_contravar; lra).
  split.
  - apply Rmult_le_compat_l; [lra|]; unfold Rdiv; apply Rmult_le_compat; lra.
  - intros hs; apply Rmult_lt_compat_l; [exact a|]; unfold Rdiv; destruct hs as [hs|hs].
    + apply Rlt_le_trans with (w' * / T); [apply Rmult_lt_compat_r; assumption | apply Rmult_le_compat_l; lra].
    + apply Rlt_le_trans with (w * / T'); [apply Rmult_lt_compat_l; [assumption|apply Rinv_lt_contravar; [apply Rmult_lt_0_compat; lra | assumption]] | apply Rmult_le_compat_r; lra]. }
destruct ratio as [r1 r2].
exists (1 / (exp (h * w / (T * k)) - 1)), (1 / (exp (h * w' / (T' * k)) - 1)).
split; [exact e1|]; split; [exact e2|]; split; [apply Rdiv_lt_0_compat; lra|]; split.
- rewrite !inv1; apply Rinv_le_contravar; [lra|].
  destruct (Rle_lt_or_eq_dec _ _ r1) as [r|r]; [apply exp_increasing in r; lra | rewrite r; lra].
- intros hs; specialize (r2 hs); apply exp_increasing in r2; rewrite !inv1.
  apply Rinv_lt_contravar; [apply Rmult_lt_0_compat; lra | lra].
Qed.
Print Assumptions C69_nbar_monotone.

(** The polarisation is [P1 - P0] of the two populations with sum one and ratio
    [P1 / P0 = exp (-freq / temp)]; it is odd in the frequency and strictly
    between -1 and 1. *)
Theorem C69_polarisation (w T : R) : T <> 0 ->
  exists p P0 P1, qubitPolarisation exp w T = Ok p /\ qubitPolarisation exp (- w) T = Ok (- p) /\
    0 < P0 /\ 0 < P1 /\ P0 + P1 = 1 /\ P1 = P0 * exp (- w / T) /\ p = P1 - P0 /\ -1 < p < 1.
Proof.
intros hT; unfold qubitPolarisation.
rewrite !divOk by exact hT; cbn.
assert (hp := exp_pos (- w / T)).
replace (- - w / T) with (- (- w / T)) by (field; exact hT).
rewrite exp_Ropp; set (r := exp (- w / T)) in *.
assert (hi : 0 < / r) by (apply Rinv_0_lt_compat; exact hp).
rewrite !divOk by lra; cbn.
assert (h1 : 0 < 1 / (1 + r)) by (apply Rdiv_lt_0_compat; lra).
assert (h2 : 0 < r / (1 + r)) by (apply Rdiv_lt_0_compat; lra).
assert (hs : 1 / (1 + r) + r / (1 + r) = 1) by (field; lra).
exists (1 - 2 * (1 / (1 + r))), (1 / (1 + r)), (r / (1 + r)).
split; [reflexivity|]; split; [f_equal; field; lra|].
split; [exact h1|]; split; [exact h2|]; split; [exact hs|]; split; [field; lra|]; split; [lra | lra].
Qed.
Print Assumptions C69_polarisation.

(** The documentation gives the ratio of the populations as [exp (freq / temp)]:
    that is not what the code computes, for any qubit. *)
Theorem C69_documented_refuted (w T : R) : T <> 0 -> w <> 0 -> forall p P0 P1,
  qubitPolarisation exp w T = Ok p -> P0 + P1 = 1 -> P1 = P0 * exp (w / T) -> p <> P1 - P0.
Proof.
intros hT hw p P0 P1 hp hs hr e.
destruct (C69_polarisation w T hT) as (p' & Q0 & Q1 & e' & _ & q0 & q1 & qs & qr & qp & _).
rewrite hp in e'; injection e' as <-.
assert (P0 = Q0) by lra; assert (P1 = Q1) by lra; subst P0 P1.
assert (ee : exp (w / T) = exp (- w / T)) by (apply (Rmult_eq_reg_l Q0); lra).
apply exp_inv in ee. apply hw. apply (Rmult_eq_reg_r (/ T)); [|apply Rinv_neq_0_compat; exact hT].
unfold Rdiv in ee; lra.
Qed.
Print Assumptions C69_documented_refuted.

(** A qubit and a field of the same energy at one temperature: the polarisation
    is [-1 / (2 n + 1)]. *)
Theorem C69_relation (w T : R) : T <> 0 -> w <> 0 ->
  exists n p, nBarThermal exp w T 1 1 = Ok n /\ qubitPolarisation exp w T = Ok p /\ p * (2 * n + 1) = -1.
Proof.
intros hT hw.
destruct (C69_nbar w T 1 1 ltac:(lra) ltac:(lra)) as (_ & _ & h); destruct (h hT hw) as (n & en & hn & _).
destruct (C69_polarisation w T hT) as (p & P0 & P1 & ep & _ & q0 & q1 & qs & qr & qp & _).
exists n, p; split; [exact en|]; split; [exact ep|].
replace (- (1 * w / (T * 1))) with (- w / T) in hn by (field; exact hT).
set (r := exp (- w / T)) in *.
assert (P0 * (1 + r) = 1) by lra.
assert (n * (1 - r) = r) by lra.
assert (hr : 1 - r <> 0).
{ intro e; assert (r = 1) by lra. unfold r in H1; apply (proj1 (exp_one _)) in H1.
  apply hw. apply (Rmult_eq_reg_r (/ T)); [|apply Rinv_neq_0_compat; exact hT]. unfold Rdiv in H1; lra. }
apply (Rmult_eq_reg_r (1 - r)); [|exact hr].
replace (p * (2 * n + 1) * (1 - r)) with (p * (2 * (n * (1 - r)) + (1 - r))) by ring.
rewrite H0, qp, qr. replace (2 * r + (1 - r)) with (1 + r) by ring.
replace ((P0 * r - P0) * (1 + r)) with ((P0 * (1 + r)) * (r - 1)) by ring. rewrite H; ring.
Qed.
Print Assumptions C69_relation.

(** No temperature, no polarisation; neither function checks signs: at a
    negative temperature the occupation number is below -1. *)
Theorem C69_edges (w h k : R) : qubitPolarisation exp w 0 = Err ZeroDivisionError /\
  (0 < h -> 0 < k -> 0 < w -> forall T, T < 0 -> exists n, nBarThermal exp w T h k = Ok n /\ n < -1).
Proof.
split.
- unfold qubitPolarisation, divR; destruct (Req_EM_T 0 0); [reflexivity | lra].
- intros hh hk hw T hT.
  destruct (C69_nbar w T h k ltac:(lra) ltac:(lra)) as (_ & _ & f); destruct (f ltac:(lra) ltac:(lra)) as (n & en & hn & _).
  exists n; split; [exact en|].
  assert (neg : 0 < - (h * w / (T * k))).
  { replace (- (h * w / (T * k))) with (h * w / (- T * k)) by (field; lra).
    apply Rdiv_lt_0_compat; apply Rmult_lt_0_compat; lra. }
  assert (1 < exp (- (h * w / (T * k)))) by (rewrite <- exp_0 at 1; now apply exp_increasing).
  set (r := exp _) in *. destruct (Rlt_le_dec n (-1)) as [|hge]; [assumption|exfalso].
  assert (0 <= (n + 1) * (r - 1)) by (apply Rmult_le_pos; lra). lra.
Qed.
Print Assumptions C69_edges.

(** Hypotheses met by a field of frequency 1 at temperature 2. *)
Example C69_ex : exists n, nBarThermal exp 1 2 1 1 = Ok n /\ 0 < n.
Proof.
destruct (C69_nbar_monotone 1 1 2 2 1 1) as (n & n' & e & _ & hp & hl & _); try lra.
exists n; split; [exact e | lra].
Qed.
