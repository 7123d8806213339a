(** Real inequalities about [x ln x] (used by C73). *)
From Coq Require Import Reals Lra.
Local Open Scope R_scope.

Definition xlnx (x : R) : R := if Req_EM_T x 0 then 0 else x * ln x.

Lemma xlnx0 : xlnx 0 = 0.
Proof. unfold xlnx; destruct (Req_EM_T 0 0); lra. Qed.
Lemma xlnx_nz x : x <> 0 -> xlnx x = x * ln x.
Proof. unfold xlnx; destruct (Req_EM_T x 0); [contradiction | reflexivity]. Qed.
Lemma xlnx1 : xlnx 1 = 0.
Proof. rewrite xlnx_nz by lra; rewrite ln_1; lra. Qed.

Lemma ln_lt_sub y : 0 < y -> y <> 1 -> ln y < y - 1.
Proof.
intros hy h1; assert (hl : ln y <> 0) by (intro e; apply h1; rewrite <- (exp_ln y hy), e; apply exp_0).
pose proof (exp_ineq1 (ln y) hl) as h; rewrite (exp_ln y hy) in h; lra.
Qed.
Lemma ln_le_sub y : 0 < y -> ln y <= y - 1.
Proof.
intros hy; destruct (Req_EM_T y 1) as [->|h]; [rewrite ln_1; lra | pose proof (ln_lt_sub y hy h); lra].
Qed.

Lemma ln_neg x : 0 < x -> x < 1 -> ln x < 0.
Proof. intros h1 h2; rewrite <- ln_1; apply ln_increasing; assumption. Qed.

Lemma xlnx_le0 x : 0 <= x -> x <= 1 -> xlnx x <= 0.
Proof.
intros h0 h1; unfold xlnx; destruct (Req_EM_T x 0); [lra|].
destruct (Req_EM_T x 1) as [->|hx]; [rewrite ln_1; lra|].
assert (h := ln_neg x ltac:(lra) ltac:(lra)).
assert (0 < x * - ln x) by (apply Rmult_lt_0_compat; lra); lra.
Qed.
Lemma xlnx_eq0 x : 0 <= x -> x <= 1 -> xlnx x = 0 -> x = 0 \/ x = 1.
Proof.
intros h0 h1; unfold xlnx; destruct (Req_EM_T x 0); [auto|].
destruct (Req_EM_T x 1) as [->|hx]; [auto|]; intro e.
assert (h := ln_neg x ltac:(lra) ltac:(lra)).
assert (0 < x * - ln x) by (apply Rmult_lt_0_compat; lra); lra.
Qed.

Lemma gibbs_aux n r : 0 < n -> 0 < r ->
  - (r * ln r) - r * ln n = r * ln (/ (n * r)) /\ r * (/ (n * r) - 1) = / n - r.
Proof.
intros hn hr; assert (0 < n * r) by (apply Rmult_lt_0_compat; assumption); split.
- rewrite ln_Rinv by assumption; rewrite ln_mult by assumption; ring.
- field; lra.
Qed.
Lemma gibbs n r : 0 < n -> 0 <= r -> - xlnx r - r * ln n <= / n - r.
Proof.
intros hn hr; assert (hi := Rinv_0_lt_compat n hn).
unfold xlnx; destruct (Req_EM_T r 0) as [->|hz]; [lra|].
assert (hr' : 0 < r) by lra; destruct (gibbs_aux n r hn hr') as [-> <-].
apply Rmult_le_compat_l; [lra|]; apply ln_le_sub, Rinv_0_lt_compat, Rmult_lt_0_compat; assumption.
Qed.
Lemma gibbs_eq n r : 0 < n -> 0 <= r -> - xlnx r - r * ln n = / n - r -> r = / n.
Proof.
intros hn hr; assert (hi := Rinv_0_lt_compat n hn).
unfold xlnx; destruct (Req_EM_T r 0) as [->|hz]; [lra|].
assert (hr' : 0 < r) by lra; destruct (gibbs_aux n r hn hr') as [-> <-]; intro e.
apply Rmult_eq_reg_l in e; [|lra].
assert (hp : 0 < n * r) by (apply Rmult_lt_0_compat; assumption).
destruct (Req_EM_T (/ (n * r)) 1) as [e1|ne].
- assert (n * r = 1) by (rewrite <- (Rinv_involutive (n * r)), e1 by lra; field).
  apply (Rmult_eq_reg_l n); [|lra]; rewrite Rinv_r by lra; assumption.
- pose proof (ln_lt_sub _ (Rinv_0_lt_compat _ hp) ne); lra.
Qed.

Lemma xlnx_mul x y : 0 <= x -> 0 <= y -> xlnx (x * y) = x * xlnx y + y * xlnx x.
Proof.
intros hx hy; unfold xlnx.
destruct (Req_EM_T x 0) as [->|nx]; destruct (Req_EM_T y 0) as [->|ny];
  destruct (Req_EM_T _ 0) as [e|ne]; try lra.
- destruct (Rmult_integral _ _ e); contradiction.
- rewrite ln_mult by lra; ring.
Qed.

Lemma ln2_pos : 0 < ln (1 + 1).
Proof. rewrite <- ln_1; apply ln_increasing; lra. Qed.
Lemma xlnx_half : xlnx (/ (1 + 1)) = - (/ (1 + 1) * ln (1 + 1)).
Proof. rewrite xlnx_nz by lra; rewrite ln_Rinv by lra; lra. Qed.
