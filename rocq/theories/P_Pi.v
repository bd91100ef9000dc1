(** Numerical bounds on pi, exponentials and logarithms. *)
From Coq Require Import Reals Lra Lia.
Local Open Scope R_scope.

Lemma PI_bounds : 3.141 < PI < 3.1446.
Proof.
  pose proof PI_RGT_0 as H0. pose proof PI_4 as H4. destruct (sin_bound (PI / 6) 0 ltac:(lra) ltac:(lra)) as [L _].
  destruct (sin_bound (PI / 6) 0 ltac:(lra) ltac:(lra)) as [_ U]. rewrite sin_PI6 in L, U. cbn in L, U. unfold sin_term in L, U. cbn in L, U.
  set (a := PI / 6) in *. assert (0 < a <= 4 / 6) by (unfold a; lra).
  assert (L' : a - a * a * a / 6 <= 1 / 2) by (eapply Rle_trans; [|exact L]; right; field).
  assert (U' : 1 / 2 <= a - a * a * a / 6 + a * a * a * a * a / 120) by (eapply Rle_trans; [exact U|]; right; field).
  clear L U. split.
  - destruct (Rlt_dec 0.5235 a) as [|Hn]; [unfold a in *; lra|]. exfalso. assert (a <= 0.5235) by lra.
    assert (a * a <= 0.5235 * 0.5235) by nra. set (b := 0.5235) in *.
    assert (b - a - (b * b * b - a * a * a) / 6 >= 0).
    { replace (b - a - (b * b * b - a * a * a) / 6) with ((b - a) * (1 - (b * b + b * a + a * a) / 6)) by field. apply Rle_ge, Rmult_le_pos; [lra|]. assert (b * a <= b * b) by (unfold b in *; nra). unfold b in *. lra. }
    assert (a * a * a * a * a <= b * b * b * b * b).
    { assert (a * a * (a * a) <= b * b * (b * b)) by (apply Rmult_le_compat; nra). replace (a * a * a * a * a) with (a * a * (a * a) * a) by ring. replace (b * b * b * b * b) with (b * b * (b * b) * b) by ring. apply Rmult_le_compat; nra. }
    unfold b in *. lra.
  - destruct (Rlt_dec a 0.5241) as [|Hn]; [unfold a in *; lra|]. exfalso. set (b := 0.5241) in *.
    assert (a - b - (a * a * a - b * b * b) / 6 >= 0).
    { replace (a - b - (a * a * a - b * b * b) / 6) with ((a - b) * (1 - (b * b + b * a + a * a) / 6)) by field. apply Rle_ge, Rmult_le_pos; [lra|]. assert (a * a <= 4 / 6 * (4 / 6)) by nra. assert (b * a <= b * (4 / 6)) by (unfold b in *; nra). unfold b in *. lra. }
    unfold b in *. lra.
Qed.

(** Lower and upper bounds by repeated squaring. *)
Lemma exp_double y b c : 0 <= b -> b <= exp y -> c <= b * b -> c <= exp (2 * y).
Proof. intros Hb H Hc. replace (2 * y) with (y + y) by ring. rewrite exp_plus. eapply Rle_trans; [exact Hc|]. apply Rmult_le_compat; assumption. Qed.
Lemma ln_below x y : 0 < x -> x < exp y -> ln x < y.
Proof. intros Hx H. rewrite <- (ln_exp y). apply ln_increasing; assumption. Qed.
Lemma ln_above x y : exp y < x -> y < ln x.
Proof. intro H. rewrite <- (ln_exp y) at 1. apply ln_increasing; [apply exp_pos|exact H]. Qed.
Lemma ln_le_linear z : 0 < z -> ln z <= z - 1.
Proof. intro H. pose proof (exp_ineq1_le (ln z)) as E. rewrite exp_ln in E by exact H. lra. Qed.

Lemma exp_1905 : 6.35 <= exp 1.905.
Proof.
  replace 1.905 with (2 * (2 * (2 * (2 * (2 * 0.05953125))))) by lra.
  apply exp_double with 2.5217; [lra| |lra]. apply exp_double with 1.588; [lra| |lra]. apply exp_double with 1.2602; [lra| |lra].
  apply exp_double with 1.1226; [lra| |lra]. apply exp_double with 1.05953; [lra| |lra]. pose proof (exp_ineq1_le 0.05953125). lra.
Qed.
Lemma exp_29 : 11 <= exp 2.9.
Proof.
  replace 2.9 with (2 * (2 * (2 * 0.3625))) by lra.
  apply exp_double with 3.44; [lra| |lra]. apply exp_double with 1.856; [lra| |lra]. apply exp_double with 1.3625; [lra| |lra]. pose proof (exp_ineq1_le 0.3625). lra.
Qed.
Lemma exp_neg_315 : 0.036 <= exp (- (3.15)).
Proof.
  replace (- (3.15)) with (2 * (2 * (2 * (2 * (2 * (- 0.0984375)))))) by lra.
  apply exp_double with 0.1904; [lra| |lra]. apply exp_double with 0.4364; [lra| |lra]. apply exp_double with 0.66065; [lra| |lra].
  apply exp_double with 0.81281; [lra| |lra]. apply exp_double with 0.90156; [lra| |lra]. pose proof (exp_ineq1_le (- 0.0984375)). lra.
Qed.
Lemma exp_neg_09 : 0.38 <= exp (- (0.9)).
Proof.
  replace (- (0.9)) with (2 * (2 * (2 * (- 0.1125)))) by lra.
  apply exp_double with 0.62; [lra| |lra]. apply exp_double with 0.7876; [lra| |lra]. apply exp_double with 0.8875; [lra| |lra]. pose proof (exp_ineq1_le (- 0.1125)). lra.
Qed.
Lemma exp_of_neg y b : b <= exp (- y) -> exp y * b <= 1.
Proof. intro H. replace 1 with (exp y * exp (- y)) by (rewrite <- exp_plus, Rplus_opp_r; apply exp_0). apply Rmult_le_compat_l; [left; apply exp_pos|exact H]. Qed.

Lemma ln_2pi : ln (2 * PI) < 1.905.
Proof. pose proof PI_bounds. pose proof exp_1905. apply ln_below; lra. Qed.
Lemma ln_2 : 0 < ln 2 < 1.
Proof. split; [rewrite <- ln_1; apply ln_increasing; lra|]. apply ln_below; [lra|]. pose proof (exp_ineq1 1 ltac:(lra)). lra. Qed.
Lemma ln_10pi : 3.15 < ln (10 * PI).
Proof. pose proof PI_bounds. apply ln_above. pose proof (exp_of_neg _ _ exp_neg_315). lra. Qed.
Lemma ln_pi : 0.9 < ln PI.
Proof. pose proof PI_bounds. apply ln_above. pose proof (exp_of_neg _ _ exp_neg_09). lra. Qed.
Lemma ln_30_pi : ln (30 / PI) < 2.9.
Proof. pose proof PI_bounds. pose proof exp_29. apply ln_below; [apply Rdiv_lt_0_compat; lra|]. apply Rlt_le_trans with 10; [|lra]. apply (Rmult_lt_reg_r PI); [lra|]. unfold Rdiv. rewrite Rmult_assoc, Rinv_l; lra. Qed.
