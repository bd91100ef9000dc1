(** Proofs about the analytic unfoldings. *)
From Coq Require Import List ZArith Bool Arith Lia Reals Lra Psatz Sorting.Sorted Sorting.Permutation.
From Coquelicot Require Import Coquelicot.
From Verif Require Import Base S_Order S_EigVals S_Analytic M_Analytic P_Order P_Step P_EigVals P_TrimStat.
Import ListNotations.
Local Open Scope R_scope.

Section Goe.
Variable n : nat.
Hypothesis Hn : (0 < n)%nat.
Let a := sqrt (2 * INR n).

Lemma nR_pos : 0 < INR n.
Proof. apply lt_0_INR. exact Hn. Qed.
Lemma a_sq : a * a = 2 * INR n.
Proof. apply sqrt_sqrt. pose proof nR_pos. lra. Qed.
Lemma a_pos : 0 < a.
Proof. apply sqrt_lt_R0. pose proof nR_pos. lra. Qed.

Lemma sqrt_neg_0 x : x <= 0 -> sqrt x = 0.
Proof. intro H. apply sqrt_neg_0. exact H. Qed.

Lemma R1_eq x : goe_R1 n x = (1 / PI) * sqrt (2 * INR n - x * x).
Proof.
  unfold goe_R1. destruct (Rlt_dec (Rabs x) (sqrt (2 * INR n))) as [H|H]; [reflexivity|].
  fold a in H. rewrite sqrt_neg_0; [ring|]. rewrite <- a_sq. pose proof a_pos.
  apply Rnot_lt_le in H. assert (Rabs x * Rabs x = x * x) as <- by (unfold Rabs; destruct Rcase_abs; ring).
  assert (a * a <= Rabs x * Rabs x) by (apply Rmult_le_compat; lra). lra.
Qed.

Lemma R1_nonneg x : 0 <= goe_R1 n x.
Proof.
  rewrite R1_eq. apply Rmult_le_pos; [|apply sqrt_pos]. pose proof PI_RGT_0.
  apply Rlt_le, Rdiv_lt_0_compat; lra.
Qed.
Lemma R1_pos x : Rabs x < a -> 0 < goe_R1 n x.
Proof.
  intro H. rewrite R1_eq. pose proof PI_RGT_0. apply Rmult_lt_0_compat; [apply Rdiv_lt_0_compat; lra|].
  apply sqrt_lt_R0. rewrite <- a_sq.
  assert (Rabs x * Rabs x = x * x) as <- by (unfold Rabs; destruct Rcase_abs; ring).
  pose proof (Rabs_pos x). assert (Rabs x * Rabs x < a * a) by (apply Rmult_le_0_lt_compat; lra). lra.
Qed.

Lemma R1_continuous x : continuous (goe_R1 n) x.
Proof.
  apply continuous_ext with (f := fun x => (1 / PI) * sqrt (2 * INR n - x * x)); [intro; symmetry; apply R1_eq|].
  apply (continuous_mult (K := R_AbsRing) (fun _ => 1 / PI) (fun x => sqrt (2 * INR n - x * x))); [apply continuous_const|].
  apply (continuous_comp (fun x => 2 * INR n - x * x) sqrt); [|apply continuous_sqrt].
  apply (continuous_minus (V := R_NormedModule) (fun _ => 2 * INR n) (fun x => x * x)); [apply continuous_const|].
  apply (continuous_mult (K := R_AbsRing) (fun x => x) (fun x => x)); apply continuous_id.
Qed.
Lemma R1_ex x y : ex_RInt (goe_R1 n) x y.
Proof. apply (ex_RInt_continuous (V := R_CompleteNormedModule)). intros; apply R1_continuous. Qed.

Definition Fgoe (x : R) : R := RInt (goe_R1 n) (- a) x.
Lemma Fgoe_derive x : is_derive Fgoe x (goe_R1 n x).
Proof.
  apply (is_derive_RInt (V := R_NormedModule) (goe_R1 n) Fgoe (- a) x); [|apply R1_continuous].
  exists (mkposreal 1 Rlt_0_1). intros y _. apply (RInt_correct (V := R_CompleteNormedModule)), R1_ex.
Qed.

Lemma cos_nonneg t : - PI / 2 <= t <= PI / 2 -> 0 <= cos t.
Proof. intro H. apply cos_ge_0; lra. Qed.

Lemma Fgoe_sin t : - PI / 2 <= t <= PI / 2 ->
  Fgoe (a * sin t) = INR n * (1 / 2 + (t + sin t * cos t) / PI).
Proof.
  intro Ht. pose proof PI_RGT_0 as HPI.
  pose (H := fun t => Fgoe (a * sin t) - INR n * (1 / 2 + (t + sin t * cos t) / PI)).
  assert (forall t, - PI / 2 <= t <= PI / 2 -> is_derive H t 0) as HD.
  { intros s Hs. unfold H.
    assert (is_derive (fun t => Fgoe (a * sin t)) s (a * cos s * goe_R1 n (a * sin s))) as D1.
    { apply (is_derive_comp (V := R_NormedModule) Fgoe (fun t => a * sin t) s); [apply Fgoe_derive|].
      auto_derive; [exact I|ring]. }
    assert (is_derive (fun t => INR n * (1 / 2 + (t + sin t * cos t) / PI)) s
              (INR n * (1 + (cos s * cos s - sin s * sin s)) / PI)) as D2.
    { auto_derive; [lra|]. field. lra. }
    assert (a * cos s * goe_R1 n (a * sin s) = INR n * (1 + (cos s * cos s - sin s * sin s)) / PI) as E.
    { rewrite R1_eq. rewrite <- a_sq.
      replace (a * a - a * sin s * (a * sin s)) with ((a * cos s) * (a * cos s)).
      2: { pose proof (sin2_cos2 s) as Hsc. unfold Rsqr in Hsc. nra. }
      rewrite sqrt_square.
      2: { apply Rmult_le_pos; [apply Rlt_le, a_pos | apply cos_nonneg; exact Hs]. }
      replace (a * cos s * (1 / PI * (a * cos s))) with ((a * a) * (cos s * cos s) / PI) by (field; lra).
      rewrite a_sq. pose proof (sin2_cos2 s) as Hsc. unfold Rsqr in Hsc.
      replace (sin s * sin s) with (1 - cos s * cos s) by lra. field. lra. }
    rewrite E in D1. replace 0 with (INR n * (1 + (cos s * cos s - sin s * sin s)) / PI - INR n * (1 + (cos s * cos s - sin s * sin s)) / PI) by ring.
    exact (is_derive_minus (V := R_NormedModule) _ _ s _ _ D1 D2). }
  assert (H (- PI / 2) = 0) as H0.
  { unfold H. replace (- PI / 2) with (- (PI / 2)) by lra. rewrite sin_neg, cos_neg, sin_PI2, cos_PI2.
    replace (a * - (1)) with (- a) by ring. unfold Fgoe. rewrite RInt_point. unfold zero; cbn. field. lra. }
  assert (H t = H (- PI / 2)) as HC.
  { destruct (Req_dec t (- PI / 2)) as [->|Hne]; [reflexivity|].
    destruct (MVT_gen H (- PI / 2) t (fun _ => 0)) as [c [_ Hc]].
    - intros x Hx. apply HD. rewrite Rmin_left, Rmax_right in Hx by lra. lra.
    - intros x Hx. rewrite Rmin_left, Rmax_right in Hx by lra.
      apply continuity_pt_filterlim. apply (ex_derive_continuous (V := R_NormedModule)). exists 0. apply HD. lra.
    - lra. }
  rewrite H0 in HC. unfold H in HC. lra.
Qed.

Lemma Fgoe_top : Fgoe a = INR n.
Proof.
  pose proof PI_RGT_0. pose proof (Fgoe_sin (PI / 2) ltac:(lra)) as E. rewrite sin_PI2, cos_PI2, Rmult_1_r in E. rewrite E. field. lra.
Qed.

Lemma Fgoe_mono x y : x <= y -> Fgoe x <= Fgoe y.
Proof.
  intro Hxy. destruct (Req_dec x y) as [->|Hne]; [lra|].
  destruct (MVT_gen Fgoe x y (goe_R1 n)) as [c [_ Hc]].
  - intros z _. apply Fgoe_derive.
  - intros z _. apply continuity_pt_filterlim, (ex_derive_continuous (V := R_NormedModule)). eexists. apply Fgoe_derive.
  - pose proof (R1_nonneg c). assert (0 <= goe_R1 n c * (y - x)) by (apply Rmult_le_pos; lra). lra.
Qed.

Lemma Fgoe_below x : x <= - a -> Fgoe x = 0.
Proof.
  intro H. unfold Fgoe.
  assert (is_RInt (goe_R1 n) (- a) x 0) as HI; [|exact (is_RInt_unique _ _ _ _ HI)].
  replace 0 with (scal (x - - a) (0 : R)) by (unfold scal; cbn; unfold mult; cbn; ring).
  apply (is_RInt_ext (fun _ => 0)); [|apply (is_RInt_const (V := R_NormedModule))].
  intros y Hy. rewrite Rmin_right, Rmax_left in Hy by lra. rewrite R1_eq, sqrt_neg_0; [symmetry; apply Rmult_0_r|].
  rewrite <- a_sq. pose proof a_pos. nra.
Qed.

Lemma Fgoe_strict x y : - a <= x -> x < y -> y <= a -> Fgoe x < Fgoe y.
Proof.
  intros H1 H2 H3.
  destruct (MVT_gen Fgoe ((2 * x + y) / 3) ((x + 2 * y) / 3) (goe_R1 n)) as [c [Hc E]].
  - intros z _. apply Fgoe_derive.
  - intros z _. apply continuity_pt_filterlim, (ex_derive_continuous (V := R_NormedModule)). eexists. apply Fgoe_derive.
  - rewrite Rmin_left, Rmax_right in Hc by lra.
    assert (0 < goe_R1 n c) as Hp by (apply R1_pos; apply Rabs_def1; lra).
    assert (0 < goe_R1 n c * ((x + 2 * y) / 3 - (2 * x + y) / 3)) by (apply Rmult_lt_0_compat; lra).
    pose proof (Fgoe_mono x ((2 * x + y) / 3) ltac:(lra)). pose proof (Fgoe_mono ((x + 2 * y) / 3) y ltac:(lra)). lra.
Qed.

Lemma smooth_eq x : smooth_goe n x = if Rlt_dec a x then Fgoe a else Fgoe x.
Proof. reflexivity. Qed.

Lemma smooth_mono x y : x <= y -> smooth_goe n x <= smooth_goe n y.
Proof.
  intro H. rewrite !smooth_eq. destruct (Rlt_dec a x), (Rlt_dec a y); try lra; apply Fgoe_mono; lra.
Qed.
Lemma smooth_below x : x <= - a -> smooth_goe n x = 0.
Proof. intro H. pose proof a_pos. rewrite smooth_eq. destruct (Rlt_dec a x); [lra|]. apply Fgoe_below. exact H. Qed.
Lemma smooth_above x : a <= x -> smooth_goe n x = INR n.
Proof.
  intro H. rewrite smooth_eq. destruct (Rlt_dec a x); [apply Fgoe_top|]. replace x with a by lra. apply Fgoe_top.
Qed.
Lemma smooth_range x : 0 <= smooth_goe n x <= INR n.
Proof.
  pose proof a_pos. split.
  - rewrite <- (smooth_below (Rmin x (- a))) by apply Rmin_r. apply smooth_mono, Rmin_l.
  - rewrite <- (smooth_above (Rmax x a)) by apply Rmax_r. apply smooth_mono, Rmax_l.
Qed.
Lemma smooth_strict x y : - a <= x -> x < y -> y <= a -> smooth_goe n x < smooth_goe n y.
Proof. intros. rewrite !smooth_eq. destruct (Rlt_dec a x), (Rlt_dec a y); try lra. apply Fgoe_strict; assumption. Qed.

Lemma smooth_count x : SemicircleCount (INR n) x (smooth_goe n x).
Proof.
  unfold SemicircleCount. fold a. pose proof a_pos as Ha.
  destruct (Rle_dec x (- a)) as [H|H]; [left; split; [exact H | apply smooth_below; exact H]|].
  destruct (Rle_dec a x) as [H'|H']; [right; left; split; [exact H' | apply smooth_above; exact H']|].
  right. right. exists (asin (x / a)). pose proof (asin_bound (x / a)) as HB.
  assert (-1 <= x / a <= 1) as HU.
  { split; apply (Rmult_le_reg_r a); try lra; unfold Rdiv; rewrite Rmult_assoc, Rinv_l; lra. }
  assert (a * sin (asin (x / a)) = x) as E by (rewrite sin_asin by exact HU; field; lra).
  splits; [lra|lra| symmetry; exact E |].
  rewrite smooth_eq. destruct (Rlt_dec a x); [lra|]. rewrite <- E at 1. apply Fgoe_sin. lra.
Qed.
End Goe.

(** ** Poisson *)
Lemma poisson_int_neg u : u <= 0 -> is_RInt poisson_R1 u 0 (1 - exp u).
Proof.
  intro H. apply (is_RInt_ext exp).
  - intros x Hx. rewrite Rmin_left, Rmax_right in Hx by lra. unfold poisson_R1. rewrite Rabs_left by lra. f_equal. ring.
  - replace (1 - exp u) with (minus (exp 0) (exp u)) by (unfold minus, plus, opp; cbn; rewrite exp_0; ring).
    apply (is_RInt_derive (V := R_CompleteNormedModule) exp exp).
    + intros x _. auto_derive; [exact I|ring].
    + intros x _. apply (ex_derive_continuous (V := R_NormedModule)). exists (exp x). auto_derive; [exact I|ring].
Qed.
Lemma poisson_int_pos b : 0 <= b -> is_RInt poisson_R1 0 b (1 - exp (- b)).
Proof.
  intro H. apply (is_RInt_ext (fun x => exp (- x))).
  - intros x Hx. rewrite Rmin_left, Rmax_right in Hx by lra. unfold poisson_R1. rewrite Rabs_pos_eq by lra. reflexivity.
  - replace (1 - exp (- b)) with (minus (- exp (- b)) (- exp (- 0))).
    2: { unfold minus, plus, opp; cbn. rewrite Ropp_0, exp_0. ring. }
    apply (is_RInt_derive (V := R_CompleteNormedModule) (fun x => - exp (- x)) (fun x => exp (- x))).
    + intros x _. auto_derive; [exact I|ring].
    + intros x _. apply (ex_derive_continuous (V := R_NormedModule)). exists (- exp (- x)). auto_derive; [exact I|ring].
Qed.
Lemma poisson_int u b : u <= 0 -> 0 <= b -> is_RInt poisson_R1 u b (2 - exp (- b) - exp u).
Proof.
  intros Hu Hb. replace (2 - exp (- b) - exp u) with (plus (1 - exp u) (1 - exp (- b))) by (unfold plus; cbn; ring).
  apply (is_RInt_Chasles (V := R_NormedModule)) with 0; [apply poisson_int_neg | apply poisson_int_pos]; assumption.
Qed.

Lemma poisson_gen b : 0 <= b -> is_RInt_gen poisson_R1 (Rbar_locally m_infty) (at_point b) (2 - exp (- b)).
Proof.
  intro Hb. intros P [eps HP].
  apply (Filter_prod _ _ _ (fun u => u < Rmin 0 (ln eps)) (fun v => v = b)).
  - exists (Rmin 0 (ln eps)). intros x Hx. exact Hx.
  - unfold at_point. reflexivity.
  - intros u v Hu ->. pose proof (Rmin_l 0 (ln eps)). pose proof (Rmin_r 0 (ln eps)).
    exists (2 - exp (- b) - exp u). split; [apply poisson_int; lra|].
    apply HP. unfold ball; cbn; unfold AbsRing_ball, abs, minus, plus, opp; cbn.
    replace (2 - exp (- b) - exp u + - (2 - exp (- b))) with (- exp u) by ring.
    rewrite Rabs_Ropp, Rabs_pos_eq by (apply Rlt_le, exp_pos).
    rewrite <- (exp_ln eps) by apply cond_pos. apply exp_increasing. lra.
Qed.

Lemma smooth_poisson_eq n x : smooth_poisson n x = INR n * (2 - exp (- Rabs x)).
Proof. unfold smooth_poisson. f_equal. apply is_RInt_gen_unique, poisson_gen, Rabs_pos. Qed.

Lemma map_mono_sorted (f : R -> R) l : (forall x y, x <= y -> f x <= f y) -> Ascending l -> np_sort (map f l) = map f l.
Proof.
  intros Hf Hl. apply np_sort_id, Ascending_NpLe; [apply notnan_R|]. apply StronglySorted_R. apply StronglySorted_R in Hl.
  induction Hl as [|x t Ht IH Hx]; cbn [map]; constructor; [exact IH|].
  rewrite Forall_forall in Hx |- *. intros y Hy. apply in_map_iff in Hy. destruct Hy as [z [<- Hz]]. apply Hf, Hx, Hz.
Qed.
