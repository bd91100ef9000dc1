(** Powers on the half line, the Gamma function on (1,2] and the Brody laws. *)
From Coq Require Import List ZArith Reals Lra Lia Arith.
From Coquelicot Require Import Coquelicot.
From Verif Require Import Base M_Quad S_Quad P_Ols P_Gauss M_Ensemble S_Ensemble P_Ensemble S_Brody.
Import ListNotations.
Local Open Scope R_scope.

Lemma npow_pos s b : 0 < s -> npow s b = Rpower s b.
Proof. intros H. unfold npow. now destruct (Rlt_dec 0 s). Qed.
Lemma npow_PosPow s b : b <> 0 -> npow s b = PosPow b s.
Proof. intros H. unfold npow, PosPow. destruct (Rlt_dec 0 s); [reflexivity|]. now destruct (Req_EM_T b 0). Qed.
Lemma PosPow_pos y t : 0 < t -> PosPow y t = Rpower t y.
Proof. intros H. unfold PosPow. now destruct (Rlt_dec 0 t). Qed.
Lemma PosPow_neg y t : t <= 0 -> PosPow y t = 0.
Proof. intros H. unfold PosPow. destruct (Rlt_dec 0 t); [lra|reflexivity]. Qed.
Lemma PosPow_nonneg y t : 0 <= PosPow y t.
Proof. unfold PosPow. destruct (Rlt_dec 0 t); [apply Rlt_le, exp_pos|lra]. Qed.
Lemma Rpower_pos s y : 0 < Rpower s y.
Proof. apply exp_pos. Qed.
Lemma Rpower_small y eps t : 0 < y -> 0 < eps -> 0 < t -> t < Rpower eps (/ y) -> Rpower t y < eps.
Proof.
  intros Hy He Ht H. replace eps with (Rpower (Rpower eps (/ y)) y).
  - apply Rlt_Rpower_l; [exact Hy|lra].
  - rewrite Rpower_mult, Rinv_l by lra. now apply Rpower_1.
Qed.
Lemma locally_pos (P : R -> Prop) s : 0 < s -> (forall t, 0 < t -> P t) -> locally s P.
Proof. intros Hs H. exists (mkposreal s Hs). intros t Ht. apply H. unfold ball in Ht; cbn in Ht. unfold AbsRing_ball, minus, plus, opp, abs in Ht; cbn in Ht. apply Rabs_def2 in Ht. lra. Qed.
Lemma locally_neg (P : R -> Prop) s : s < 0 -> (forall t, t < 0 -> P t) -> locally s P.
Proof. intros Hs H. assert (Hs' : 0 < - s) by lra. exists (mkposreal (- s) Hs'). intros t Ht. apply H. unfold ball in Ht; cbn in Ht. unfold AbsRing_ball, minus, plus, opp, abs in Ht; cbn in Ht. apply Rabs_def2 in Ht. lra. Qed.
Lemma Rpower_derive y s : 0 < s -> is_derive (fun t => Rpower t y) s (y * Rpower s (y - 1)).
Proof. intros Hs. apply is_derive_Reals. now apply derivable_pt_lim_power. Qed.
Lemma PosPow_derive_pos y s : 0 < s -> is_derive (PosPow y) s (y * Rpower s (y - 1)).
Proof. intros Hs. apply (is_derive_ext_loc (fun t => Rpower t y)); [|now apply Rpower_derive]. apply locally_pos; [exact Hs|]. intros t Ht. symmetry. now apply PosPow_pos. Qed.
Lemma PosPow_cont y s : 0 < y -> continuous (PosPow y) s.
Proof.
  intros Hy. destruct (Rtotal_order s 0) as [Hs|[->|Hs]].
  - apply (continuous_ext_loc _ (fun _ => 0)); [|apply continuous_const]. apply locally_neg; [exact Hs|]. intros t Ht. symmetry. apply PosPow_neg. lra.
  - intros P (eps & HP). unfold filtermap. destruct eps as (e & He). exists (mkposreal _ (Rpower_pos e (/ y))). intros t Ht. apply HP.
    unfold ball in *; cbn in *. unfold AbsRing_ball, minus, plus, opp, abs in *; cbn in *. rewrite (PosPow_neg y 0) by lra. rewrite Ropp_0, Rplus_0_r in *.
    rewrite Rabs_pos_eq by apply PosPow_nonneg. destruct (Rle_or_lt t 0) as [G|G]; [rewrite PosPow_neg by exact G; exact He|]. rewrite PosPow_pos by exact G.
    apply Rpower_small; auto. rewrite Rabs_pos_eq in Ht by lra. exact Ht.
  - apply (ex_derive_continuous (V := R_NormedModule)). eexists. now apply PosPow_derive_pos.
Qed.
Lemma PosPow_derive y s : 1 < y -> is_derive (PosPow y) s (y * PosPow (y - 1) s).
Proof.
  intros Hy. destruct (Rtotal_order s 0) as [Hs|[->|Hs]].
  - rewrite PosPow_neg by lra. rewrite Rmult_0_r. apply (is_derive_ext_loc (fun _ => 0)); [|apply (is_derive_const (V := R_NormedModule))]. apply locally_neg; [exact Hs|]. intros t Ht. symmetry. apply PosPow_neg. lra.
  - rewrite PosPow_neg by lra. rewrite Rmult_0_r. apply is_derive_Reals. intros eps He. exists (mkposreal _ (Rpower_pos eps (/ (y - 1)))). intros h Hh0 Hh. cbn in Hh.
    rewrite Rplus_0_l, (PosPow_neg y 0) by lra. rewrite !Rminus_0_r. destruct (Rle_or_lt h 0) as [G|G].
    + rewrite PosPow_neg by exact G. unfold Rdiv. rewrite Rmult_0_l, Rabs_R0. exact He.
    + rewrite PosPow_pos by exact G. replace (Rpower h y / h) with (Rpower h (y - 1)).
      * rewrite Rabs_pos_eq by (apply Rlt_le, Rpower_pos). rewrite Rabs_pos_eq in Hh by lra. apply Rpower_small; lra.
      * unfold Rminus. rewrite Rpower_plus, Rpower_Ropp, Rpower_1 by exact G. reflexivity.
  - rewrite PosPow_pos by exact Hs. now apply PosPow_derive_pos.
Qed.

(** ** Existence of the Gamma function on (1,2] *)
Definition gam (x t : R) : R := PosPow (x - 1) t * exp (- t).
Lemma exp_neg_cont t : continuous (fun t => exp (- t)) t.
Proof. apply (ex_derive_continuous (V := R_NormedModule)). auto_derive. exact I. Qed.
Lemma gam_cont x t : 1 < x -> continuous (gam x) t.
Proof. intros H. apply (continuous_mult (PosPow (x - 1)) (fun t => exp (- t))); [apply PosPow_cont; lra|apply exp_neg_cont]. Qed.
Lemma gam_int x a b : 1 < x -> ex_RInt (gam x) a b.
Proof. intros H. apply (ex_RInt_continuous (V := R_CompleteNormedModule)). intros t _. now apply gam_cont. Qed.
Lemma gam_nonneg x t : 0 <= gam x t.
Proof. apply Rmult_le_pos; [apply PosPow_nonneg|apply Rlt_le, exp_pos]. Qed.
Lemma PosPow_le y t : 0 <= y <= 1 -> 0 <= t -> PosPow y t <= 1 + t.
Proof.
  intros Hy Ht. destruct (Rle_or_lt t 0) as [G|G]; [rewrite PosPow_neg by exact G; lra|]. rewrite PosPow_pos by exact G. destruct (Rle_or_lt t 1) as [H1|H1].
  - assert (Rpower t y <= 1); [|lra]. replace 1 with (Rpower 1 y) by (unfold Rpower; rewrite ln_1, Rmult_0_r; apply exp_0). apply Rle_Rpower_l; lra.
  - assert (Rpower t y <= t); [|lra]. rewrite <- (Rpower_1 t) at 2 by exact G. apply Rle_Rpower; lra.
Qed.
Lemma gam_bound x M : 1 < x <= 2 -> 0 <= M -> RInt (gam x) 0 M <= 2.
Proof.
  intros Hx HM. assert (I1 : is_RInt (fun t => (1 + t) * exp (- t)) 0 M (- (2 + M) * exp (- M) - - (2 + 0) * exp (- 0))).
  { apply (is_RInt_derive (V := R_CompleteNormedModule) (fun t => - (2 + t) * exp (- t))).
    - intros t _. auto_derive; [exact I|]. ring.
    - intros t _. apply (ex_derive_continuous (V := R_NormedModule)). auto_derive. exact I. }
  apply Rle_trans with (RInt (fun t => (1 + t) * exp (- t)) 0 M).
  - apply RInt_le; [exact HM|apply gam_int; lra|eexists; exact I1|]. intros t Ht. apply Rmult_le_compat_r; [apply Rlt_le, exp_pos|]. apply PosPow_le; lra.
  - rewrite (is_RInt_unique _ _ _ _ I1). rewrite Ropp_0, exp_0. assert (0 <= (2 + M) * exp (- M)) by (apply Rmult_le_pos; [lra|apply Rlt_le, exp_pos]). lra.
Qed.
Lemma gam_incr x a b : 1 < x -> a <= b -> RInt (gam x) 0 a <= RInt (gam x) 0 b.
Proof.
  intros Hx Hab. rewrite <- (RInt_Chasles (gam x) 0 a b) by now apply gam_int. assert (0 <= RInt (gam x) a b) by (apply RInt_ge_0; [exact Hab|now apply gam_int|intros; apply gam_nonneg]).
  change (RInt (gam x) 0 a <= RInt (gam x) 0 a + RInt (gam x) a b). lra.
Qed.
Lemma gam_halfline x : 1 < x <= 2 -> {l : R | HalfLine (gam x) l}.
Proof.
  intros Hx. destruct (completeness (fun v => exists M, 0 <= M /\ v = RInt (gam x) 0 M)) as (l & Hu & Hl).
  - exists 2. intros v (M & HM & ->). now apply gam_bound.
  - exists (RInt (gam x) 0 0), 0. split; [lra|reflexivity].
  - exists l. split; [intros; apply gam_int; lra|]. apply is_lim_spec. intros eps.
    assert (E : exists M, 0 <= M /\ l - eps < RInt (gam x) 0 M).
    { destruct (Classical_Prop.classic (exists M, 0 <= M /\ l - eps < RInt (gam x) 0 M)) as [G|G]; [exact G|exfalso].
      assert (B : l <= l - eps). { apply Hl. intros v (M & HM & ->). destruct (Rle_or_lt (RInt (gam x) 0 M) (l - eps)) as [Q|Q]; [exact Q|]. destruct G. now exists M. }
      destruct eps as (e & He). cbn in B. lra. }
    destruct E as (M0 & HM0 & E). exists M0. intros M HM. pose proof (gam_incr x M0 M ltac:(lra) ltac:(lra)). assert (RInt (gam x) 0 M <= l) by (apply Hu; exists M; split; [lra|reflexivity]).
    destruct eps as (e & He). cbn in *. apply Rabs_def1; lra.
Qed.
Lemma halfline_unique f u v : HalfLine f u -> HalfLine f v -> u = v.
Proof. intros (_ & H1) (_ & H2). apply is_lim_unique in H1, H2. congruence. Qed.
Lemma halfline_ext f g u : HalfLine f u -> (forall s, 0 < s -> f s = g s) -> HalfLine g u.
Proof.
  intros (H1 & H2) E. assert (I : forall M, 0 <= M -> is_RInt g 0 M (RInt f 0 M)).
  { intros M HM. apply (is_RInt_ext f). - intros s Hs. rewrite Rmin_left in Hs by exact HM. apply E. lra. - apply (RInt_correct (V := R_CompleteNormedModule)). now apply H1. }
  split; [intros M HM; eexists; now apply I|]. apply (is_lim_ext_loc (fun M => RInt f 0 M)); [|exact H2]. exists 0. intros M HM. symmetry. apply (is_RInt_unique (V := R_CompleteNormedModule)), I. lra.
Qed.
(** Substitution t = g(s) for a C1 map of the half line onto itself. *)
Lemma halfline_subst (f g dg : R -> R) u : (forall s, continuous f s) -> (forall s, is_derive g s (dg s)) -> (forall s, continuous dg s) ->
  g 0 = 0 -> is_lim g p_infty p_infty -> HalfLine f u -> HalfLine (fun s => dg s * f (g s)) u.
Proof.
  intros Cf Dg Cd G0 Gl (H1 & H2). assert (I : forall M, is_RInt (fun s => dg s * f (g s)) 0 M (RInt f 0 (g M))).
  { intros M. replace (RInt f 0 (g M)) with (RInt f (g 0) (g M)) by now rewrite G0. apply (is_RInt_comp (V := R_CompleteNormedModule) f g dg 0 M); [intros; apply Cf|intros; split; [apply Dg|apply Cd]]. }
  split; [intros M _; eexists; apply I|]. apply (is_lim_ext (fun M => RInt f 0 (g M))); [intros M; symmetry; apply (is_RInt_unique (V := R_CompleteNormedModule)), I|].
  apply (is_lim_comp (fun X => RInt f 0 X) g p_infty u p_infty); [exact H2|exact Gl|exists 0; discriminate].
Qed.

(** ** Values of the Gamma function *)
Section Gamma.
Variable gamma : R -> R.
Hypothesis HG : GammaFunction gamma.
Lemma gamma_halfline x : 1 < x <= 2 -> HalfLine (gam x) (gamma x).
Proof. apply HG. Qed.
Lemma gamma_pos x : 1 < x <= 2 -> 0 < gamma x.
Proof.
  intros Hx. destruct (gamma_halfline x Hx) as (_ & H). apply Rlt_le_trans with (RInt (gam x) 0 1).
  - apply RInt_gt_0; [lra| |intros; apply gam_cont; lra]. intros t Ht. unfold gam. rewrite PosPow_pos by lra. apply Rmult_lt_0_compat; apply exp_pos.
  - assert (L : Rbar_le (RInt (gam x) 0 1) (gamma x)).
    { apply (is_lim_le_loc (fun _ => RInt (gam x) 0 1) (fun M => RInt (gam x) 0 M) p_infty); [exists 1; intros M HM; apply gam_incr; lra|apply is_lim_const|exact H]. }
    exact L.
Qed.
Lemma gamma_2 : gamma 2 = 1.
Proof.
  apply (halfline_unique (gam 2)); [apply gamma_halfline; lra|].
  assert (S : HalfLine (fun s => s * exp (- s)) 1).
  { replace 1 with (0 - (fun s => - (s * exp (- s)) - exp (- s)) 0) at 1 by (cbv beta; rewrite Ropp_0, exp_0; ring). apply (halfline_prim _ (fun s => - (s * exp (- s)) - exp (- s)) 0).
    - intros s. auto_derive; [exact I|]. ring.
    - intros s. apply (ex_derive_continuous (V := R_NormedModule)). auto_derive. exact I.
    - assert (L1 : is_lim (fun s => - s) p_infty m_infty) by apply (is_lim_opp (fun s => s) p_infty p_infty), is_lim_id.
      apply (is_lim_ext (fun s => (- s) * exp (- s) - exp (- s))); [intros; ring|]. replace (Finite 0) with (Finite (0 - 0)) by (f_equal; ring). apply is_lim_minus'.
      + apply (is_lim_comp (fun y => y * exp y) Ropp p_infty 0 m_infty); [apply is_lim_mul_exp_m|exact L1|exists 0; discriminate].
      + apply (is_lim_comp exp Ropp p_infty 0 m_infty); [apply is_lim_exp_m|exact L1|exists 0; discriminate]. }
  apply (halfline_ext _ _ _ S). intros s Hs. unfold gam. rewrite PosPow_pos by exact Hs. replace (2 - 1) with 1 by ring. now rewrite Rpower_1.
Qed.
Lemma sq_lim : is_lim (fun s => s * s) p_infty p_infty.
Proof. apply (is_lim_mult (fun s => s) (fun s => s) p_infty p_infty p_infty); [apply is_lim_id|apply is_lim_id|exact I]. Qed.
Lemma gamma_3_2 : gamma (3 / 2) = sqrt PI / 2.
Proof.
  assert (H : HalfLine (fun s => 2 * s * gam (3 / 2) (s * s)) (gamma (3 / 2))).
  { apply (halfline_subst (gam (3 / 2)) (fun s => s * s) (fun s => 2 * s)).
    - intros s. apply gam_cont. lra.
    - intros s. auto_derive; [exact I|]. ring.
    - intros s. apply (ex_derive_continuous (V := R_NormedModule)). auto_derive. exact I.
    - ring.
    - apply sq_lim.
    - apply gamma_halfline. lra. }
  apply (halfline_unique _ _ _ H). assert (Hm : HalfLine (fun s => 2 * (s ^ 2 * ee 1 s)) (sqrt PI / 2)).
  { apply (halfline_scal _ _ 2 _ _ (mom2 1 Rlt_0_1)); [reflexivity|]. rewrite sqrt_1. field. }
  apply (halfline_ext _ _ _ Hm). intros s Hs. unfold gam, ee. rewrite PosPow_pos by now apply Rmult_lt_0_compat.
  replace (3 / 2 - 1) with (/ 2) by field. rewrite Rpower_sqrt by now apply Rmult_lt_0_compat. rewrite sqrt_square by lra. rewrite Rmult_1_l. ring.
Qed.
(** ** Brody *)
Lemma brody_arg beta : 0 <= beta <= 1 -> 1 < (beta + 2) / (beta + 1) <= 2.
Proof.
  intros Hb. replace ((beta + 2) / (beta + 1)) with (1 + / (beta + 1)) by (field; lra). assert (0 < / (beta + 1)) by (apply Rinv_0_lt_compat; lra).
  assert (/ (beta + 1) <= / 1) by (apply Rinv_le_contravar; lra). rewrite Rinv_1 in *. lra.
Qed.
Lemma alpha_form beta : 0 <= beta <= 1 -> brody_alpha gamma beta = Rpower (gamma ((beta + 2) / (beta + 1))) (beta + 1).
Proof. intros Hb. unfold brody_alpha. apply npow_pos, gamma_pos, brody_arg, Hb. Qed.
Lemma alpha_pos beta : 0 <= beta <= 1 -> 0 < brody_alpha gamma beta.
Proof. intros Hb. rewrite alpha_form by exact Hb. apply Rpower_pos. Qed.
Lemma brody_dist_pos beta s : 0 <= beta <= 1 -> 0 < s -> 0 < brody_dist gamma beta s.
Proof.
  intros Hb Hs. unfold brody_dist. cbv zeta. pose proof (alpha_pos beta Hb). rewrite (npow_pos s beta) by exact Hs. pose proof (Rpower_pos s beta).
  repeat apply Rmult_lt_0_compat; auto; [lra|apply exp_pos].
Qed.
Lemma brody_cdf_derive beta s : 0 <= beta <= 1 -> 0 < s -> is_derive (brody_cdf gamma beta) s (brody_dist gamma beta s).
Proof.
  intros Hb Hs. apply (is_derive_ext_loc (fun t => 1 - exp (- brody_alpha gamma beta * Rpower t (beta + 1)))).
  - apply locally_pos; [exact Hs|]. intros t Ht. unfold brody_cdf. cbv zeta. now rewrite npow_pos.
  - unfold brody_dist. cbv zeta. rewrite !npow_pos by exact Hs. set (a := brody_alpha gamma beta).
    assert (D : is_derive (fun u => 1 - exp (- a * u)) (Rpower s (beta + 1)) (a * exp (- a * Rpower s (beta + 1)))) by (auto_derive; [exact I|ring]).
    pose proof (is_derive_comp (fun u => 1 - exp (- a * u)) (fun t => Rpower t (beta + 1)) s _ _ D (Rpower_derive (beta + 1) s Hs)) as D2.
    replace ((beta + 1) * a * Rpower s beta * exp (- a * Rpower s (beta + 1))) with (scal ((beta + 1) * Rpower s (beta + 1 - 1)) (a * exp (- a * Rpower s (beta + 1)))); [exact D2|].
    change ((beta + 1) * Rpower s (beta + 1 - 1) * (a * exp (- a * Rpower s (beta + 1))) = (beta + 1) * a * Rpower s beta * exp (- a * Rpower s (beta + 1))).
    replace (beta + 1 - 1) with beta by ring. ring.
Qed.
Lemma npow_incr b s t : 0 < b -> 0 <= s -> s < t -> npow s b < npow t b.
Proof.
  intros Hb Hs Hst. rewrite (npow_pos t) by lra. destruct (Rle_or_lt s 0) as [G|G].
  - unfold npow. destruct (Rlt_dec 0 s); [lra|]. destruct (Req_EM_T b 0); [lra|]. apply Rpower_pos.
  - rewrite npow_pos by exact G. apply Rlt_Rpower_l; lra.
Qed.
Lemma brody_cdf_incr beta s t : 0 <= beta <= 1 -> 0 <= s -> s < t -> brody_cdf gamma beta s < brody_cdf gamma beta t.
Proof.
  intros Hb Hs Hst. unfold brody_cdf. cbv zeta. pose proof (alpha_pos beta Hb). pose proof (npow_incr (beta + 1) s t ltac:(lra) Hs Hst) as Q.
  apply (Rmult_lt_compat_l (brody_alpha gamma beta)) in Q; [|assumption]. assert (E : exp (- brody_alpha gamma beta * npow t (beta + 1)) < exp (- brody_alpha gamma beta * npow s (beta + 1))) by (apply exp_increasing; lra). lra.
Qed.
Lemma brody_cdf_0 beta : 0 <= beta <= 1 -> brody_cdf gamma beta 0 = 0.
Proof. intros Hb. unfold brody_cdf, npow. cbv zeta. destruct (Rlt_dec 0 0); [lra|]. destruct (Req_EM_T (beta + 1) 0); [lra|]. rewrite Rmult_0_r, exp_0. ring. Qed.
Lemma brody_cdf_range beta s : 0 <= beta <= 1 -> 0 <= s -> 0 <= brody_cdf gamma beta s < 1.
Proof.
  intros Hb Hs. split.
  - destruct (Req_dec s 0) as [->|G]; [rewrite brody_cdf_0 by exact Hb; lra|]. rewrite <- (brody_cdf_0 beta Hb). apply Rlt_le, brody_cdf_incr; lra.
  - unfold brody_cdf. cbv zeta. pose proof (exp_pos (- brody_alpha gamma beta * npow s (beta + 1))). lra.
Qed.
Lemma PosPow_lim y : 1 <= y -> is_lim (PosPow y) p_infty p_infty.
Proof.
  intros Hy. apply (is_lim_le_p_loc (fun s => s)); [|apply is_lim_id]. exists 1. intros s Hs. rewrite PosPow_pos by lra. rewrite <- (Rpower_1 s) at 1 by lra. apply Rle_Rpower; lra.
Qed.
Lemma scaled_lim beta : 0 <= beta <= 1 -> is_lim (fun s => brody_alpha gamma beta * PosPow (beta + 1) s) p_infty p_infty.
Proof.
  intros Hb. pose proof (alpha_pos beta Hb) as Ha. evar_last; [apply is_lim_scal_l, PosPow_lim; lra|]. cbn. destruct (Rle_dec 0 (brody_alpha gamma beta)) as [G|G]; [|lra]. destruct (Rle_lt_or_eq_dec 0 _ G); [reflexivity|lra].
Qed.
Lemma brody_cdf_lim beta : 0 <= beta <= 1 -> is_lim (brody_cdf gamma beta) p_infty 1.
Proof.
  intros Hb. apply (is_lim_ext (fun s => 1 - exp (- (brody_alpha gamma beta * PosPow (beta + 1) s)))).
  - intros s. unfold brody_cdf. cbv zeta. rewrite npow_PosPow by lra. f_equal. f_equal. ring.
  - replace (Finite 1) with (Finite (1 - 0)) by (f_equal; ring). apply is_lim_minus'; [apply is_lim_const|].
    apply (is_lim_comp (fun u => exp u) (fun s => - (brody_alpha gamma beta * PosPow (beta + 1) s)) p_infty 0 m_infty); [apply is_lim_exp_m| |exists 0; discriminate].
    apply (is_lim_opp _ p_infty p_infty), scaled_lim, Hb.
Qed.
Lemma brody_0 s : 0 < s -> brody_dist gamma 0 s = exp (- s).
Proof.
  intros Hs. unfold brody_dist. cbv zeta. assert (A : brody_alpha gamma 0 = 1).
  { rewrite alpha_form by lra. replace ((0 + 2) / (0 + 1)) with 2 by field. rewrite gamma_2. replace (0 + 1) with 1 by ring. apply Rpower_1. lra. }
  rewrite A, !npow_pos by exact Hs. replace (0 + 1) with 1 by ring. rewrite Rpower_1, Rpower_O by exact Hs. replace (- (1) * s) with (- s) by ring. ring.
Qed.
Lemma brody_1 s : 0 < s -> brody_dist gamma 1 s = (PI * s) / 2 * exp (- (PI / 4) * s * s).
Proof.
  intros Hs. unfold brody_dist. cbv zeta. pose proof PI_RGT_0 as HP. assert (Q : forall x, 0 < x -> Rpower x (1 + 1) = x * x) by (intros x Hx; rewrite Rpower_plus, Rpower_1 by exact Hx; reflexivity).
  assert (A : brody_alpha gamma 1 = PI / 4).
  { rewrite alpha_form by lra. replace ((1 + 2) / (1 + 1)) with (3 / 2) by field. rewrite gamma_3_2. rewrite Q by (apply Rdiv_lt_0_compat; [now apply sqrt_lt_R0|lra]). rewrite <- (sqrt_sqrt PI) at 3 by lra. field. }
  rewrite A, !npow_pos by exact Hs. rewrite Rpower_1, Q by exact Hs. replace (- (PI / 4) * (s * s)) with (- (PI / 4) * s * s) by ring. field.
Qed.
(** Total mass and mean of the Brody law, 0 < beta <= 1. *)
Lemma brody_form beta s : 0 < beta <= 1 -> brody_dist gamma beta s = (brody_alpha gamma beta * ((beta + 1) * PosPow beta s)) * exp (- (brody_alpha gamma beta * PosPow (beta + 1) s)).
Proof. intros Hb. unfold brody_dist. cbv zeta. rewrite !npow_PosPow by lra. rewrite <- Ropp_mult_distr_l. ring. Qed.
Lemma brody_subst beta f u : 0 < beta <= 1 -> (forall s, continuous f s) -> HalfLine f u ->
  HalfLine (fun s => (brody_alpha gamma beta * ((beta + 1) * PosPow beta s)) * f (brody_alpha gamma beta * PosPow (beta + 1) s)) u.
Proof.
  intros Hb Cf Hf. set (a := brody_alpha gamma beta).
  apply (halfline_subst f (fun s => a * PosPow (beta + 1) s) (fun s => a * ((beta + 1) * PosPow beta s))); auto.
  - intros s. apply (is_derive_scal (PosPow (beta + 1)) s a). pose proof (PosPow_derive (beta + 1) s ltac:(lra)) as D. now replace (beta + 1 - 1) with beta in D by ring.
  - intros s. apply (continuous_scal_r a (fun s => (beta + 1) * PosPow beta s)). apply (continuous_scal_r (beta + 1) (PosPow beta)). apply PosPow_cont. lra.
  - rewrite PosPow_neg by lra. ring.
  - apply scaled_lim. lra.
Qed.
Lemma exp_halfline : HalfLine (fun s => exp (- s)) 1.
Proof.
  replace 1 with (0 - (fun s => - exp (- s)) 0) at 1 by (cbv beta; rewrite Ropp_0, exp_0; ring). apply (halfline_prim _ (fun s => - exp (- s)) 0).
  - intros s. auto_derive; [exact I|]. ring.
  - intros s. apply exp_neg_cont.
  - replace (Finite 0) with (Rbar_opp 0) by (cbn; f_equal; ring). apply is_lim_opp. apply (is_lim_comp exp Ropp p_infty 0 m_infty); [apply is_lim_exp_m| |exists 0; discriminate]. apply (is_lim_opp (fun s => s) p_infty p_infty), is_lim_id.
Qed.
Lemma brody_mass beta : 0 < beta <= 1 -> HalfLine (brody_dist gamma beta) 1.
Proof.
  intros Hb. apply (halfline_ext _ _ _ (brody_subst beta (fun t => exp (- t)) 1 Hb exp_neg_cont exp_halfline)). intros s _. now rewrite brody_form.
Qed.
Lemma brody_mean beta : 0 < beta <= 1 -> HalfLine (fun s => s * brody_dist gamma beta s) 1.
Proof.
  intros Hb. set (x := (beta + 2) / (beta + 1)). assert (Hx : 1 < x <= 2) by (apply brody_arg; lra). pose proof (gamma_pos x Hx) as Gp.
  pose proof (brody_subst beta (gam x) (gamma x) Hb ltac:(intros; apply gam_cont; lra) (gamma_halfline x Hx)) as H.
  apply (halfline_scal _ (fun s => s * brody_dist gamma beta s) (/ gamma x) _ 1 H); [|field; lra]. intros s Hs. destruct (Req_dec s 0) as [->|G]; [rewrite (PosPow_neg beta) by lra; ring|].
  assert (Sp : 0 < s) by lra. rewrite brody_form by exact Hb. unfold gam. rewrite !(PosPow_pos _ s) by exact Sp. pose proof (alpha_pos beta ltac:(lra)) as Ap.
  rewrite PosPow_pos by (apply Rmult_lt_0_compat; [exact Ap|apply Rpower_pos]).
  assert (E : Rpower (brody_alpha gamma beta * Rpower s (beta + 1)) (x - 1) = gamma x * s).
  { rewrite <- Rpower_mult_distr by (try exact Ap; apply Rpower_pos). rewrite alpha_form by lra. fold x. rewrite !Rpower_mult.
    replace ((beta + 1) * (x - 1)) with 1 by (unfold x; field; lra). rewrite !Rpower_1 by assumption. reflexivity. }
  rewrite E. field. lra.
Qed.
End Gamma.
Lemma gamma_exists : exists gamma, GammaFunction gamma.
Proof.
  exists (fun x => match Rlt_dec 1 x with left H1 => match Rle_dec x 2 with left H2 => proj1_sig (gam_halfline x (conj H1 H2)) | right _ => 0 end | right _ => 0 end).
  intros x (H1 & H2). destruct (Rlt_dec 1 x) as [G1|]; [|lra]. destruct (Rle_dec x 2) as [G2|]; [|lra]. exact (proj2_sig (gam_halfline x (conj G1 G2))).
Qed.
