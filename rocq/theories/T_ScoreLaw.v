(** Property C126: the score of an unfolding against the package's own spacing laws. *)
From Coq Require Import List ZArith Reals Lra Lia Arith.
From Coquelicot Require Import Coquelicot.
From Verif Require Import Base S_Order S_EigVals S_Trim M_EigVals M_Trim P_TrimStat P_TrimFull M_Quad S_Quad P_Ols P_Gauss M_Ensemble S_Ensemble P_Ensemble P_Pi T_Ensemble T_Trim.
Import ListNotations.
Local Open Scope R_scope.
Local Notation length := List.length.

(** [v] is the variance of the density [f] on the half line, a law of mean one: the integral of s^2 f(s), minus one. *)
Definition LawVariance (f : R -> R) (v : R) : Prop := Density f /\ MeanOne f /\ HalfLine (fun s => s ^ 2 * f s) (v + 1).
(** The variances of the four spacing laws. *)
Definition spacing_variance (e : ensemble) : R :=
  match e with Poisson => 1 | GOE => 4 / PI - 1 | GUE => 3 * PI / 8 - 1 | GSE => 45 * PI / 128 - 1 end.

Lemma s2_exp_neg_lim : is_lim (fun s => s ^ 2 * exp (- s)) p_infty 0.
Proof.
  assert (H : is_lim (fun s => 4 * ((s / 2 * exp (- (s / 2))) * (s / 2 * exp (- (s / 2))))) p_infty 0).
  { replace (Finite 0) with (Rbar_mult 4 (Rbar_mult 0 0)) by (cbn; f_equal; ring). apply is_lim_scal_l.
    assert (G : is_lim (fun s => s / 2 * exp (- (s / 2))) p_infty 0).
    { apply (is_lim_comp (fun y => y * exp (- y)) (fun s => s / 2) p_infty 0 p_infty); [apply s_exp_neg_lim| |exists 0; discriminate].
      assert (T : Rbar_mult p_infty (/ 2) = p_infty) by (cbn; destruct (Rle_dec 0 (/ 2)) as [h|h]; [destruct (Rle_lt_or_eq_dec 0 (/ 2) h) as [q|q]; [reflexivity|lra]|lra]).
      pose proof (is_lim_scal_r (fun s => s) (/ 2) p_infty p_infty (is_lim_id _)) as H. rewrite T in H. exact H. }
    apply (is_lim_mult _ _ p_infty 0 0 G G). exact I. }
  eapply is_lim_ext; [|exact H]. intros s. cbv beta. replace (exp (- s)) with (exp (- (s / 2)) * exp (- (s / 2))) by (rewrite <- exp_plus; f_equal; field). field.
Qed.
Lemma s2_exp_half : HalfLine (fun s => s ^ 2 * exp (- s)) 2.
Proof.
  replace 2 with (0 - (fun s => - (s ^ 2 * exp (- s)) - 2 * (s * exp (- s)) - 2 * exp (- s)) 0) at 1 by (cbv beta; rewrite Ropp_0, exp_0; ring).
  apply (halfline_prim _ (fun s => - (s ^ 2 * exp (- s)) - 2 * (s * exp (- s)) - 2 * exp (- s)) 0).
  - intros s. auto_derive; [exact I|]. ring.
  - intros s. apply (ex_derive_continuous (V := R_NormedModule)). auto_derive. exact I.
  - replace (Finite 0) with (Finite (- 0 - 2 * 0 - 2 * 0)) by (f_equal; ring).
    apply is_lim_minus'; [apply is_lim_minus'|]; [apply (is_lim_opp _ _ 0), s2_exp_neg_lim|apply (is_lim_scal_l _ 2 p_infty 0), s_exp_neg_lim|apply (is_lim_scal_l _ 2 p_infty 0), exp_neg_lim].
Qed.

(** C126. The four spacing laws have mean one and these variances. *)
Theorem C126_variances : forall e : ensemble, LawVariance (nnsd_at e) (spacing_variance e).
Proof.
  intros e. pose proof PI_RGT_0 as HP. pose proof PI_neq0 as HP0. destruct e.
  - destruct (C46_laws Poisson (or_introl eq_refl)) as (A & B & _). split; [exact A|]. split; [exact B|]. unfold spacing_variance. replace (1 + 1) with 2 by ring. apply s2_exp_half.
  - destruct (C46_laws GOE (or_intror eq_refl)) as (A & B & _). split; [exact A|]. split; [exact B|]. unfold spacing_variance.
    apply (halfline_scal _ _ (PI / 2) _ _ (mom3 (PI / 4) ltac:(lra))); [intros s _; rewrite goe_form; ring|field; exact HP0].
  - destruct (C47_densities GUE (or_introl eq_refl)) as (A & B & C). split; [split; [intros s _; apply A|exact B]|]. split; [exact C|]. unfold spacing_variance.
    assert (H4 : 0 < 4 / PI) by (apply Rdiv_lt_0_compat; lra).
    apply (halfline_scal _ _ (32 / PI ^ 2) _ _ (mom4 (4 / PI) H4)); [intros s _; rewrite gue_form; ring|].
    replace (sqrt PI / 2 / sqrt (4 / PI)) with (sqrt PI / sqrt (4 / PI) / 2) by (field; apply Rgt_not_eq, sqrt_lt_R0; lra).
    rewrite (sqrt_quot (4 / PI) (PI / 2)) by (try lra; field; lra). field. exact HP0.
  - destruct (C47_densities GSE (or_intror eq_refl)) as (A & B & C). split; [split; [intros s _; apply A|exact B]|]. split; [exact C|]. unfold spacing_variance.
    assert (H4 : 0 < 64 / (9 * PI)) by (apply Rdiv_lt_0_compat; lra).
    pose proof (mom_step 4 _ _ H4 (mom4 (64 / (9 * PI)) H4)) as M6.
    apply (halfline_scal _ _ (262144 / (729 * PI ^ 3)) _ _ M6); [intros s _; rewrite gse_form; ring|].
    replace (sqrt PI / 2 / sqrt (64 / (9 * PI))) with (sqrt PI / sqrt (64 / (9 * PI)) / 2) by (field; apply Rgt_not_eq, sqrt_lt_R0; lra).
    rewrite (sqrt_quot (64 / (9 * PI)) (3 * PI / 8)) by (try lra; field; lra). cbn [INR]. field. exact HP0.
Qed.
Print Assumptions C126_variances.

(** The score of any unfolding (at least three values) with mean spacing one and sample variance that of the law. *)
Lemma law_score (u : list R) e mean var score : (3 <= length u)%nat -> evaluate_unfolding u = (mean, var, score) -> mean = 1 -> var = spacing_variance e ->
  score = (spacing_variance e - 0.286) / 0.286.
Proof.
  intros Hu E Hm Hv. destruct u as [|a t]; [cbn in Hu; lia|]. destruct (last_opt (a :: t)) as [b|] eqn:Eb.
  2:{ exfalso. unfold last_opt in Eb. apply nth_error_None in Eb. cbn [length] in *. lia. }
  destruct (C14_score (a :: t) a b Hu eq_refl Eb) as (m & v & s & E' & _ & _ & _ & Hs & _). rewrite E in E'. injection E' as -> -> ->. rewrite Hs, Hm, Hv. lra.
Qed.

(** C126. "Best score is zero" for GOE spacings is false: spacings with exactly the mean and the variance of the package's own GOE law score below -0.04;
    with those of the Poisson law the score is above 2.4, with those of the GUE and GSE laws below -0.3 and -0.6.  For every law there are such spacings. *)
Theorem C126_goe_score_refuted :
  (forall u e mean var score, (3 <= length u)%nat -> evaluate_unfolding u = (mean, var, score) -> mean = 1 -> var = spacing_variance e ->
    match e with Poisson => 2.49 < score < 2.5 | GOE => -0.05 < score < -0.04 | GUE => -0.39 < score < -0.36 | GSE => -0.65 < score < -0.62 end) /\
  (forall e, exists u mean score, length u = 3%nat /\ evaluate_unfolding u = (mean, spacing_variance e, score) /\ mean = 1).
Proof.
  pose proof PI_bounds as (PL & PU). pose proof PI_RGT_0 as HP.
  assert (Q : 1.2720 < 4 / PI < 1.2735).
  { split; apply (Rmult_lt_reg_r PI); try exact HP; (replace (4 / PI * PI) with 4 by (field; lra)); lra. }
  assert (V : forall e, 0 <= spacing_variance e) by (intros []; unfold spacing_variance; lra).
  split.
  - intros u e mean var score Hu E Hm Hv. rewrite (law_score u e mean var score Hu E Hm Hv). destruct e; unfold spacing_variance; lra.
  - intros e. set (d := sqrt (spacing_variance e / 2)). assert (Hd : d * d = spacing_variance e / 2) by (apply sqrt_def; specialize (V e); lra).
    exists [0; 1 - d; 2]. destruct (evaluate_unfolding [0; 1 - d; 2]) as ((mean & var) & score) eqn:E.
    destruct (C14_score [0; 1 - d; 2] 0 2 ltac:(cbn; lia) eq_refl eq_refl) as (m & v & s & E' & Hm & Hv & _). rewrite E in E'. injection E' as <- <- <-.
    exists mean, score. split; [reflexivity|]. assert (mean = 1) by (rewrite Hm; cbn [length INR]; lra). split; [|assumption].
    rewrite Hv. f_equal. f_equal. cbn [Gaps]. unfold Rvar1. rewrite !Rmean_INR. cbn [map length INR Rsum].
    replace ((1 - d - 0 + (2 - (1 - d) + 0)) / (1 + 1)) with 1 by field.
    replace (spacing_variance e) with (2 * (d * d)) by lra. field.
Qed.
Print Assumptions C126_goe_score_refuted.
(** Gaps 0, 1, 2 have mean one and variance one, those of the Poisson law; their score is 357/143. *)
Example C126_case : exists score : R, evaluate_unfolding [0; 0; 1; 3] = (1, spacing_variance Poisson, score) /\ score = 357 / 143 /\ 2.49 < score < 2.5.
Proof.
  destruct (evaluate_unfolding [0; 0; 1; 3]) as ((mean & var) & score) eqn:E.
  destruct (C14_score [0; 0; 1; 3] 0 3 ltac:(cbn; lia) eq_refl eq_refl) as (m & v & s & E' & Hm & Hv & _ & Hs & _). rewrite E in E'. injection E' as <- <- <-.
  assert (M : mean = 1) by (rewrite Hm; cbn [length INR]; lra).
  assert (V : var = 1). { rewrite Hv. cbn [Gaps]. unfold Rvar1. rewrite !Rmean_INR. cbn [map length INR Rsum]. field. }
  exists score. rewrite M, V. split; [reflexivity|]. rewrite Hs, M, V. split; lra.
Qed.
