(** Property C114: sign and ordering of the expected rigidity and level variance curves. *)
From Coq Require Import List ZArith Reals Lra Lia.
From Verif Require Import Base M_Quad M_Ensemble P_Pi.
Import ListNotations.
Local Open Scope R_scope.

(** The range in which np.euler_gamma = 0.5772156649015329 lies. *)
Definition EulerRange (g : R) : Prop := 0.577 <= g <= 0.578.

Lemma pi_sq : 9.865 < PI ^ 2 < 9.889.
Proof. pose proof PI_bounds. cbn. nra. Qed.
Lemma ln_split s : 0 < s -> ln (2 * PI * s) = ln (2 * PI) + ln s /\ ln (4 * PI * s) = ln 2 + ln (2 * PI * s).
Proof.
  intro Hs. pose proof PI_RGT_0. split; [rewrite ln_mult by lra; reflexivity|]. replace (4 * PI * s) with (2 * (2 * PI * s)) by ring. apply ln_mult; [lra|]. apply Rmult_lt_0_compat; lra.
Qed.
Lemma ln_up s t : 0 < s -> s <= t -> ln (2 * PI * s) <= ln (2 * PI * t).
Proof. intros Hs Ht. pose proof PI_RGT_0. destruct (Req_dec s t) as [->|]; [lra|]. left. apply ln_increasing; [apply Rmult_lt_0_compat; lra|]. apply Rmult_lt_compat_l; lra. Qed.
(** A positive multiple has the sign of the multiplied number. *)
Lemma by_scale k u v w : 0 < k -> v - u = k * w -> (u < v <-> 0 < w).
Proof.
  intros Hk E. split; intro H.
  - apply (Rmult_lt_reg_l k); [exact Hk|]. lra.
  - pose proof (Rmult_lt_0_compat _ _ Hk H). lra.
Qed.
Lemma inv_pi_pos : 0 < / PI ^ 2.
Proof. apply Rinv_0_lt_compat. pose proof pi_sq. lra. Qed.

Lemma rig_goe_gue g s : rigidity_at g GUE s < rigidity_at g GOE s <-> 5 / 4 - g + PI ^ 2 / 4 < ln (2 * PI * s).
Proof.
  pose proof inv_pi_pos. rewrite (by_scale (/ PI ^ 2 / 2) _ _ (ln (2 * PI * s) - (5 / 4 - g + PI ^ 2 / 4))); [lra|lra|]. unfold rigidity_at. field. apply PI_neq0.
Qed.
Lemma rig_gue_gse g s : 0 < s -> rigidity_at g GSE s < rigidity_at g GUE s <-> ln 2 + PI ^ 2 / 8 + 5 / 4 - g < ln (2 * PI * s).
Proof.
  intro Hs. pose proof inv_pi_pos. rewrite (by_scale (/ PI ^ 2 / 4) _ _ (ln (2 * PI * s) - (ln 2 + PI ^ 2 / 8 + 5 / 4 - g))); [lra|lra|]. unfold rigidity_at. destruct (ln_split s Hs) as [_ ->]. field. apply PI_neq0.
Qed.
Lemma rig_gue_goe g s : rigidity_at g GOE s < rigidity_at g GUE s <-> ln (2 * PI * s) < 5 / 4 - g + PI ^ 2 / 4.
Proof.
  pose proof inv_pi_pos. rewrite (by_scale (/ PI ^ 2 / 2) _ _ (5 / 4 - g + PI ^ 2 / 4 - ln (2 * PI * s))); [lra|lra|]. unfold rigidity_at. field. apply PI_neq0.
Qed.
Lemma rig_gse_gue g s : 0 < s -> rigidity_at g GUE s < rigidity_at g GSE s <-> ln (2 * PI * s) < ln 2 + PI ^ 2 / 8 + 5 / 4 - g.
Proof.
  intro Hs. pose proof inv_pi_pos. rewrite (by_scale (/ PI ^ 2 / 4) _ _ (ln 2 + PI ^ 2 / 8 + 5 / 4 - g - ln (2 * PI * s))); [lra|lra|]. unfold rigidity_at. destruct (ln_split s Hs) as [_ ->]. field. apply PI_neq0.
Qed.

(** Where the curves are the expected averages they stand for: every ensemble below Poisson for all L, and the more repulsion the
    smaller: level variance for every L of the default range, rigidity from L = 5 on. *)
Theorem C114_ordered : forall g s, EulerRange g ->
  (0 < s -> rigidity_at g GOE s < rigidity_at g Poisson s /\ levelvar_at g GOE s < levelvar_at g Poisson s) /\
  (1 / 2 <= s -> 0 < levelvar_at g GSE s < levelvar_at g GUE s /\ levelvar_at g GUE s < levelvar_at g GOE s) /\
  (5 <= s -> 0 < rigidity_at g GSE s < rigidity_at g GUE s /\ rigidity_at g GUE s < rigidity_at g GOE s).
Proof.
  intros g s [G1 G2]. pose proof pi_sq as HP. pose proof inv_pi_pos as Hi. pose proof PI_bounds as HB. pose proof ln_2 as H2.
  split; [|split].
  - intro Hs. split.
    + apply (by_scale (/ PI ^ 2) _ _ (PI ^ 2 * (s / 15) - (ln (2 * PI * s) + g - 5 / 4 - PI ^ 2 / 8))); [exact Hi|unfold rigidity_at; field; apply PI_neq0|].
      pose proof ln_30_pi as H30. assert (0 < 30 / PI) by (apply Rdiv_lt_0_compat; lra).
      assert (ln (2 * PI * s) <= PI ^ 2 * (s / 15) - 1 + ln (30 / PI)); [|lra].
      replace (2 * PI * s) with (PI ^ 2 * (s / 15) * (30 / PI)) by (field; apply PI_neq0). assert (0 < PI ^ 2 * (s / 15)) by (apply Rmult_lt_0_compat; lra).
      rewrite ln_mult by lra. pose proof (ln_le_linear (PI ^ 2 * (s / 15)) ltac:(lra)). lra.
    + apply (by_scale (2 * / PI ^ 2) _ _ (PI ^ 2 * s / 2 - (ln (2 * PI * s) + g + 1 - PI ^ 2 / 8))); [lra|unfold levelvar_at; field; apply PI_neq0|].
      assert (0 < 4 / PI) by (apply Rdiv_lt_0_compat; lra). assert (4 / PI < 1.28) by (apply (Rmult_lt_reg_r PI); [lra|]; unfold Rdiv; rewrite Rmult_assoc, Rinv_l; lra).
      pose proof (ln_le_linear (4 / PI) ltac:(lra)).
      assert (ln (2 * PI * s) <= PI ^ 2 * s / 2 - 1 + ln (4 / PI)); [|lra].
      replace (2 * PI * s) with (PI ^ 2 * s / 2 * (4 / PI)) by (field; apply PI_neq0). assert (0 < PI ^ 2 * s / 2) by (unfold Rdiv; apply Rmult_lt_0_compat; [apply Rmult_lt_0_compat; lra|lra]).
      rewrite ln_mult by lra. pose proof (ln_le_linear (PI ^ 2 * s / 2) ltac:(lra)). lra.
  - intro Hs. assert (0 < s) as Hs0 by lra. pose proof ln_pi as Hl. pose proof (ln_up (1 / 2) s ltac:(lra) Hs) as Hu. replace (2 * PI * (1 / 2)) with PI in Hu by field.
    destruct (ln_split s Hs0) as [_ E4]. split; [split|].
    + unfold levelvar_at. rewrite E4. apply Rmult_lt_0_compat; [apply Rdiv_lt_0_compat; lra|lra].
    + apply (by_scale (/ PI ^ 2 / 2) _ _ (ln (2 * PI * s) + g + 1 - ln 2 - PI ^ 2 / 8)); [lra|unfold levelvar_at; rewrite E4; field; apply PI_neq0|lra].
    + apply (by_scale (/ PI ^ 2) _ _ (ln (2 * PI * s) + g + 1 - PI ^ 2 / 4)); [lra|unfold levelvar_at; field; apply PI_neq0|lra].
  - intro Hs. assert (0 < s) as Hs0 by lra. pose proof ln_10pi as Hl. pose proof (ln_up 5 s ltac:(lra) Hs) as Hu. replace (2 * PI * 5) with (10 * PI) in Hu by ring.
    destruct (ln_split s Hs0) as [_ E4]. split; [split|].
    + unfold rigidity_at. rewrite E4. apply Rmult_lt_0_compat; [apply Rdiv_lt_0_compat; lra|lra].
    + apply rig_gue_gse; lra.
    + apply rig_goe_gue. lra.
Qed.
Print Assumptions C114_ordered.

(** False on the rest of the default range [0.5, 20]: up to L = 2 the rigidity curves are in the opposite order, up to L = 1 the GOE
    rigidity, which stands for an average of squares, is negative; in particular the first value GOE.spectral_rigidity() returns. *)
Theorem C114_small_L_refuted : forall g, EulerRange g ->
  (forall s, 0 < s <= 2 -> rigidity_at g GOE s < rigidity_at g GUE s < rigidity_at g GSE s) /\
  (forall s, 0 < s <= 1 -> rigidity_at g GOE s < 0) /\
  nth 0 (spectral_rigidity g GOE (1 / 2) 20 50 None) 0 < 0.
Proof.
  intros g [G1 G2]. pose proof pi_sq as HP. pose proof inv_pi_pos as Hi. pose proof ln_2pi as Hl. pose proof ln_2 as H2.
  assert (HN : forall s, 0 < s <= 1 -> rigidity_at g GOE s < 0).
  { intros s [Hs H1]. pose proof (ln_up s 1 Hs H1) as Hu. rewrite Rmult_1_r in Hu. unfold rigidity_at.
    assert (0 < 1 / PI ^ 2 * - (ln (2 * PI * s) + g - 5 / 4 - PI ^ 2 / 8)) by (apply Rmult_lt_0_compat; [apply Rdiv_lt_0_compat; lra|lra]). lra. }
  split; [|split; [exact HN|]].
  - intros s [Hs H2s]. pose proof (ln_up s 2 Hs H2s) as Hu. pose proof PI_RGT_0. replace (2 * PI * 2) with (2 * (2 * PI)) in Hu by ring. rewrite (ln_mult 2 (2 * PI)) in Hu by lra.
    split; [apply rig_gue_goe; lra|apply rig_gse_gue; lra].
  - unfold spectral_rigidity, L_grid. 
    assert (exists t, linspace (1 / 2) 20 50 = 1 / 2 :: t) as [t ->].
    { eexists. unfold linspace. cbn [seq map Nat.eqb]. f_equal. cbn. lra. }
    cbn [map nth]. apply HN. lra.
Qed.
Print Assumptions C114_small_L_refuted.

(** With the constant of NumPy. *)
Example C114_case : EulerRange 0.5772156649015329 /\ rigidity_at 0.5772156649015329 GOE 1 < 0 /\ rigidity_at 0.5772156649015329 GUE 5 < rigidity_at 0.5772156649015329 GOE 5.
Proof.
  assert (EulerRange 0.5772156649015329) as H by (split; lra). split; [exact H|]. split.
  - destruct (C114_small_L_refuted _ H) as (_ & E & _). apply E. lra.
  - destruct (C114_ordered _ 5 H) as (_ & _ & E). apply E. lra.
Qed.
