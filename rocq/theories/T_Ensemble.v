(** Properties C46-C50: spacing laws and theoretical curves of the ensembles. *)
From Coq Require Import List ZArith Reals Lra Lia Arith.
From Coquelicot Require Import Coquelicot.
From Verif Require Import Base M_Quad S_Quad P_Ols P_Gauss M_Ensemble S_Ensemble P_Ensemble.
Import ListNotations.
Local Open Scope R_scope.
Local Notation length := List.length.

Lemma exp_neg_lim : is_lim (fun s => exp (- s)) p_infty 0.
Proof. apply (is_lim_comp exp Ropp p_infty 0 m_infty); [apply is_lim_exp_m| |exists 0; discriminate]. apply (is_lim_opp (fun s => s) p_infty p_infty), is_lim_id. Qed.
Lemma s_exp_neg_lim : is_lim (fun s => s * exp (- s)) p_infty 0.
Proof.
  apply (is_lim_ext (fun s => - (- s * exp (- s)))); [intros; ring|]. replace (Finite 0) with (Rbar_opp 0) by (cbn; f_equal; ring). apply is_lim_opp.
  apply (is_lim_comp (fun y => y * exp y) Ropp p_infty 0 m_infty); [apply is_lim_mul_exp_m| |exists 0; discriminate]. apply (is_lim_opp (fun s => s) p_infty p_infty), is_lim_id.
Qed.
Lemma exp_half : HalfLine (fun s => exp (- s)) 1.
Proof.
  replace 1 with (0 - (fun s => - exp (- s)) 0) at 1 by (cbv beta; rewrite Ropp_0, exp_0; ring). apply (halfline_prim _ (fun s => - exp (- s)) 0).
  - intros s. auto_derive; [exact I|]. ring.
  - intros s. apply (ex_derive_continuous (V := R_NormedModule)). auto_derive. exact I.
  - replace (Finite 0) with (Rbar_opp 0) by (cbn; f_equal; ring). apply is_lim_opp, exp_neg_lim.
Qed.
Lemma s_exp_half : HalfLine (fun s => s * exp (- s)) 1.
Proof.
  replace 1 with (0 - (fun s => - (s * exp (- s)) - exp (- s)) 0) at 1 by (cbv beta; rewrite Ropp_0, exp_0; ring). apply (halfline_prim _ (fun s => - (s * exp (- s)) - exp (- s)) 0).
  - intros s. auto_derive; [exact I|]. ring.
  - intros s. apply (ex_derive_continuous (V := R_NormedModule)). auto_derive. exact I.
  - replace (Finite 0) with (Finite (- 0 - 0)) by (f_equal; ring). apply is_lim_minus'; [|apply exp_neg_lim]. apply (is_lim_opp _ _ 0), s_exp_neg_lim.
Qed.
Lemma goe_form s : nnsd_at GOE s = PI / 2 * (s ^ 1 * ee (PI / 4) s).
Proof. unfold nnsd_at, ee. replace (- (PI / 4) * s * s) with (- (PI / 4 * (s * s))) by ring. field. Qed.
Lemma gue_form s : nnsd_at GUE s = 32 / PI ^ 2 * (s ^ 2 * ee (4 / PI) s).
Proof. pose proof PI_RGT_0. unfold nnsd_at, ee. replace (- (4 * s * s) / PI) with (- (4 / PI * (s * s))) by (field; lra). field. lra. Qed.
Lemma gse_form s : nnsd_at GSE s = 262144 / (729 * PI ^ 3) * (s ^ 4 * ee (64 / (9 * PI)) s).
Proof. unfold nnsd_at, ee. ring. Qed.
Lemma sqrt_quot (u v : R) : 0 < u -> 0 < v -> v * v = PI / u -> sqrt PI / sqrt u = v.
Proof. intros Hu Hv E. pose proof PI_RGT_0. rewrite <- sqrt_div by lra. rewrite <- E. apply sqrt_square. lra. Qed.

(** ** C46 *)
(** Poisson and GOE: density on [0, infinity) of total mass one and mean one; nnsd_cdf is its distribution function. *)
Theorem C46_laws (e : ensemble) : e = Poisson \/ e = GOE ->
  Density (nnsd_at e) /\ MeanOne (nnsd_at e) /\ Distribution (nnsd_cdf_at e) /\ (forall s, 0 < s -> is_derive (nnsd_cdf_at e) s (nnsd_at e s)).
Proof.
  pose proof PI_RGT_0 as HP. assert (HP4 : 0 < PI / 4) by lra. intros [-> | ->].
  - split; [|split; [|split]].
    + split; [intros; apply Rlt_le, exp_pos|]. apply exp_half.
    + apply s_exp_half.
    + split; [intros s Hs; unfold nnsd_cdf_at; rewrite Rmax_right by exact Hs; rewrite Ropp_0, exp_0; ring|]. split; [|split].
      * intros s t Hst. unfold nnsd_cdf_at. assert (Rmax s 0 <= Rmax t 0) by (apply Rmax_lub; [eapply Rle_trans; [exact Hst|apply Rmax_l]|apply Rmax_r]).
        assert (exp (- Rmax t 0) <= exp (- Rmax s 0)) by (destruct (Req_dec (Rmax s 0) (Rmax t 0)) as [E|E]; [rewrite E; lra|left; apply exp_increasing; lra]). lra.
      * intros s. unfold nnsd_cdf_at. pose proof (Rmax_r s 0). pose proof (exp_pos (- Rmax s 0)). assert (exp (- Rmax s 0) <= 1); [|lra]. rewrite <- exp_0. destruct (Req_dec (Rmax s 0) 0) as [E|E]; [rewrite E, Ropp_0; lra|left; apply exp_increasing; lra].
      * apply (is_lim_ext_loc (fun s => 1 - exp (- s))); [exists 0; intros s Hs; unfold nnsd_cdf_at; rewrite Rmax_left by lra; reflexivity|].
        replace (Finite 1) with (Finite (1 - 0)) by (f_equal; ring). apply is_lim_minus'; [apply is_lim_const|apply exp_neg_lim].
    + intros s Hs. apply (is_derive_ext_loc (fun s => 1 - exp (- s))).
      * exists (mkposreal s Hs). intros t Ht. unfold ball in Ht; cbn in Ht. unfold AbsRing_ball in Ht; cbn in Ht. unfold minus, plus, opp, abs in Ht; cbn in Ht. apply Rabs_def2 in Ht. unfold nnsd_cdf_at. rewrite Rmax_left by lra. reflexivity.
      * unfold nnsd_at. auto_derive; [exact I|]. ring.
  - split; [|split; [|split]].
    + split; [intros s Hs; rewrite goe_form; apply Rmult_le_pos; [lra|apply Rmult_le_pos; [apply pow_le; exact Hs|apply Rlt_le, exp_pos]]|].
      apply (halfline_scal _ _ (PI / 2) _ 1 (mom1 (PI / 4) HP4)); [intros; apply goe_form|field; lra].
    + apply (halfline_scal _ _ (PI / 2) _ 1 (mom2 (PI / 4) HP4)); [intros s _; rewrite goe_form; ring|].
      replace (sqrt PI / 2 / sqrt (PI / 4)) with (sqrt PI / sqrt (PI / 4) / 2) by (field; apply Rgt_not_eq, sqrt_lt_R0; lra). rewrite (sqrt_quot (PI / 4) 2) by (try lra; field; lra). field. lra.
    + assert (Form : forall s, 0 <= s -> nnsd_cdf_at GOE s = 1 - ee (PI / 4) s).
      { intros s Hs. unfold nnsd_cdf_at, ee. rewrite Rmax_left by exact Hs. f_equal. f_equal. field. }
      split; [intros s Hs; unfold nnsd_cdf_at; rewrite Rmax_right by exact Hs; rewrite Rmult_0_r, exp_0; ring|]. split; [|split].
      * intros s t Hst. unfold nnsd_cdf_at. assert (H0 : 0 <= Rmax s 0) by apply Rmax_r. assert (Rmax s 0 <= Rmax t 0) by (apply Rmax_lub; [eapply Rle_trans; [exact Hst|apply Rmax_l]|apply Rmax_r]).
        set (x := Rmax s 0) in *. set (y := Rmax t 0) in *. assert (x * x <= y * y) by (apply Rmult_le_compat; assumption).
        assert (PI / 4 * (x * x) <= PI / 4 * (y * y)) by (apply Rmult_le_compat_l; lra).
        assert (exp (- PI / 4 * y * y) <= exp (- PI / 4 * x * x)); [|lra]. destruct (Req_dec (- PI / 4 * y * y) (- PI / 4 * x * x)) as [E|E]; [rewrite E; lra|left; apply exp_increasing; lra].
      * intros s. unfold nnsd_cdf_at. pose proof (Rle_0_sqr (Rmax s 0)) as Q. unfold Rsqr in Q. set (x := Rmax s 0) in *. assert (0 <= PI / 4 * (x * x)) by (apply Rmult_le_pos; lra).
        pose proof (exp_pos (- PI / 4 * x * x)). assert (exp (- PI / 4 * x * x) <= 1); [|lra]. rewrite <- exp_0. destruct (Req_dec (- PI / 4 * x * x) 0) as [E|E]; [rewrite E; lra|left; apply exp_increasing; lra].
      * apply (is_lim_ext_loc (fun s => 1 - s ^ 0 * ee (PI / 4) s)); [exists 0; intros s Hs; rewrite Form by lra; cbn [pow]; ring|].
        replace (Finite 1) with (Finite (1 - 0)) by (f_equal; ring). apply is_lim_minus'; [apply is_lim_const|now apply ee_lim].
    + intros s Hs. apply (is_derive_ext_loc (fun s => 1 - ee (PI / 4) s)).
      * exists (mkposreal s Hs). intros t Ht. unfold ball in Ht; cbn in Ht. unfold AbsRing_ball in Ht; cbn in Ht. unfold minus, plus, opp, abs in Ht; cbn in Ht. apply Rabs_def2 in Ht.
        unfold nnsd_cdf_at, ee. rewrite Rmax_left by lra. f_equal. f_equal. field.
      * rewrite goe_form. unfold ee. auto_derive; [exact I|]. field.
Qed.
Print Assumptions C46_laws.
(** nnsd does not clip its argument as nnsd_cdf does: below zero GOE's "density" is negative and Poisson's exceeds one. *)
Theorem C46_negative_refuted (s : R) : s < 0 -> nnsd_at GOE s < 0 /\ 1 < nnsd_at Poisson s.
Proof.
  intros Hs. pose proof PI_RGT_0. split.
  - unfold nnsd_at. assert (PI * s < 0) by (rewrite <- (Rmult_0_r PI); apply Rmult_lt_compat_l; lra). pose proof (exp_pos (- (PI / 4) * s * s)) as Q.
    replace 0 with (0 * exp (- (PI / 4) * s * s)) by ring. apply Rmult_lt_compat_r; [exact Q|lra].
  - unfold nnsd_at. rewrite <- exp_0. apply exp_increasing. lra.
Qed.
Print Assumptions C46_negative_refuted.
(** The list-valued method: at every spacing it was given, nnsd_cdf returns the integral of the density from 0 to there (0 below
    zero); without spacings it does so on n evenly spaced points; GUE and GSE have no such method. *)
Theorem C46_sampled (e : ensemble) lo hi n (s : list R) : e = Poisson \/ e = GOE ->
  (exists ys, nnsd_cdf e lo hi n (Some s) = Ok ys /\
     Forall2 (fun x y => (x <= 0 -> y = 0) /\ (0 <= x -> is_RInt (nnsd_at e) 0 x y)) s ys) /\
  ((2 <= n)%nat -> nnsd_cdf e lo hi n None = nnsd_cdf e lo hi n (Some (EvenGrid lo hi n))) /\
  (forall sp, nnsd_cdf GUE lo hi n sp = Raise AttributeError /\ nnsd_cdf GSE lo hi n sp = Raise AttributeError).
Proof.
  intro He. split; [|split; [|intro sp; split; reflexivity]].
  - exists (map (nnsd_cdf_at e) s). split; [destruct He as [-> | ->]; reflexivity|]. induction s as [|x s IH]; [constructor|]. cbn [map]. constructor; [|exact IH]. clear IH. split.
    + intro Hx. unfold nnsd_cdf_at. rewrite Rmax_right by exact Hx. destruct He as [-> | ->]; [rewrite Ropp_0, exp_0|rewrite Rmult_0_r, exp_0]; ring.
    + intro Hx. unfold nnsd_cdf_at. rewrite Rmax_left by exact Hx. destruct He as [-> | ->].
      * replace (1 - exp (- x)) with ((1 - exp (- x)) - (1 - exp (- 0))) by (rewrite Ropp_0, exp_0; ring).
        apply (is_RInt_derive (V := R_CompleteNormedModule) (fun s => 1 - exp (- s))); intros t _; [unfold nnsd_at; auto_derive; [exact I|ring]|].
        apply (ex_derive_continuous (nnsd_at Poisson)). unfold nnsd_at. auto_derive. exact I.
      * replace (1 - exp (- PI / 4 * x * x)) with ((1 - exp (- PI / 4 * x * x)) - (1 - exp (- PI / 4 * 0 * 0))) by (rewrite Rmult_0_r, exp_0; ring).
        apply (is_RInt_derive (V := R_CompleteNormedModule) (fun s => 1 - exp (- PI / 4 * s * s))); intros t _.
        { unfold nnsd_at. replace (- (PI / 4) * t * t) with (- PI / 4 * t * t) by field. auto_derive; [exact I|field]. }
        apply (ex_derive_continuous (nnsd_at GOE)). unfold nnsd_at. auto_derive. exact I.
  - intro Hn. unfold nnsd_cdf, nnsd_grid. destruct He as [-> | ->]; now rewrite linspace_even by exact Hn.
Qed.
Print Assumptions C46_sampled.
Example C46_ex : nnsd_cdf_at Poisson 0 = 0 /\ nnsd_at Poisson 0 = 1 /\ nnsd Poisson 0 1 2 (Some [0]) = [1] /\ nnsd_cdf Poisson 0 1 2 (Some [-5]) = Ok [0] /\ nnsd_at GOE (-1) < 0.
Proof.
  assert (E : forall s, s <= 0 -> nnsd_cdf_at Poisson s = 0) by (intros s Hs; unfold nnsd_cdf_at; rewrite Rmax_right by exact Hs; rewrite Ropp_0, exp_0; ring).
  assert (E1 : nnsd_at Poisson 0 = 1) by (unfold nnsd_at; rewrite Ropp_0; apply exp_0). split; [apply E; lra|]. split; [exact E1|]. split; [unfold nnsd; cbn [nnsd_grid map]; now rewrite E1|].
  split; [unfold nnsd_cdf; cbn [nnsd_grid map]; rewrite E by lra; reflexivity|]. apply C46_negative_refuted. lra.
Qed.

(** ** C47 *)
(** GUE and GSE densities: non-negative for every real s, total mass one, and mean one. *)
Theorem C47_densities (e : ensemble) : e = GUE \/ e = GSE -> (forall s, 0 <= nnsd_at e s) /\ HalfLine (nnsd_at e) 1 /\ MeanOne (nnsd_at e).
Proof.
  pose proof PI_RGT_0 as HP. assert (H1 : 0 < 4 / PI) by (apply Rdiv_lt_0_compat; lra). assert (H2 : 0 < 64 / (9 * PI)) by (apply Rdiv_lt_0_compat; lra).
  assert (P3 : 0 < PI ^ 3) by (apply pow_lt; exact HP). assert (P2 : 0 < PI ^ 2) by (apply pow_lt; exact HP). intros [-> | ->].
  - split; [|split].
    + intros s. rewrite gue_form. apply Rmult_le_pos; [apply Rlt_le, Rdiv_lt_0_compat; lra|]. apply Rmult_le_pos; [apply pow2_ge_0|apply Rlt_le, exp_pos].
    + apply (halfline_scal _ _ (32 / PI ^ 2) _ 1 (mom2 (4 / PI) H1)); [intros; apply gue_form|].
      replace (sqrt PI / 2 / sqrt (4 / PI)) with (sqrt PI / sqrt (4 / PI) / 2) by (field; apply Rgt_not_eq, sqrt_lt_R0; lra). rewrite (sqrt_quot (4 / PI) (PI / 2)) by (try lra; field; lra). field. lra.
    + apply (halfline_scal _ _ (32 / PI ^ 2) _ 1 (mom3 (4 / PI) H1)); [intros s _; rewrite gue_form; ring|field; lra].
  - split; [|split].
    + intros s. rewrite gse_form. apply Rmult_le_pos; [apply Rlt_le, Rdiv_lt_0_compat; lra|]. apply Rmult_le_pos; [|apply Rlt_le, exp_pos]. replace (s ^ 4) with ((s * s) ^ 2) by ring. apply pow2_ge_0.
    + apply (halfline_scal _ _ (262144 / (729 * PI ^ 3)) _ 1 (mom4 (64 / (9 * PI)) H2)); [intros; apply gse_form|].
      replace (sqrt PI / 2 / sqrt (64 / (9 * PI))) with (sqrt PI / sqrt (64 / (9 * PI)) / 2) by (field; apply Rgt_not_eq, sqrt_lt_R0; lra). rewrite (sqrt_quot (64 / (9 * PI)) (3 * PI / 8)) by (try lra; field; lra). field. lra.
    + apply (halfline_scal _ _ (262144 / (729 * PI ^ 3)) _ 1 (mom5 (64 / (9 * PI)) H2)); [intros s _; rewrite gse_form; ring|field; lra].
Qed.
Print Assumptions C47_densities.
Example C47_ex : nnsd GUE 0 1 2 (Some [0]) = [0] /\ 0 < nnsd_at GSE 1.
Proof. pose proof PI_RGT_0. split; [unfold nnsd; cbn [nnsd_grid map]; f_equal; rewrite gue_form; ring|]. rewrite gse_form. apply Rmult_lt_0_compat; [apply Rdiv_lt_0_compat; [lra|]; assert (0 < PI ^ 3) by (apply pow_lt; lra); lra|]. rewrite pow1, Rmult_1_l. apply exp_pos. Qed.

(** ** C48 *)
Lemma nnnsd_formula s : goe_nnnsd_at s = nnsd_at GSE s.
Proof. unfold goe_nnnsd_at, nnsd_at. pose proof PI_RGT_0. field. lra. Qed.
(** At explicit spacings GOE.nnnsd is the GSE nearest-neighbour formula, a density with mean one. *)
Theorem C48_explicit gamma lo hi n lo' hi' n' (s : list R) : nnnsd gamma GOE lo hi n (Some s) = Ok (nnsd GSE lo' hi' n' (Some s)).
Proof. unfold nnnsd, nnsd. cbn [nnsd_grid]. f_equal. apply map_ext. intros x. apply nnnsd_formula. Qed.
Print Assumptions C48_explicit.
(** On the default grid the i-th value belongs to half the i-th grid point; as a function of the grid point that curve has total mass two. *)
Theorem C48_default gamma lo hi n : (2 <= n)%nat -> exists f,
  nnnsd gamma GOE lo hi n None = Ok (map f (EvenGrid lo hi n)) /\ (forall x, f x = nnsd_at GSE (x / 2)) /\ HalfLine f 2.
Proof.
  intros Hn. exists (fun x => nnsd_at GSE (x / 2)). split; [|split; [reflexivity|]].
  - unfold nnnsd. rewrite linspace_even by exact Hn. f_equal. rewrite map_map. apply map_ext. intros x. apply nnnsd_formula.
  - destruct (C47_densities GSE (or_intror eq_refl)) as (_ & H & _). apply (halfline_scale _ _ (/ 2) 1 2 ltac:(lra) H); [intros s _; f_equal; field|field].
Qed.
Print Assumptions C48_default.
Example C48_ex gamma : nnnsd gamma GOE 0 1 2 (Some [0]) = Ok [0] /\ nnnsd gamma GOE 0 4 3 None = Ok [nnsd_at GSE 0; nnsd_at GSE 1; nnsd_at GSE 2].
Proof.
  split. { unfold nnnsd. cbn [map]. f_equal. f_equal. rewrite nnnsd_formula, gse_form. ring. }
  destruct (C48_default gamma 0 4 3 ltac:(lia)) as (f & -> & Hf & _). unfold EvenGrid. cbn [seq map INR]. rewrite !Hf. repeat f_equal; field.
Qed.

(** ** C49 *)
Theorem C49_poisson eg a b n (L : list R) : spectral_rigidity eg Poisson a b n (Some L) = map (fun x => x / 15) L /\ level_variance eg Poisson a b n (Some L) = L.
Proof. split; [reflexivity|]. unfold level_variance. cbn [L_grid]. rewrite <- (map_id L) at 2. reflexivity. Qed.
Print Assumptions C49_poisson.
(** Level variance is twice the rigidity plus a constant, for all three Gaussian ensembles. *)
Theorem C49_relation eg (L : R) : 0 < L -> levelvar_at eg GOE L = 2 * rigidity_at eg GOE L + 9 / (2 * PI ^ 2) /\
  levelvar_at eg GUE L = 2 * rigidity_at eg GUE L + 9 / (4 * PI ^ 2) /\ levelvar_at eg GSE L = 2 * rigidity_at eg GSE L + 9 / (8 * PI ^ 2).
Proof. intros _. pose proof PI_RGT_0. unfold levelvar_at, rigidity_at. repeat split; field; lra. Qed.
Print Assumptions C49_relation.
Lemma ln_part (k c d x y : R) : 0 < k -> 0 < c -> 0 < x -> x < y -> k * (ln (c * x) + d) < k * (ln (c * y) + d).
Proof. intros Hk Hc Hx Hxy. apply Rmult_lt_compat_l; [exact Hk|]. assert (ln (c * x) < ln (c * y)); [|lra]. apply ln_increasing; [now apply Rmult_lt_0_compat|now apply Rmult_lt_compat_l]. Qed.
Theorem C49_increasing eg (e : ensemble) (x y : R) : 0 < x -> x < y -> rigidity_at eg e x < rigidity_at eg e y /\ levelvar_at eg e x < levelvar_at eg e y.
Proof.
  intros Hx Hxy. pose proof PI_RGT_0 as HP. assert (P2 : 0 < PI ^ 2) by (apply pow_lt; exact HP).
  assert (G : forall k c d, 0 < k -> 0 < c -> k * (ln (c * PI * x) + d) < k * (ln (c * PI * y) + d)). { intros. apply ln_part; auto. apply Rmult_lt_0_compat; assumption. }
  assert (K : forall a b, 0 < a -> 0 < b -> 0 < a / (b * PI ^ 2)). { intros. apply Rdiv_lt_0_compat; [assumption|]. apply Rmult_lt_0_compat; assumption. }
  assert (K1 : forall a, 0 < a -> 0 < a / PI ^ 2). { intros. apply Rdiv_lt_0_compat; assumption. }
  destruct e; unfold rigidity_at, levelvar_at; split; try lra; unfold Rminus; rewrite !(Rplus_assoc (ln _)); apply G; try lra; try apply K; try apply K1; lra.
Qed.
Print Assumptions C49_increasing.
(** Without [L], the curves are those at [size] evenly spaced points, the first [lo] and the last [hi]. *)
Theorem C49_default_grid eg (e : ensemble) lo hi n a b m : (2 <= n)%nat ->
  spectral_rigidity eg e lo hi n None = spectral_rigidity eg e a b m (Some (EvenGrid lo hi n)) /\
  level_variance eg e lo hi n None = level_variance eg e a b m (Some (EvenGrid lo hi n)) /\
  length (spectral_rigidity eg e lo hi n None) = n /\ length (level_variance eg e lo hi n None) = n.
Proof.
  intros Hn. unfold spectral_rigidity, level_variance. cbn [L_grid]. rewrite linspace_even by exact Hn.
  rewrite !map_length, even_length. auto.
Qed.
Print Assumptions C49_default_grid.
Example C49_grid_ex : level_variance 0 Poisson 1 3 3 None = [1; 2; 3].
Proof.
  rewrite (proj1 (proj2 (C49_default_grid 0 Poisson 1 3 3 0 0 0%nat ltac:(lia)))). unfold level_variance, EvenGrid.
  cbn [L_grid seq map levelvar_at INR]. repeat f_equal; field.
Qed.
Example C49_ex : spectral_rigidity 0 Poisson 0 1 2 (Some [15; 30]) = [1; 2] /\ rigidity_at 0 GOE 1 < rigidity_at 0 GOE 2.
Proof. split; [unfold spectral_rigidity; cbn [L_grid map rigidity_at]; repeat f_equal; field|]. apply C49_increasing; lra. Qed.

(** ** C50 *)
(** Poisson and GOE evaluate the density at n evenly spaced points from lo to hi. *)
Theorem C50_points (e : ensemble) lo hi n : e = Poisson \/ e = GOE -> (2 <= n)%nat ->
  nnsd e lo hi n None = map (nnsd_at e) (EvenGrid lo hi n) /\ length (nnsd e lo hi n None) = n /\
  nth 0 (EvenGrid lo hi n) 0 = lo /\ nth (n - 1) (EvenGrid lo hi n) 0 = hi.
Proof.
  intros He Hn. assert (E : nnsd e lo hi n None = map (nnsd_at e) (EvenGrid lo hi n)). { unfold nnsd, nnsd_grid. destruct He as [-> | ->]; now rewrite linspace_even by exact Hn. }
  split; [exact E|]. split; [rewrite E, map_length; apply even_length|]. unfold EvenGrid.
  assert (G : forall i, (i < n)%nat -> nth i (map (fun i => lo + INR i * ((hi - lo) / (INR n - 1))) (seq 0 n)) 0 = lo + INR i * ((hi - lo) / (INR n - 1))).
  { intros i Hi. rewrite (nth_indep _ 0 ((fun i => lo + INR i * ((hi - lo) / (INR n - 1))) 0%nat)) by (rewrite map_length, seq_length; lia).
    rewrite (map_nth (fun i => lo + INR i * ((hi - lo) / (INR n - 1)))). now rewrite seq_nth. }
  split; rewrite G by lia; [cbn [INR]; ring|]. assert (2 <= INR n) by (replace 2 with (INR 2) by (cbn; ring); now apply le_INR). rewrite minus_INR by lia. cbn [INR]. field. lra.
Qed.
Print Assumptions C50_points.
(** GUE and GSE return 10000 values whatever [n_points] is, and all of GSE's are the density at the lower end. *)
Theorem C50_points_refuted (e : ensemble) lo hi n : e = GUE \/ e = GSE ->
  Z.of_nat (length (nnsd e lo hi n None)) = 10000%Z /\ (Z.of_nat n <> 10000%Z -> length (nnsd e lo hi n None) <> n) /\
  (e = GSE -> nnsd e lo hi n None = repeat (nnsd_at GSE lo) (Z.to_nat 10000)).
Proof.
  intros He. assert (E : Z.of_nat (length (nnsd e lo hi n None)) = 10000%Z).
  { unfold nnsd. rewrite map_length. unfold nnsd_grid. destruct He as [-> | ->]; rewrite linspace_length, Z2Nat.id by lia; reflexivity. }
  split; [exact E|]. split; [intros H1 H2; rewrite H2 in E; congruence|]. intros ->. unfold nnsd, nnsd_grid.
  assert (H2 : (2 <= Z.to_nat 10000)%nat). { change 2%nat with (Z.to_nat 2). apply Z2Nat.inj_le; lia. } generalize dependent (Z.to_nat 10000). intros k H2.
  rewrite linspace_even by exact H2. unfold EvenGrid. rewrite map_map. generalize (seq_length k 0). generalize (seq 0 k) as l. intros l Hl. subst k. clear.
  induction l as [|i l IH]; [reflexivity|]. cbn [List.length map repeat]. f_equal; [f_equal; unfold Rdiv; ring|]. rewrite <- IH. apply map_ext. intros j. f_equal. unfold Rdiv. ring.
Qed.
Print Assumptions C50_points_refuted.
Example C50_ex : nnsd Poisson 0 2 3 None = [exp (-0); exp (-1); exp (-2)] /\ Z.of_nat (length (nnsd GUE 0 3 7 None)) = 10000%Z.
Proof.
  split; [|apply C50_points_refuted; now left]. destruct (C50_points Poisson 0 2 3 (or_introl eq_refl) ltac:(lia)) as (-> & _). unfold EvenGrid. cbn [seq map INR nnsd_at]. repeat f_equal; field.
Qed.
