(** Gaussian integrals behind the spacing laws of matrices of order two. *)
From Coq Require Import List ZArith Bool Arith Lia Reals Lra.
From Coquelicot Require Import Coquelicot.
From Verif Require Import S_Normal P_Gauss.
Import ListNotations.
Local Open Scope R_scope.
Notation phi := normal_density.

Lemma sqrt2_pos : 0 < sqrt 2. Proof. apply sqrt_lt_R0. lra. Qed.
Lemma sqrt2_sq : sqrt 2 * sqrt 2 = 2. Proof. apply sqrt_sqrt. lra. Qed.
Lemma sqrt2pi_pos : 0 < sqrt (2 * PI). Proof. pose proof PI_RGT_0. apply sqrt_lt_R0. lra. Qed.
Lemma sqrtpi_pos : 0 < sqrt PI. Proof. apply sqrt_lt_R0, PI_RGT_0. Qed.
Lemma sqrt2pi_eq : sqrt (2 * PI) = sqrt 2 * sqrt PI. Proof. pose proof PI_RGT_0. apply sqrt_mult; lra. Qed.
Lemma sqrtpi_sq : sqrt PI * sqrt PI = PI. Proof. pose proof PI_RGT_0. apply sqrt_sqrt; lra. Qed.

Lemma phi_even x : phi (- x) = phi x.
Proof. unfold normal_density. now replace (- x * - x) with (x * x) by ring. Qed.
Lemma phi_derive x : is_derive phi x (- x * phi x).
Proof.
  unfold normal_density. pose proof sqrt2pi_pos as H. set (q := sqrt (2 * PI)) in *. clearbody q. auto_derive; [exact I|].
  replace (- (x * x) * / 2) with (- (x * x) / 2) by reflexivity. field. lra.
Qed.
Lemma phi_cont x : continuous phi x.
Proof. apply (ex_derive_continuous (V := R_NormedModule)). eexists. apply phi_derive. Qed.
Lemma phi_int a b : ex_RInt phi a b.
Proof. apply (ex_RInt_continuous (V := R_CompleteNormedModule)). intros. apply phi_cont. Qed.
Lemma phi_pos x : 0 < phi x.
Proof. unfold normal_density. apply Rmult_lt_0_compat; [apply exp_pos|apply Rinv_0_lt_compat, sqrt2pi_pos]. Qed.
Lemma phi_le1 x : phi x <= 1.
Proof.
  unfold normal_density. assert (exp (- (x * x) / 2) <= 1) as H.
  { rewrite <- exp_0. destruct (Req_dec x 0) as [->|]; [right; f_equal; lra|]. apply Rlt_le, exp_increasing. nra. }
  assert (1 <= sqrt (2 * PI)) as H1. { rewrite <- sqrt_1. apply sqrt_le_1; pose proof PI2_3_2; lra. }
  apply Rmult_le_reg_r with (sqrt (2 * PI)); [lra|]. unfold Rdiv. rewrite Rmult_assoc, Rinv_l by lra. lra.
Qed.

(** The primitive of the density. *)
Definition Aint (x : R) : R := RInt phi 0 x.
Lemma Aint_derive x : is_derive Aint x (phi x).
Proof.
  apply (is_derive_RInt (V := R_CompleteNormedModule) phi Aint 0).
  - exists (mkposreal 1 Rlt_0_1). intros y _. apply (RInt_correct (V := R_CompleteNormedModule)), phi_int.
  - apply phi_cont.
Qed.
Lemma Aint_0 : Aint 0 = 0. Proof. apply (RInt_point (V := R_CompleteNormedModule)). Qed.
Lemma Aint_diff a b : RInt phi a b = Aint b - Aint a.
Proof.
  unfold Aint. rewrite <- (RInt_Chasles phi 0 a b) by apply phi_int. unfold plus. cbn. lra.
Qed.
Lemma Aint_odd x : Aint (- x) = - Aint x.
Proof.
  unfold Aint. apply (is_RInt_unique (V := R_CompleteNormedModule)).
  apply (is_RInt_ext (fun y => opp (opp (phi (- y))))).
  - intros y _. rewrite opp_opp. apply phi_even.
  - apply (is_RInt_opp (V := R_NormedModule)). apply (is_RInt_comp_opp (V := R_NormedModule)). rewrite Ropp_0, Ropp_involutive.
    apply (RInt_correct (V := R_CompleteNormedModule)), phi_int.
Qed.
Lemma phi_sym z : RInt phi (- z) z = 2 * Aint z.
Proof. rewrite Aint_diff, Aint_odd. lra. Qed.
Lemma Aint_mono x y : x <= y -> Aint x <= Aint y.
Proof.
  intro H. pose proof (Aint_diff x y). assert (0 <= RInt phi x y) by (apply RInt_ge_0; [exact H|apply phi_int|intros; apply Rlt_le, phi_pos]). lra.
Qed.

(** ** The integral over a disk *)
Definition dint (r : R) : R := RInt (fun t => r * cos t * phi (r * sin t) * (2 * Aint (r * cos t))) (- (PI / 2)) (PI / 2).
Definition ddint (r t : R) : R :=
  2 * (cos t * phi (r * sin t) * Aint (r * cos t) + r * cos t * (- (r * sin t) * phi (r * sin t) * sin t) * Aint (r * cos t)
       + r * cos t * phi (r * sin t) * (phi (r * cos t) * cos t)).
Lemma dint_inner r t : is_derive (fun r => r * cos t * phi (r * sin t) * (2 * Aint (r * cos t))) r (ddint r t).
Proof.
  assert (is_derive (fun r => phi (r * sin t)) r (sin t * (- (r * sin t) * phi (r * sin t)))) as H1.
  { apply (is_derive_comp phi (fun r => r * sin t)); [apply phi_derive|]. auto_derive; [exact I|ring]. }
  assert (is_derive (fun r => Aint (r * cos t)) r (cos t * phi (r * cos t))) as H2.
  { apply (is_derive_comp Aint (fun r => r * cos t)); [apply Aint_derive|]. auto_derive; [exact I|ring]. }
  evar_last; [apply (is_derive_mult (fun r => r * cos t * phi (r * sin t)) (fun r => 2 * Aint (r * cos t)));
    [apply (is_derive_mult (fun r => r * cos t) (fun r => phi (r * sin t))); [auto_derive; [exact I|reflexivity]|exact H1|intros; apply Rmult_comm]
    |apply (is_derive_scal _ _ _ _ H2)|intros; apply Rmult_comm]|].
  unfold plus, mult, scal, ddint. cbn. unfold mult. cbn. ring.
Qed.
Lemma is_derive_cpt (f : R -> R) x l : is_derive f x l -> continuity_pt f x.
Proof. intro H. apply continuity_pt_filterlim. apply (ex_derive_continuous (V := R_NormedModule)). now exists l. Qed.
Ltac c2d := repeat first
  [ apply (continuity_1d_2d_pt_comp phi); [apply (is_derive_cpt _ _ _ (phi_derive _))|]
  | apply (continuity_1d_2d_pt_comp Aint); [apply (is_derive_cpt _ _ _ (Aint_derive _))|]
  | apply continuity_2d_pt_const | apply continuity_2d_pt_id1 | apply continuity_2d_pt_id2
  | apply continuity_2d_pt_plus | apply continuity_2d_pt_minus | apply continuity_2d_pt_mult | apply continuity_2d_pt_opp
  | apply (continuity_1d_2d_pt_comp cos (fun _ v => v)); [apply continuity_cos|]
  | apply (continuity_1d_2d_pt_comp sin (fun _ v => v)); [apply continuity_sin|] ].
Lemma ddint_cont2 r t : continuity_2d_pt ddint r t.
Proof. unfold ddint. c2d. Qed.
Lemma cont_of_2d (h : R -> R -> R) r t : continuity_2d_pt h r t -> continuous (h r) t.
Proof.
  intro H. apply continuity_2d_pt_filterlim in H. intros P HP. specialize (H P HP). unfold filtermap in *. destruct H as [e H]. exists e. intros y Hy.
  apply (H (r, y)). split; [apply ball_center|exact Hy].
Qed.
Lemma dint_int r : ex_RInt (fun t => r * cos t * phi (r * sin t) * (2 * Aint (r * cos t))) (- (PI / 2)) (PI / 2).
Proof.
  apply (ex_RInt_continuous (V := R_CompleteNormedModule)). intros t _.
  apply (cont_of_2d (fun r t => r * cos t * phi (r * sin t) * (2 * Aint (r * cos t)))). c2d.
Qed.
Lemma dint_derive r : is_derive dint r (r * exp (- (r * r) / 2)).
Proof.
  assert (RInt (fun t => Derive (fun u => u * cos t * phi (u * sin t) * (2 * Aint (u * cos t))) r) (- (PI / 2)) (PI / 2) = r * exp (- (r * r) / 2)) as E.
  { rewrite (RInt_ext _ (fun t => ddint r t)) by (intros t _; apply is_derive_unique, dint_inner).
    apply (is_RInt_unique (V := R_CompleteNormedModule)).
    set (G := fun t => 2 * (phi (r * sin t) * sin t * Aint (r * cos t)) + r * exp (- (r * r) / 2) * (t / PI)).
    pose proof PI_RGT_0 as HP.
    replace (r * exp (- (r * r) / 2)) with (G (PI / 2) - G (- (PI / 2))).
    2:{ unfold G. rewrite cos_neg, cos_PI2, Rmult_0_r, Aint_0. field. lra. }
    apply (is_RInt_derive (V := R_CompleteNormedModule) G).
    - intros t _. unfold G.
      assert (is_derive (fun t => phi (r * sin t)) t (r * cos t * (- (r * sin t) * phi (r * sin t)))) as H1.
      { apply (is_derive_comp phi (fun t => r * sin t)); [apply phi_derive|]. auto_derive; [exact I|ring]. }
      assert (is_derive (fun t => Aint (r * cos t)) t (- (r * sin t) * phi (r * cos t))) as H2.
      { apply (is_derive_comp Aint (fun t => r * cos t)); [apply Aint_derive|]. auto_derive; [exact I|ring]. }
      evar_last; [apply (is_derive_plus (V := R_NormedModule)); [apply (is_derive_scal (fun t => phi (r * sin t) * sin t * Aint (r * cos t)) t 2);
        apply (is_derive_mult (fun t => phi (r * sin t) * sin t)); [apply (is_derive_mult (fun t => phi (r * sin t)) sin); [exact H1|apply is_derive_sin|exact Rmult_comm]|exact H2|exact Rmult_comm]
        |auto_derive; [exact I|reflexivity]]|].
      unfold plus, mult, ddint. cbn. unfold mult. cbn.
      assert (exp (- (r * r) / 2) = 2 * PI * (phi (r * sin t) * phi (r * cos t))) as Ep.
      { unfold normal_density. pose proof sqrt2pi_pos. pose proof (sqrt_sqrt (2 * PI) ltac:(lra)) as Hq.
        replace (- (r * r) / 2) with (- (r * sin t * (r * sin t)) / 2 + - (r * cos t * (r * cos t)) / 2).
        2:{ pose proof (sin2_cos2 t) as Hs. unfold Rsqr in Hs. replace (r * r) with (r * r * (sin t * sin t + cos t * cos t)) at 1 by (rewrite Hs; ring). lra. }
        rewrite exp_plus. rewrite <- Hq at 1. field. lra. }
      rewrite Ep. pose proof (sin2_cos2 t) as Hs. unfold Rsqr in Hs. set (p := phi (r * sin t)). set (p' := phi (r * cos t)). set (A := Aint (r * cos t)). clearbody p p' A.
      replace (r * (2 * PI * (p * p')) * (1 * / PI)) with (2 * r * (sin t * sin t + cos t * cos t) * (p * p')) by (rewrite Hs; field; lra). ring.
    - intros t _. apply (cont_of_2d ddint), ddint_cont2. }
  rewrite <- E. apply (is_derive_RInt_param (fun r t => r * cos t * phi (r * sin t) * (2 * Aint (r * cos t)))).
  - exists (mkposreal 1 Rlt_0_1). intros y _ t _. eexists. apply dint_inner.
  - intros t _. apply (continuity_2d_pt_ext ddint); [|apply ddint_cont2]. intros u v. symmetry. apply is_derive_unique, dint_inner.
  - exists (mkposreal 1 Rlt_0_1). intros y _. apply dint_int.
Qed.
Lemma dint_eq r : dint r = 1 - exp (- (r * r) / 2).
Proof.
  assert (is_RInt (fun r => r * exp (- (r * r) / 2)) 0 r (dint r - dint 0)) as H1.
  { apply (is_RInt_derive (V := R_CompleteNormedModule) dint); intros; [apply dint_derive|].
    apply (ex_derive_continuous (V := R_NormedModule)). auto_derive. exact I. }
  assert (is_RInt (fun r => r * exp (- (r * r) / 2)) 0 r (- exp (- (r * r) / 2) - - exp (- (0 * 0) / 2))) as H2.
  { apply (is_RInt_derive (V := R_CompleteNormedModule) (fun r => - exp (- (r * r) / 2))); intros.
    - auto_derive; [exact I|]. unfold Rdiv. field.
    - apply (ex_derive_continuous (V := R_NormedModule)). auto_derive. exact I. }
  pose proof (is_RInt_unique _ _ _ _ H1) as E1. pose proof (is_RInt_unique _ _ _ _ H2) as E2. rewrite E1 in E2.
  assert (dint 0 = 0) as E0.
  { unfold dint. rewrite (RInt_ext _ (fun _ => 0)) by (intros; now rewrite !Rmult_0_l). rewrite RInt_const. unfold scal. cbn. unfold mult. cbn. ring. }
  replace (- (0 * 0) / 2) with 0 in E2 by lra. rewrite exp_0 in E2. lra.
Qed.

(** The inner integral over a disk of radius r, at distance y from the centre. *)
Definition chord (r y : R) : R := 2 * Aint (sqrt (r * r - y * y)).
Lemma chord_cont r y : continuous (chord r) y.
Proof.
  unfold chord. apply (continuous_scal_r (V := R_NormedModule) 2 (fun y => Aint (sqrt (r * r - y * y)))).
  apply (continuous_comp (fun y => sqrt (r * r - y * y)) Aint).
  - apply continuous_sqrt_comp. apply (ex_derive_continuous (V := R_NormedModule)). auto_derive. exact I.
  - apply (ex_derive_continuous (V := R_NormedModule)). eexists. apply Aint_derive.
Qed.
Lemma disk r : 0 <= r -> is_RInt (fun y => phi y * chord r y) (- r) r (1 - exp (- (r * r) / 2)).
Proof.
  intro Hr.
  assert (forall y, continuous (fun y => phi y * chord r y) y) as HC by (intro y; apply (continuous_mult phi); [apply phi_cont|apply chord_cont]).
  pose proof (is_RInt_comp (V := R_CompleteNormedModule) (fun y => phi y * chord r y) (fun t => r * sin t) (fun t => r * cos t) (- (PI / 2)) (PI / 2)) as K.
  cbv beta in K. rewrite sin_neg, sin_PI2 in K. replace (r * - (1)) with (- r) in K by ring. rewrite Rmult_1_r in K.
  assert (RInt (fun y => phi y * chord r y) (- r) r = 1 - exp (- (r * r) / 2)) as <-.
  2:{ apply (RInt_correct (V := R_CompleteNormedModule)), (ex_RInt_continuous (V := R_CompleteNormedModule)). intros. apply HC. }
  rewrite <- dint_eq. symmetry. apply (is_RInt_unique (V := R_CompleteNormedModule)). pose proof PI_RGT_0.
  eapply is_RInt_ext; [|apply K].
  - intros t Ht. rewrite Rmin_left, Rmax_right in Ht by lra.
    change (r * cos t * (phi (r * sin t) * chord r (r * sin t)) = r * cos t * phi (r * sin t) * (2 * Aint (r * cos t))). unfold chord.
    assert (0 <= cos t) by (apply cos_ge_0; lra).
    replace (r * r - r * sin t * (r * sin t)) with (r * cos t * (r * cos t)).
    2:{ pose proof (sin2_cos2 t) as Hs. unfold Rsqr in Hs. transitivity (r * r * (cos t * cos t)); [ring|]. replace (cos t * cos t) with (1 - sin t * sin t) by lra. ring. }
    rewrite sqrt_square by nra. ring.
  - intros; apply HC.
  - intros t _. split; [auto_derive; [exact I|ring]|]. apply (ex_derive_continuous (V := R_NormedModule)). auto_derive. exact I.
Qed.

(** ** Integrals over the line *)
Lemma is_RInt_zero a b : is_RInt (fun _ : R => 0) a b 0.
Proof. evar_last; [apply (is_RInt_const (V := R_NormedModule))|]. unfold scal. cbn. unfold mult. cbn. ring. Qed.
Lemma whole_support (f : R -> R) p q v : p <= q -> (forall x, x < p -> f x = 0) -> (forall x, q < x -> f x = 0) -> is_RInt f p q v -> WholeLine f v.
Proof.
  intros Hpq H1 H2 HI.
  assert (forall a b, a <= p -> q <= b -> is_RInt f a b v) as HB.
  { intros a b Ha Hb. replace v with (plus (plus 0 v) 0) by (unfold plus; cbn; lra).
    apply (is_RInt_Chasles (V := R_NormedModule) _ _ q); [apply (is_RInt_Chasles (V := R_NormedModule) _ _ p); [|exact HI]|].
    - apply (is_RInt_ext (fun _ => 0)); [intros x Hx; rewrite Rmax_right in Hx by lra; rewrite H1; lra|]. apply is_RInt_zero.
    - apply (is_RInt_ext (fun _ => 0)); [intros x Hx; rewrite Rmin_left in Hx by lra; rewrite H2; lra|]. apply is_RInt_zero. }
  split.
  - intros a b. set (m := Rmin (Rmin a b) p). set (M := Rmax (Rmax a b) q).
    pose proof (Rmin_l (Rmin a b) p). pose proof (Rmin_r (Rmin a b) p). pose proof (Rmin_l a b). pose proof (Rmin_r a b).
    pose proof (Rmax_l (Rmax a b) q). pose proof (Rmax_r (Rmax a b) q). pose proof (Rmax_l a b). pose proof (Rmax_r a b).
    fold m in H, H0. fold M in H5, H6.
    assert (ex_RInt f m M) as HE by (eexists; apply HB; lra).
    assert (forall a b, m <= a -> a <= b -> b <= M -> ex_RInt f a b) as HE'.
    { intros x y G1 G2 G3. apply (ex_RInt_Chasles_1 (V := R_CompleteNormedModule) f x y M); [lra|]. apply (ex_RInt_Chasles_2 (V := R_CompleteNormedModule) f m x M); [lra|exact HE]. }
    destruct (Rle_dec a b); [apply HE'; lra|apply ex_RInt_swap, HE'; lra].
  - intros e He. exists (Rmax (- p) q). intros a b Ha Hb. pose proof (Rmax_l (- p) q). pose proof (Rmax_r (- p) q).
    rewrite (is_RInt_unique (V := R_CompleteNormedModule) f a b v) by (apply HB; lra). rewrite Rminus_eq_0, Rabs_R0. exact He.
Qed.
Lemma whole_ext (f g : R -> R) v : (forall x, f x = g x) -> WholeLine f v -> WholeLine g v.
Proof.
  intros E (H1 & H2). split.
  - intros a b. apply (ex_RInt_ext f); [intros; apply E|apply H1].
  - intros e He. destruct (H2 e He) as [M HM]. exists M. intros a b Ha Hb. rewrite <- (RInt_ext f) by (intros; apply E). now apply HM.
Qed.
Lemma whole_opp (f : R -> R) v : WholeLine f v -> WholeLine (fun x => f (- x)) v.
Proof.
  intros (H1 & H2).
  assert (forall a b, is_RInt (fun x => f (- x)) a b (RInt f (- b) (- a))) as HI.
  { intros a b. apply (is_RInt_ext (fun x => opp (opp (f (- x))))); [intros; apply opp_opp|].
    rewrite <- opp_RInt_swap by apply H1. apply (is_RInt_opp (V := R_NormedModule)), (is_RInt_comp_opp (V := R_NormedModule)).
    apply (RInt_correct (V := R_CompleteNormedModule)), H1. }
  split; [intros a b; eexists; apply HI|]. intros e He. destruct (H2 e He) as [M HM]. exists M. intros a b Ha Hb.
  rewrite (is_RInt_unique (V := R_CompleteNormedModule) _ _ _ _ (HI a b)). apply HM; lra.
Qed.
Lemma gint_diff a b : RInt gg a b = gint b - gint a.
Proof. unfold gint. rewrite <- (RInt_Chasles gg 0 a b) by apply gg_int. unfold plus. cbn. lra. Qed.
Lemma gint_odd x : gint (- x) = - gint x.
Proof.
  unfold gint. apply (is_RInt_unique (V := R_CompleteNormedModule)). apply (is_RInt_ext (fun y => opp (opp (gg (- y))))).
  - intros y _. rewrite opp_opp. unfold gg. now replace (- y * - y) with (y * y) by ring.
  - apply (is_RInt_opp (V := R_NormedModule)). apply (is_RInt_comp_opp (V := R_NormedModule)). rewrite Ropp_0, Ropp_involutive.
    apply (RInt_correct (V := R_CompleteNormedModule)), gg_int.
Qed.
Lemma gint_near e : 0 < e -> exists M, 0 <= M /\ forall x, M <= x -> Rabs (gint x - sqrt PI / 2) < e.
Proof.
  intro He. pose proof gauss_lim as H. apply is_lim_spec in H. destruct (H (mkposreal e He)) as [M HM]. cbn in HM.
  exists (Rmax 0 (M + 1)). split; [apply Rmax_l|]. intros x Hx. apply HM. pose proof (Rmax_r 0 (M + 1)). lra.
Qed.

(** ** A function of the sum of two independent normal numbers *)
Section Mix.
Variable f : R -> R.
Variable r : R.
Hypothesis Hr : 0 <= r.
Hypothesis Hf : forall y, continuous f y.
Hypothesis Hf1 : forall y, - r <= y <= r -> Rabs (f y) <= 1.
Definition cut (y : R) : R := if Rle_dec (Rabs y) r then f y else 0.
(** The inner integral. *)
Definition inner (a : R) : R := RInt (fun y => sqrt 2 * phi (sqrt 2 * y - a) * f y) (- r) r.

Lemma mix_inner a : WholeLine (fun c => phi c * cut ((a + c) / sqrt 2)) (inner a).
Proof.
  pose proof sqrt2_pos as H2. pose proof sqrt2_sq as H22.
  assert (forall c y, c = sqrt 2 * y - a -> (a + c) / sqrt 2 = y) as HD by (intros c y ->; field; lra).
  assert (forall c, c = sqrt 2 * ((a + c) / sqrt 2) - a) as HC by (intro c; field; lra).
  apply (whole_support _ (- (sqrt 2 * r) - a) (sqrt 2 * r - a)).
  - nra.
  - intros c Hc. unfold cut. destruct (Rle_dec _ _) as [G|]; [|ring]. exfalso. apply Rabs_le_between in G. rewrite (HC c) in Hc. nra.
  - intros c Hc. unfold cut. destruct (Rle_dec _ _) as [G|]; [|ring]. exfalso. apply Rabs_le_between in G. rewrite (HC c) in Hc. nra.
  - pose proof (is_RInt_comp_lin (V := R_NormedModule) (fun y => sqrt 2 * phi (sqrt 2 * y - a) * f y) (/ sqrt 2) (a / sqrt 2) (- (sqrt 2 * r) - a) (sqrt 2 * r - a) (inner a)) as K.
    replace (/ sqrt 2 * (- (sqrt 2 * r) - a) + a / sqrt 2) with (- r) in K by (field; lra). replace (/ sqrt 2 * (sqrt 2 * r - a) + a / sqrt 2) with r in K by (field; lra).
    eapply is_RInt_ext; [|apply K].
    + intros c Hc. rewrite Rmin_left, Rmax_right in Hc by nra. unfold scal. cbn. unfold mult. cbn.
      replace (/ sqrt 2 * c + a / sqrt 2) with ((a + c) / sqrt 2) by (field; lra). rewrite <- (HC c). unfold cut. destruct (Rle_dec _ _) as [G|G]; [field; lra|].
      exfalso. apply G, Rabs_le_between. rewrite (HC c) in Hc. nra.
    + apply (RInt_correct (V := R_CompleteNormedModule)), (ex_RInt_continuous (V := R_CompleteNormedModule)). intros y _.
      apply (continuous_mult (fun y => sqrt 2 * phi (sqrt 2 * y - a))); [|apply Hf].
      apply (continuous_scal_r (V := R_NormedModule) (sqrt 2) (fun y => phi (sqrt 2 * y - a))). apply (continuous_comp (fun y => sqrt 2 * y - a) phi); [|apply phi_cont].
      apply (ex_derive_continuous (V := R_NormedModule)). auto_derive. exact I.
Qed.

Lemma square_done a y : phi a * (sqrt 2 * phi (sqrt 2 * y - a)) = phi y * (gg (a - y / sqrt 2) / sqrt PI).
Proof.
  unfold normal_density, gg. pose proof sqrt2_pos. pose proof sqrt2_sq as H22. pose proof sqrtpi_pos. rewrite sqrt2pi_eq.
  transitivity (exp (- (a * a) / 2 + - ((sqrt 2 * y - a) * (sqrt 2 * y - a)) / 2) / (sqrt 2 * sqrt PI * sqrt PI)); [rewrite exp_plus; field; lra|].
  transitivity (exp (- (y * y) / 2 + - ((a - y / sqrt 2) * (a - y / sqrt 2))) / (sqrt 2 * sqrt PI * sqrt PI)); [|rewrite exp_plus; field; lra].
  do 2 f_equal. set (i := y / sqrt 2). assert (y = sqrt 2 * i) as Ey by (unfold i; field; lra). clearbody i. rewrite Ey.
  replace (sqrt 2 * (sqrt 2 * i)) with (sqrt 2 * sqrt 2 * i) by ring. replace (sqrt 2 * i * (sqrt 2 * i)) with (sqrt 2 * sqrt 2 * i * i) by ring. rewrite H22. field.
Qed.
(** The outer integral up to [x], from [a]. *)
Definition mixg (x y : R) : R := phi y * f y * (gint (x - y / sqrt 2) / sqrt PI).
Definition dmixg (x y : R) : R := phi y * f y * (gg (x - y / sqrt 2) / sqrt PI).
Lemma mixg_derive x y : is_derive (fun x => mixg x y) x (dmixg x y).
Proof.
  unfold mixg, dmixg. apply (is_derive_scal (fun x => gint (x - y / sqrt 2) / sqrt PI)).
  apply (is_derive_ext (fun x => / sqrt PI * gint (x - y / sqrt 2))); [intro t; match goal with |- ?a = ?b => change (@eq R a b) end; unfold Rdiv; ring|].
  replace (gg (x - y / sqrt 2) / sqrt PI) with (/ sqrt PI * gg (x - y / sqrt 2)) by (unfold Rdiv; ring). apply is_derive_scal.
  evar_last; [apply (is_derive_comp gint (fun x => x - y / sqrt 2)); [apply gint_derive|auto_derive; [exact I|reflexivity]]|].
  unfold scal. cbn. unfold mult. cbn. ring.
Qed.
Lemma f_cont2 x y : continuity_2d_pt (fun _ v => f v) x y.
Proof. apply (continuity_1d_2d_pt_comp f (fun _ v => v)); [apply continuity_pt_filterlim, Hf|apply continuity_2d_pt_id2]. Qed.
Lemma lin_cont2 x y : continuity_2d_pt (fun u v => u - v / sqrt 2) x y.
Proof. apply continuity_2d_pt_minus; [apply continuity_2d_pt_id1|]. apply (continuity_2d_pt_mult (fun _ v => v) (fun _ _ => / sqrt 2)); [apply continuity_2d_pt_id2|apply continuity_2d_pt_const]. Qed.
Lemma phi_cont2 x y : continuity_2d_pt (fun _ v => phi v) x y.
Proof. apply (continuity_1d_2d_pt_comp phi (fun _ v => v)); [apply (is_derive_cpt _ _ _ (phi_derive _))|apply continuity_2d_pt_id2]. Qed.
Lemma mixg_cont2 x y : continuity_2d_pt mixg x y.
Proof.
  apply (continuity_2d_pt_mult (fun _ v => phi v * f v)); [apply (continuity_2d_pt_mult (fun _ v => phi v) (fun _ v => f v)); [apply phi_cont2|apply f_cont2]|].
  apply (continuity_2d_pt_mult (fun u v => gint (u - v / sqrt 2)) (fun _ _ => / sqrt PI)); [|apply continuity_2d_pt_const].
  apply (continuity_1d_2d_pt_comp gint (fun u v => u - v / sqrt 2)); [apply (is_derive_cpt _ _ _ (gint_derive _))|apply lin_cont2].
Qed.
Lemma dmixg_cont2 x y : continuity_2d_pt dmixg x y.
Proof.
  apply (continuity_2d_pt_mult (fun _ v => phi v * f v)); [apply (continuity_2d_pt_mult (fun _ v => phi v) (fun _ v => f v)); [apply phi_cont2|apply f_cont2]|].
  apply (continuity_2d_pt_mult (fun u v => gg (u - v / sqrt 2)) (fun _ _ => / sqrt PI)); [|apply continuity_2d_pt_const].
  apply (continuity_1d_2d_pt_comp gg (fun u v => u - v / sqrt 2)); [apply continuity_pt_filterlim, gg_cont|apply lin_cont2].
Qed.
Definition outer (x : R) : R := RInt (mixg x) (- r) r.
Lemma mixg_int x : ex_RInt (mixg x) (- r) r.
Proof. apply (ex_RInt_continuous (V := R_CompleteNormedModule)). intros y _. apply cont_of_2d, mixg_cont2. Qed.
Lemma outer_derive x : is_derive outer x (phi x * inner x).
Proof.
  assert (RInt (fun y => Derive (fun u => mixg u y) x) (- r) r = phi x * inner x) as <-.
  { unfold inner. rewrite <- (RInt_scal (V := R_CompleteNormedModule)).
    - apply RInt_ext. intros y _. transitivity (dmixg x y); [apply is_derive_unique, mixg_derive|]. unfold dmixg. change (phi y * f y * (gg (x - y / sqrt 2) / sqrt PI) = phi x * (sqrt 2 * phi (sqrt 2 * y - x) * f y)).
      transitivity (phi x * (sqrt 2 * phi (sqrt 2 * y - x)) * f y); [rewrite square_done; ring|ring].
    - apply (ex_RInt_continuous (V := R_CompleteNormedModule)). intros y _.
      apply (continuous_mult (fun y => sqrt 2 * phi (sqrt 2 * y - x))); [|apply Hf].
      apply (continuous_scal_r (V := R_NormedModule) (sqrt 2) (fun y => phi (sqrt 2 * y - x))). apply (continuous_comp (fun y => sqrt 2 * y - x) phi); [|apply phi_cont].
      apply (ex_derive_continuous (V := R_NormedModule)). auto_derive. exact I. }
  apply (is_derive_RInt_param mixg).
  - exists (mkposreal 1 Rlt_0_1). intros u _ t _. eexists. apply mixg_derive.
  - intros t _. apply (continuity_2d_pt_ext dmixg); [|apply dmixg_cont2]. intros u v. symmetry. apply is_derive_unique, mixg_derive.
  - exists (mkposreal 1 Rlt_0_1). intros u _. apply mixg_int.
Qed.
Lemma inner_derive x : ex_derive inner x.
Proof.
  set (h := fun u v => sqrt 2 * phi (sqrt 2 * v - u) * f v). set (dh := fun u v => sqrt 2 * ((sqrt 2 * v - u) * phi (sqrt 2 * v - u)) * f v).
  assert (forall u v, is_derive (fun u => h u v) u (dh u v)) as HD.
  { intros u v. unfold h, dh. evar_last; [apply (is_derive_mult (fun u => sqrt 2 * phi (sqrt 2 * v - u)) (fun _ => f v)); [|apply (is_derive_const (V := R_NormedModule))|exact Rmult_comm]|].
    - apply is_derive_scal. apply (is_derive_comp phi (fun u => sqrt 2 * v - u)); [apply phi_derive|auto_derive; [exact I|reflexivity]].
    - unfold plus, mult, scal, zero. cbn. unfold mult. cbn. ring. }
  assert (forall u v, continuity_2d_pt (fun u v => sqrt 2 * v - u) u v) as HL by (intros; c2d).
  assert (forall u v, continuity_2d_pt h u v) as HH.
  { intros. apply (continuity_2d_pt_mult (fun u v => sqrt 2 * phi (sqrt 2 * v - u)) (fun _ v => f v)); [|apply f_cont2]. c2d. }
  assert (forall u v, continuity_2d_pt dh u v) as HDH.
  { intros. apply (continuity_2d_pt_mult (fun u v => sqrt 2 * ((sqrt 2 * v - u) * phi (sqrt 2 * v - u))) (fun _ v => f v)); [|apply f_cont2]. c2d. }
  eexists. apply (is_derive_RInt_param h (- r) r x).
  - exists (mkposreal 1 Rlt_0_1). intros u _ t _. eexists. apply HD.
  - intros t _. apply (continuity_2d_pt_ext dh); [|apply HDH]. intros u v. symmetry. apply is_derive_unique, HD.
  - exists (mkposreal 1 Rlt_0_1). intros u _. apply (ex_RInt_continuous (V := R_CompleteNormedModule)). intros y _. apply cont_of_2d, HH.
Qed.
Lemma inner_cont x : continuous (fun x => phi x * inner x) x.
Proof. apply (continuous_mult phi); [apply phi_cont|]. apply (ex_derive_continuous (V := R_NormedModule)), inner_derive. Qed.
Lemma mix_partial a b : is_RInt (fun x => phi x * inner x) a b (outer b - outer a).
Proof. apply (is_RInt_derive (V := R_CompleteNormedModule) outer); intros; [apply outer_derive|apply inner_cont]. Qed.
Lemma pf_int : ex_RInt (fun y => phi y * f y) (- r) r.
Proof. apply (ex_RInt_continuous (V := R_CompleteNormedModule)). intros y _. apply (continuous_mult phi); [apply phi_cont|apply Hf]. Qed.
Theorem mix_outer : WholeLine (fun a => phi a * inner a) (RInt (fun y => phi y * f y) (- r) r).
Proof.
  split; [intros a b; eexists; apply mix_partial|]. intros e He. pose proof sqrtpi_pos as HP. pose proof sqrt2_pos as H2. pose proof sqrt2_sq as H22.
  set (d := e / (2 * r + 1) * (sqrt PI / 4)).
  assert (0 < d) as Hd by (apply Rmult_lt_0_compat; [apply Rdiv_lt_0_compat; lra|lra]).
  destruct (gint_near d Hd) as (M & HM0 & HM). exists (M + r). intros a b Ha Hb.
  rewrite (is_RInt_unique (V := R_CompleteNormedModule) _ _ _ _ (mix_partial a b)). unfold outer.
  assert (RInt (mixg b) (- r) r - RInt (mixg a) (- r) r - RInt (fun y => phi y * f y) (- r) r = RInt (fun y => mixg b y - mixg a y - phi y * f y) (- r) r) as ->.
  { symmetry. apply (is_RInt_unique (V := R_CompleteNormedModule)).
    apply (is_RInt_minus (V := R_NormedModule)); [apply (is_RInt_minus (V := R_NormedModule))|]; apply (RInt_correct (V := R_CompleteNormedModule)); [apply mixg_int|apply mixg_int|apply pf_int]. }
  assert (Rabs (RInt (fun y => mixg b y - mixg a y - phi y * f y) (- r) r) <= (r - - r) * (e / (2 * r + 1))) as HB.
  { apply abs_RInt_le_const; [lra| |].
    - apply (ex_RInt_minus (V := R_NormedModule)); [apply (ex_RInt_minus (V := R_NormedModule))|]; [apply mixg_int|apply mixg_int|apply pf_int].
    - intros y Hy. unfold mixg. assert (- r <= y / sqrt 2 <= r) as Hy2.
      { assert (y = sqrt 2 * (y / sqrt 2)) as Ey by (field; lra). assert (1 <= sqrt 2) by (rewrite <- sqrt_1 at 1; apply sqrt_le_1; lra). rewrite Ey in Hy. nra. }
      assert (Rabs (gint (b - y / sqrt 2) - sqrt PI / 2) < d) as G1 by (apply HM; lra).
      assert (Rabs (gint (- (a - y / sqrt 2)) - sqrt PI / 2) < d) as G2 by (apply HM; lra). rewrite gint_odd in G2.
      replace (phi y * f y * (gint (b - y / sqrt 2) / sqrt PI) - phi y * f y * (gint (a - y / sqrt 2) / sqrt PI) - phi y * f y)
        with (phi y * f y * ((gint (b - y / sqrt 2) - sqrt PI / 2 + (- gint (a - y / sqrt 2) - sqrt PI / 2)) * / sqrt PI)) by (field; lra).
      rewrite !Rabs_mult. rewrite (Rabs_pos_eq (phi y)) by apply Rlt_le, phi_pos. rewrite (Rabs_pos_eq (/ sqrt PI)) by (apply Rlt_le, Rinv_0_lt_compat; lra).
      pose proof (phi_pos y). pose proof (phi_le1 y). pose proof (Hf1 y Hy). pose proof (Rabs_pos (f y)).
      assert (Rabs (gint (b - y / sqrt 2) - sqrt PI / 2 + (- gint (a - y / sqrt 2) - sqrt PI / 2)) <= 2 * d) as G3.
      { eapply Rle_trans; [apply Rabs_triang|]. lra. }
      assert (phi y * Rabs (f y) <= 1) by nra. assert (0 <= phi y * Rabs (f y)) by nra.
      assert (2 * d * / sqrt PI <= e / (2 * r + 1)) as G4.
      { unfold d. replace (2 * (e / (2 * r + 1) * (sqrt PI / 4)) * / sqrt PI) with (e / (2 * r + 1) / 2) by (field; split; lra).
        assert (0 < e / (2 * r + 1)) by (apply Rdiv_lt_0_compat; lra). lra. }
      assert (0 < / sqrt PI) by (apply Rinv_0_lt_compat; lra).
      set (w := Rabs (gint (b - y / sqrt 2) - sqrt PI / 2 + (- gint (a - y / sqrt 2) - sqrt PI / 2))) in *. assert (0 <= w) by apply Rabs_pos.
      assert (0 <= w * / sqrt PI <= 2 * d * / sqrt PI) by (split; [apply Rmult_le_pos; lra|apply Rmult_le_compat_r; lra]).
      assert (0 <= e / (2 * r + 1)) by lra. nra. }
  eapply Rle_lt_trans; [exact HB|]. replace ((r - - r) * (e / (2 * r + 1))) with (e - e / (2 * r + 1)) by (field; lra).
  assert (0 < e / (2 * r + 1)) by (apply Rdiv_lt_0_compat; lra). lra.
Qed.
End Mix.

(** ** Averages over several normal numbers *)
Lemma navg_ext k f g v : (forall l, length l = k -> f l = g l) -> NormalAverage k f v -> NormalAverage k g v.
Proof.
  revert f g v. induction k as [|k IH]; intros f g v E; cbn.
  - intro H. rewrite <- (E [] eq_refl). exact H.
  - intros (h & H1 & H2). exists h. split; [|exact H2]. intro x. apply (IH (fun l => f (x :: l))); [|apply H1]. intros l Hl. apply E. cbn. now rewrite Hl.
Qed.
Lemma navg_compose j k f g v : (forall l, length l = j -> NormalAverage k (fun m => f (l ++ m)) (g l)) -> NormalAverage j g v -> NormalAverage (j + k) f v.
Proof.
  revert f g v. induction j as [|j IH]; intros f g v H; cbn.
  - intro E. rewrite <- E. apply (H [] eq_refl).
  - intros (h & H1 & H2). exists h. split; [|exact H2]. intro x. apply (IH (fun l => f (x :: l)) (fun l => g (x :: l))); [|apply H1].
    intros l Hl. apply (H (x :: l)). cbn. now rewrite Hl.
Qed.
Lemma navg_0 k f : (forall l, length l = k -> f l = 0) -> NormalAverage k f 0.
Proof.
  revert f. induction k as [|k IH]; intros f E; cbn; [now apply E|]. exists (fun _ => 0). split.
  - intro x. apply IH. intros l Hl. apply E. cbn. now rewrite Hl.
  - apply (whole_support _ 0 0); [lra|intros; ring|intros; ring|]. apply (is_RInt_ext (fun _ => 0)); [intros; change (0 = phi x * 0); ring|apply is_RInt_zero].
Qed.
(** Functions of (a+c)/sqrt 2 and of (a-c)/sqrt 2, cut off at [r]. *)
Lemma navg_sum (f : R -> R) r v : 0 <= r -> (forall y, continuous f y) -> (forall y, - r <= y <= r -> Rabs (f y) <= 1) -> is_RInt (fun y => phi y * f y) (- r) r v ->
  NormalAverage 2 (fun l => cut f r ((nth 0 l 0 + nth 1 l 0) / sqrt 2)) v.
Proof.
  intros Hr Hf H1 HI. cbn [NormalAverage nth]. exists (inner f r). split.
  - intro a. exists (fun c => cut f r ((a + c) / sqrt 2)). split; [reflexivity|]. now apply mix_inner.
  - rewrite <- (is_RInt_unique (V := R_CompleteNormedModule) _ _ _ _ HI). now apply mix_outer.
Qed.
Lemma navg_diff (f : R -> R) r v : 0 <= r -> (forall y, continuous f y) -> (forall y, - r <= y <= r -> Rabs (f y) <= 1) -> is_RInt (fun y => phi y * f y) (- r) r v ->
  NormalAverage 2 (fun l => cut f r ((nth 0 l 0 - nth 1 l 0) / sqrt 2)) v.
Proof.
  intros Hr Hf H1 HI. cbn [NormalAverage nth]. exists (inner f r). split.
  - intro a. exists (fun c => cut f r ((a - c) / sqrt 2)). split; [reflexivity|].
    apply (whole_ext (fun c => (fun c => phi c * cut f r ((a + c) / sqrt 2)) (- c))); [intro c; cbv beta; rewrite phi_even; reflexivity|].
    apply (whole_opp (fun c => phi c * cut f r ((a + c) / sqrt 2))). now apply mix_inner.
  - rewrite <- (is_RInt_unique (V := R_CompleteNormedModule) _ _ _ _ HI). now apply mix_outer.
Qed.
Lemma navg_one (f : R -> R) r v : 0 <= r -> is_RInt (fun y => phi y * f y) (- r) r v -> NormalAverage 1 (fun l => cut f r (nth 0 l 0)) v.
Proof.
  intros Hr HI. cbn [NormalAverage nth]. exists (cut f r). split; [reflexivity|]. unfold cut.
  apply (whole_support _ (- r) r); [lra| | |].
  - intros x Hx. destruct (Rle_dec _ _) as [G|]; [|ring]. apply Rabs_le_between in G. lra.
  - intros x Hx. destruct (Rle_dec _ _) as [G|]; [|ring]. apply Rabs_le_between in G. lra.
  - eapply is_RInt_ext; [|exact HI]. intros x Hx. rewrite Rmin_left, Rmax_right in Hx by lra. destruct (Rle_dec _ _) as [G|G]; [reflexivity|]. exfalso. apply G, Rabs_le_between. lra.
Qed.
Lemma phi_whole : WholeLine phi 1.
Proof.
  assert (forall x, phi x = gg (x / sqrt 2) * / sqrt 2 * / sqrt PI) as E.
  { intro x. unfold normal_density, gg. rewrite sqrt2pi_eq. pose proof sqrt2_pos. pose proof sqrtpi_pos. replace (x / sqrt 2 * (x / sqrt 2)) with (x * x / 2) by (rewrite <- sqrt2_sq at 1; field; lra).
    replace (- (x * x) / 2) with (- (x * x / 2)) by field. field. split; lra. }
  assert (forall a b, RInt phi a b = (gint (b / sqrt 2) - gint (a / sqrt 2)) / sqrt PI) as HI.
  { intros a b. apply (is_RInt_unique (V := R_CompleteNormedModule)). pose proof sqrt2_pos. pose proof sqrtpi_pos.
    replace ((gint (b / sqrt 2) - gint (a / sqrt 2)) / sqrt PI) with (gint (b / sqrt 2) / sqrt PI - gint (a / sqrt 2) / sqrt PI) by (field; lra).
    apply (is_RInt_derive (V := R_CompleteNormedModule) (fun x => gint (x / sqrt 2) / sqrt PI)).
    - intros x _. rewrite E. apply (is_derive_ext (fun x => / sqrt PI * gint (x / sqrt 2))); [intro t; match goal with |- ?a = ?b => change (@eq R a b) end; unfold Rdiv; ring|].
      rewrite Rmult_comm. apply is_derive_scal. evar_last; [apply (is_derive_comp gint (fun x => x / sqrt 2)); [apply gint_derive|auto_derive; [exact I|reflexivity]]|].
      unfold scal. cbn. unfold mult. cbn. ring.
    - intros x _. apply phi_cont. }
  split; [intros; apply phi_int|]. intros e He. pose proof sqrt2_pos. pose proof sqrtpi_pos.
  destruct (gint_near (e * sqrt PI / 2)) as (M & HM0 & HM); [apply Rmult_lt_0_compat; [apply Rmult_lt_0_compat|]; lra|].
  exists (sqrt 2 * M). intros a b Ha Hb. rewrite HI.
  assert (M <= b / sqrt 2) as Gb by (apply Rmult_le_reg_r with (sqrt 2); [lra|]; unfold Rdiv; rewrite Rmult_assoc, Rinv_l; lra).
  assert (M <= - (a / sqrt 2)) as Ga by (apply Rmult_le_reg_r with (sqrt 2); [lra|]; replace (- (a / sqrt 2) * sqrt 2) with (- a) by (field; lra); lra).
  pose proof (HM _ Gb) as K1. pose proof (HM _ Ga) as K2. rewrite gint_odd in K2. apply Rabs_def2 in K1. apply Rabs_def2 in K2.
  replace ((gint (b / sqrt 2) - gint (a / sqrt 2)) / sqrt PI - 1) with ((gint (b / sqrt 2) - gint (a / sqrt 2) - sqrt PI) / sqrt PI) by (field; lra).
  assert (gint (b / sqrt 2) - gint (a / sqrt 2) - sqrt PI < e * sqrt PI) as U1 by lra. assert (- (e * sqrt PI) < gint (b / sqrt 2) - gint (a / sqrt 2) - sqrt PI) as U2 by lra.
  set (w := gint (b / sqrt 2) - gint (a / sqrt 2) - sqrt PI) in *. apply Rabs_def1; apply Rmult_lt_reg_r with (sqrt PI); try lra; unfold Rdiv; rewrite Rmult_assoc, Rinv_l; lra.
Qed.
(** Numbers on which the function does not depend. *)
Lemma navg_const k c : NormalAverage k (fun _ => c) c.
Proof.
  induction k as [|k IH]; cbn; [reflexivity|]. exists (fun _ => c). split; [intro; exact IH|]. destruct phi_whole as (H1 & H2).
  assert (forall a b, is_RInt (fun x => phi x * c) a b (c * RInt phi a b)) as HI.
  { intros a b. apply (is_RInt_ext (fun x => scal c (phi x))); [intros; apply Rmult_comm|]. apply (is_RInt_scal (V := R_NormedModule)), (RInt_correct (V := R_CompleteNormedModule)), H1. }
  split; [intros a b; eexists; apply HI|]. intros e He. destruct (H2 (e / (Rabs c + 1))) as [M HM]; [apply Rdiv_lt_0_compat; [lra|pose proof (Rabs_pos c); lra]|].
  exists M. intros a b Ha Hb. rewrite (is_RInt_unique (V := R_CompleteNormedModule) _ _ _ _ (HI a b)).
  replace (c * RInt phi a b - c) with (c * (RInt phi a b - 1)) by ring. rewrite Rabs_mult. specialize (HM a b Ha Hb). pose proof (Rabs_pos c). pose proof (Rabs_pos (RInt phi a b - 1)).
  assert (e = e / (Rabs c + 1) * (Rabs c + 1)) as -> by (field; lra). nra.
Qed.

Lemma Aint_half z : 0 <= z -> 0 <= 2 * Aint z <= 1.
Proof.
  intro Hz. split; [pose proof (Aint_mono 0 z Hz); rewrite Aint_0 in *; lra|]. destruct (Rle_dec (2 * Aint z) 1) as [G|G]; [exact G|]. exfalso.
  destruct phi_whole as (_ & H). destruct (H (2 * Aint z - 1) ltac:(lra)) as [M HM].
  pose proof (Rmax_l M z). pose proof (Rmax_r M z). specialize (HM (- Rmax M z) (Rmax M z) ltac:(lra) ltac:(lra)). rewrite phi_sym in HM.
  pose proof (Aint_mono z (Rmax M z) ltac:(lra)). apply Rabs_def2 in HM. lra.
Qed.
Lemma one_line w : is_RInt (fun y => phi y * 1) (- w) w (2 * Aint w).
Proof. rewrite <- phi_sym. apply (is_RInt_ext phi); [intros; symmetry; apply Rmult_1_r|]. apply (RInt_correct (V := R_CompleteNormedModule)), phi_int. Qed.

Lemma within r x y : 0 <= r -> Rabs y <= r -> x * x + y * y <= r * r <-> Rabs x <= sqrt (r * r - y * y).
Proof.
  intros Hr Hy. apply Rabs_le_between in Hy. assert (0 <= r * r - y * y) as H by nra. pose proof (sqrt_pos (r * r - y * y)) as Hp. pose proof (sqrt_sqrt _ H) as Hs.
  set (w := sqrt (r * r - y * y)) in *. clearbody w. split; intro G.
  - apply Rabs_le_between. nra.
  - apply Rabs_le_between in G. nra.
Qed.
Lemma outside r x y : 0 <= r -> ~ Rabs y <= r -> ~ x * x + y * y <= r * r.
Proof. intros Hr Hy G. apply Hy, Rabs_le_between. nra. Qed.
Lemma indicator_iff a b c d : (a <= b <-> c <= d) -> indicator_le a b = indicator_le c d.
Proof. intro H. unfold indicator_le. destruct (Rle_dec a b), (Rle_dec c d); tauto. Qed.

(** The distance of two independent points: the sum of two normal numbers across the difference of two. *)
Lemma navg_segment r y : 0 <= r ->
  NormalAverage 2 (fun m => indicator_le ((nth 0 m 0 - nth 1 m 0) / sqrt 2 * ((nth 0 m 0 - nth 1 m 0) / sqrt 2) + y * y) (r * r)) (cut (chord r) r y).
Proof.
  intro Hr. unfold cut. destruct (Rle_dec (Rabs y) r) as [G|G].
  - set (w := sqrt (r * r - y * y)). apply (navg_ext 2 (fun l => cut (fun _ => 1) w ((nth 0 l 0 - nth 1 l 0) / sqrt 2))).
    + intros l _. unfold cut. pose proof (within r ((nth 0 l 0 - nth 1 l 0) / sqrt 2) y Hr G) as HW. fold w in HW. unfold indicator_le.
      destruct (Rle_dec _ _), (Rle_dec _ _); tauto.
    + apply navg_diff; [apply sqrt_pos|intro; apply continuous_const|intros; rewrite Rabs_R1; lra|apply one_line].
  - apply navg_0. intros l _. unfold indicator_le. destruct (Rle_dec _ _) as [K|]; [|reflexivity]. exfalso. exact (outside r _ y Hr G K).
Qed.
Lemma chord_le1 r y : Rabs (chord r y) <= 1.
Proof. unfold chord. pose proof (Aint_half (sqrt (r * r - y * y)) (sqrt_pos _)). rewrite Rabs_pos_eq; lra. Qed.
Lemma navg_disk r : 0 <= r ->
  NormalAverage 4 (fun l => indicator_le ((nth 2 l 0 - nth 3 l 0) / sqrt 2 * ((nth 2 l 0 - nth 3 l 0) / sqrt 2) + (nth 0 l 0 + nth 1 l 0) / sqrt 2 * ((nth 0 l 0 + nth 1 l 0) / sqrt 2)) (r * r))
    (1 - exp (- (r * r) / 2)).
Proof.
  intro Hr. apply (navg_compose 2 2 _ (fun l => cut (chord r) r ((nth 0 l 0 + nth 1 l 0) / sqrt 2))).
  - intros l Hl. destruct l as [|p [|q [|]]]; try discriminate. cbn [nth app]. apply (navg_segment r ((p + q) / sqrt 2) Hr).
  - apply navg_sum; [exact Hr|intro; apply chord_cont|intros; apply chord_le1|now apply disk].
Qed.
Lemma navg_disk3 r : 0 <= r ->
  NormalAverage 3 (fun l => indicator_le ((nth 1 l 0 - nth 2 l 0) / sqrt 2 * ((nth 1 l 0 - nth 2 l 0) / sqrt 2) + nth 0 l 0 * nth 0 l 0) (r * r)) (1 - exp (- (r * r) / 2)).
Proof.
  intro Hr. apply (navg_compose 1 2 _ (fun l => cut (chord r) r (nth 0 l 0))).
  - intros l Hl. destruct l as [|p [|]]; try discriminate. cbn [nth app]. apply (navg_segment r p Hr).
  - apply navg_one; [exact Hr|now apply disk].
Qed.
(** Three dimensions. *)
Definition p2 (r z : R) : R := 1 - exp (- (r * r - z * z) / 2).
Lemma p2_cont r z : continuous (p2 r) z.
Proof. apply (ex_derive_continuous (V := R_NormedModule)). unfold p2. auto_derive. exact I. Qed.
Lemma p2_int r : is_RInt (fun z => phi z * p2 r z) (- r) r (2 * Aint r - 2 * r * phi r).
Proof.
  apply (is_RInt_ext (fun z => minus (phi z) (phi r))).
  - intros z _. change (phi z - phi r = phi z * p2 r z). unfold p2. rewrite Rmult_minus_distr_l, Rmult_1_r. f_equal. unfold normal_density.
    replace (exp (- (z * z) / 2) / sqrt (2 * PI) * exp (- (r * r - z * z) / 2)) with (exp (- (z * z) / 2) * exp (- (r * r - z * z) / 2) / sqrt (2 * PI)) by (unfold Rdiv; ring).
    rewrite <- exp_plus. f_equal. f_equal. field.
  - apply (is_RInt_minus (V := R_NormedModule)).
    + rewrite <- phi_sym. apply (RInt_correct (V := R_CompleteNormedModule)), phi_int.
    + evar_last; [apply (is_RInt_const (V := R_NormedModule))|]. change ((r - - r) * phi r = 2 * r * phi r). ring.
Qed.
Lemma navg_ball r : 0 <= r ->
  NormalAverage 6 (fun l => indicator_le ((nth 4 l 0 - nth 5 l 0) / sqrt 2 * ((nth 4 l 0 - nth 5 l 0) / sqrt 2) + (nth 2 l 0 + nth 3 l 0) / sqrt 2 * ((nth 2 l 0 + nth 3 l 0) / sqrt 2)
      + (nth 0 l 0 - nth 1 l 0) / sqrt 2 * ((nth 0 l 0 - nth 1 l 0) / sqrt 2)) (r * r)) (2 * Aint r - 2 * r * phi r).
Proof.
  intro Hr. apply (navg_compose 2 4 _ (fun l => cut (p2 r) r ((nth 0 l 0 - nth 1 l 0) / sqrt 2))).
  - intros l Hl. destruct l as [|p [|q [|]]]; try discriminate. cbn [nth app]. set (z := (p - q) / sqrt 2). unfold cut. destruct (Rle_dec (Rabs z) r) as [G|G].
    + apply Rabs_le_between in G. assert (0 <= r * r - z * z) as H by nra. pose proof (sqrt_sqrt _ H) as Hs. pose proof (navg_disk (sqrt (r * r - z * z)) (sqrt_pos _)) as K. rewrite Hs in K.
      refine (navg_ext 4 _ _ _ _ K). intros l _. apply indicator_iff. split; lra.
    + apply navg_0. intros l _. unfold indicator_le. destruct (Rle_dec _ _) as [K|]; [|reflexivity]. exfalso. apply G, Rabs_le_between.
      pose proof (Rle_0_sqr ((nth 2 l 0 - nth 3 l 0) / sqrt 2)) as S1. pose proof (Rle_0_sqr ((nth 0 l 0 + nth 1 l 0) / sqrt 2)) as S2. unfold Rsqr in S1, S2. nra.
  - apply navg_diff; [exact Hr|intro; apply p2_cont| |apply p2_int]. intros y Hy. unfold p2.
    assert (exp (- (r * r - y * y) / 2) <= 1) by (rewrite <- exp_0; destruct (Req_dec (- (r * r - y * y) / 2) 0) as [->|]; [lra|apply Rlt_le, exp_increasing; nra]).
    pose proof (exp_pos (- (r * r - y * y) / 2)). rewrite Rabs_pos_eq; lra.
Qed.
