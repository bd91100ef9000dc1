(** Remainders of the sine and cosine integrals, and the distance of the exact orthogonal number variance from its asymptotic form. *)
From Coq Require Import List ZArith Bool Arith Lia Reals Lra.
From Coquelicot Require Import Coquelicot.
From Verif Require Import Base S_Draw M_Ensemble M_Draw P_DrawLong P_Pi.
Local Open Scope R_scope.

(** [Ci] has derivative cos x / x for x > 0 and tends to 0. *)
Definition CosineIntegral (Ci : R -> R) : Prop := (forall x, 0 < x -> is_derive Ci x (cos x / x)) /\ is_lim Ci p_infty 0.

(** A non-increasing function that tends to 0 is non-negative. *)
Lemma tail_nonneg (f df : R -> R) a : 0 < a -> (forall x, a <= x -> is_derive f x (df x)) -> (forall x, a <= x -> df x <= 0) -> is_lim f p_infty 0 -> 0 <= f a.
Proof.
  intros Ha D N L. destruct (Rle_or_lt 0 (f a)) as [H|H]; [exact H|exfalso].
  apply is_lim_spec in L. assert (0 < - f a / 2) as He by lra. destruct (L (mkposreal _ He)) as [M HM].
  set (b := Rmax (a + 1) (M + 1)). assert (a < b) by (unfold b; pose proof (Rmax_l (a + 1) (M + 1)); lra).
  assert (M < b) as HMb by (unfold b; pose proof (Rmax_r (a + 1) (M + 1)); lra). specialize (HM b HMb). cbn in HM.
  destruct (MVT_gen f a b df) as (c & Hc & E).
  - intros x Hx. rewrite Rmin_left in Hx by lra. apply D. lra.
  - intros x Hx. rewrite Rmin_left in Hx by lra. apply derivable_continuous_pt. exists (df x). apply is_derive_Reals, D. lra.
  - rewrite Rmin_left in Hc by lra. specialize (N c ltac:(lra)). assert (f b <= f a) by nra. apply Rabs_def2 in HM. lra.
Qed.
Lemma inv_pow_lim K n : is_lim (fun x => K / x ^ S n) p_infty 0.
Proof.
  assert (is_lim (fun x => / x ^ S n) p_infty 0) as H.
  { apply (is_lim_le_le_loc (fun _ => 0) (fun x => / x)).
    - exists 1. intros x Hx. assert (1 <= x ^ n) by (apply pow_R1_Rle; lra). assert (x <= x ^ S n) by (cbn; nra). split.
      + left. apply Rinv_0_lt_compat. lra.
      + apply Rinv_le_contravar; lra.
    - apply is_lim_const.
    - replace (Finite 0) with (Rbar_inv p_infty) by reflexivity. apply is_lim_inv; [apply is_lim_id|discriminate]. }
  replace (Finite 0) with (Rbar_mult K 0) by (cbn; f_equal; ring). apply (is_lim_scal_l _ K _ _ H).
Qed.
Lemma inv_pow_derive K n x : 0 < x -> is_derive (fun x => K / x ^ S n) x (- (INR (S n) * K / x ^ S (S n))).
Proof.
  intro Hx. assert (x ^ S n <> 0) by (apply pow_nonzero; lra). auto_derive; [exact H|].
  cbn [Init.Nat.pred]. change (match n with 0%nat => 1 | S _ => INR n + 1 end) with (INR (S n)). cbn [pow]. field. split; [apply pow_nonzero; lra|lra].
Qed.
(** A function that tends to 0 and whose derivative is at most n K / x^(n+1) is at most K / x^n. *)
Lemma tail_bound (h dh : R -> R) K n a : 0 < a -> (forall x, a <= x -> is_derive h x (dh x)) -> is_lim h p_infty 0 ->
  (forall x, a <= x -> Rabs (dh x) <= INR (S n) * K / x ^ S (S n)) -> Rabs (h a) <= K / a ^ S n.
Proof.
  intros Ha D L B. apply Rabs_le. split.
  - assert (0 <= h a + K / a ^ S n) as Q; [|lra].
    apply (tail_nonneg (fun x => h x + K / x ^ S n) (fun x => dh x - INR (S n) * K / x ^ S (S n))); [exact Ha| | |].
    + intros x Hx. apply (is_derive_plus (V := R_NormedModule) h (fun x => K / x ^ S n)); [apply D, Hx|apply inv_pow_derive; lra].
    + intros x Hx. specialize (B x Hx). apply Rabs_le_between in B. lra.
    + replace (Finite 0) with (Rbar_plus 0 0) by (cbn; f_equal; ring). apply is_lim_plus'; [exact L|apply inv_pow_lim].
  - assert (0 <= K / a ^ S n - h a) as Q; [|lra].
    apply (tail_nonneg (fun x => K / x ^ S n - h x) (fun x => - (INR (S n) * K / x ^ S (S n)) - dh x)); [exact Ha| | |].
    + intros x Hx. apply (is_derive_minus (V := R_NormedModule) (fun x => K / x ^ S n) h); [apply inv_pow_derive; lra|apply D, Hx].
    + intros x Hx. specialize (B x Hx). apply Rabs_le_between in B. lra.
    + replace (Finite 0) with (Rbar_minus 0 0) by (cbn; f_equal; ring). apply is_lim_minus'; [apply inv_pow_lim|exact L].
Qed.

Lemma over_pow (v K x : R) n : 0 < x -> Rabs v <= K -> Rabs (v / x ^ n) <= K / x ^ n.
Proof.
  intros Hx H. assert (0 < x ^ n) as P by (apply pow_lt; exact Hx). unfold Rdiv. rewrite Rabs_mult, (Rabs_right (/ x ^ n)); [|left; apply Rinv_0_lt_compat, P].
  apply Rmult_le_compat_r; [left; apply Rinv_0_lt_compat, P|exact H].
Qed.
Lemma over_pow_lim (v : R -> R) K n : (forall x, Rabs (v x) <= K) -> is_lim (fun x => v x / x ^ S n) p_infty 0.
Proof.
  intro H. apply (is_lim_le_le_loc (fun x => (- K) / x ^ S n) (fun x => K / x ^ S n)).
  - exists 1. intros x Hx. pose proof (over_pow (v x) K x (S n) ltac:(lra) (H x)) as B. apply Rabs_le_between in B.
    replace (- K / x ^ S n) with (- (K / x ^ S n)) by (unfold Rdiv; ring). exact B.
  - apply inv_pow_lim.
  - apply inv_pow_lim.
Qed.
Lemma abs_sin x : Rabs (sin x) <= 1.
Proof. apply Rabs_le, SIN_bound. Qed.
Lemma abs_cos x : Rabs (cos x) <= 1.
Proof. apply Rabs_le, COS_bound. Qed.
Lemma abs_scal k v : 0 <= k -> Rabs v <= 1 -> Rabs (k * v) <= k.
Proof. intros Hk Hv. rewrite Rabs_mult, (Rabs_right k) by lra. pose proof (Rabs_pos v). nra. Qed.


Section Remainders.
Context (Si Ci : R -> R) (v : R).
Hypothesis HS : SineIntegral Si v.
Hypothesis HC : CosineIntegral Ci.

(** v - Si x = cos x / x + r, |r| <= 1 / x. *)
Lemma Si_rest1 a : 0 < a -> Rabs (v - Si a - cos a / a) <= 1 / a.
Proof.
  intro Ha. destruct HS as [D L]. replace (1 / a) with (1 / a ^ 1) by (f_equal; ring).
  apply (tail_bound (fun x => v - Si x - cos x / x) (fun x => cos x / x ^ 2) 1 0 a Ha).
  - intros x Hx. assert (0 < x) as Px by lra.
    replace (cos x / x ^ 2) with (minus (minus 0 (sin x / x)) ((- sin x * x - cos x) / x ^ 2)) by (unfold minus, plus, opp; cbn; field; lra).
    apply (is_derive_minus (V := R_NormedModule) (fun x => v - Si x) (fun x => cos x / x)); [apply (is_derive_minus (V := R_NormedModule) (fun _ => v) Si); [apply (is_derive_const (V := R_NormedModule))|apply D, Px]|].
    auto_derive; [lra|]. field. lra.
  - replace (Finite 0) with (Rbar_minus (v - v) 0) by (cbn; f_equal; ring). apply is_lim_minus'.
    + replace (Finite (v - v)) with (Rbar_minus v v) by reflexivity. apply is_lim_minus'; [apply is_lim_const|exact L].
    + apply (is_lim_ext (fun x => cos x / x ^ 1)); [intro x; f_equal; ring|]. apply (over_pow_lim cos 1 0 abs_cos).
  - intros x Hx. replace (INR 1 * 1) with 1 by (cbn; ring). apply over_pow; [lra|apply abs_cos].
Qed.
Lemma Si_rest0 a : 0 < a -> Rabs (v - Si a) <= 2 / a.
Proof.
  intro Ha. pose proof (Si_rest1 a Ha) as H. pose proof (over_pow (cos a) 1 a 1 Ha (abs_cos a)) as K. rewrite pow_1 in K.
  replace (v - Si a) with ((v - Si a - cos a / a) + cos a / a) by ring. eapply Rle_trans; [apply Rabs_triang|]. replace (2 / a) with (1 / a + 1 / a) by (field; lra). lra.
Qed.
(** v - Si x = cos x / x + sin x / x^2 - 2 cos x / x^3 + r, |r| <= 2 / x^3. *)
Lemma Si_rest3 a : 0 < a -> Rabs (v - Si a - (cos a / a ^ 1 + sin a / a ^ 2 - (2 * cos a) / a ^ 3)) <= 2 / a ^ 3.
Proof.
  intro Ha. destruct HS as [D L].
  apply (tail_bound (fun x => v - Si x - (cos x / x ^ 1 + sin x / x ^ 2 - (2 * cos x) / x ^ 3)) (fun x => - (6 * cos x) / x ^ 4) 2 2 a Ha).
  - intros x Hx. assert (0 < x) as Px by lra.
    replace (- (6 * cos x) / x ^ 4) with (minus (minus 0 (sin x / x)) (- sin x / x - (6 * - cos x) / x ^ 4)) by (unfold minus, plus, opp; cbn; field; lra).
    apply (is_derive_minus (V := R_NormedModule) (fun x => v - Si x) (fun x => cos x / x ^ 1 + sin x / x ^ 2 - (2 * cos x) / x ^ 3)); [apply (is_derive_minus (V := R_NormedModule) (fun _ => v) Si); [apply (is_derive_const (V := R_NormedModule))|apply D, Px]|].
    assert (x * 1 <> 0) by lra. assert (x * (x * 1) <> 0) by (apply Rgt_not_eq; nra). assert (x * (x * (x * 1)) <> 0) by (apply Rgt_not_eq; assert (0 < x * x) by nra; nra).
    auto_derive; [repeat split; assumption|]. field. lra.
  - replace (Finite 0) with (Rbar_minus (v - v) (0 + 0 - 0)) by (cbn; f_equal; ring). apply is_lim_minus'.
    + replace (Finite (v - v)) with (Rbar_minus v v) by reflexivity. apply is_lim_minus'; [apply is_lim_const|exact L].
    + apply (is_lim_minus' (fun x => cos x / x ^ 1 + sin x / x ^ 2)); [apply (is_lim_plus' (fun x => cos x / x ^ 1))|].
      * apply (over_pow_lim cos 1 0 abs_cos).
      * apply (over_pow_lim sin 1 1 abs_sin).
      * apply (over_pow_lim (fun x => 2 * cos x) 2 2). intro x. apply abs_scal; [lra|apply abs_cos].
  - intros x Hx. replace (INR 3 * 2) with 6 by (cbn; ring). apply over_pow; [lra|]. rewrite Rabs_Ropp. apply abs_scal; [lra|apply abs_cos].
Qed.
(** Ci x = sin x / x - cos x / x^2 + r, |r| <= 1 / x^2. *)
Lemma Ci_rest2 a : 0 < a -> Rabs (Ci a - (sin a / a ^ 1 - cos a / a ^ 2)) <= 1 / a ^ 2.
Proof.
  intro Ha. destruct HC as [D L].
  apply (tail_bound (fun x => Ci x - (sin x / x ^ 1 - cos x / x ^ 2)) (fun x => - (2 * cos x) / x ^ 3) 1 1 a Ha).
  - intros x Hx. assert (0 < x) as Px by lra.
    replace (- (2 * cos x) / x ^ 3) with (minus (cos x / x) (cos x / x - (2 * - cos x) / x ^ 3)) by (unfold minus, plus, opp; cbn; field; lra).
    apply (is_derive_minus (V := R_NormedModule) Ci (fun x => sin x / x ^ 1 - cos x / x ^ 2)); [apply D, Px|].
    assert (x * 1 <> 0) by lra. assert (x * (x * 1) <> 0) by (apply Rgt_not_eq; nra).
    auto_derive; [repeat split; assumption|]. field. lra.
  - replace (Finite 0) with (Rbar_minus 0 (0 - 0)) by (cbn; f_equal; ring). apply is_lim_minus'; [exact L|].
    apply (is_lim_minus' (fun x => sin x / x ^ 1)); [apply (over_pow_lim sin 1 0 abs_sin)|apply (over_pow_lim cos 1 1 abs_cos)].
  - intros x Hx. replace (INR 2 * 1) with 2 by (cbn; ring). apply over_pow; [lra|]. rewrite Rabs_Ropp. apply abs_scal; [lra|apply abs_cos].
Qed.
End Remainders.

(** The exact orthogonal number variance lies within 6 / (pi^4 L^2) of the asymptotic one. *)
Lemma orthogonal_asymptotic (g : R) Si Ci L : SineIntegral Si (PI / 2) -> CosineIntegral Ci -> 0 < L ->
  Rabs (OrthogonalVariance Si Ci g L - levelvar_at g GOE L) <= 6 / (PI ^ 4 * L ^ 2).
Proof.
  intros HS HC HL. pose proof PI_RGT_0 as HP. unfold OrthogonalVariance, UnitaryVariance. cbn [levelvar_at].
  set (y := 2 * PI * L). assert (0 < y) as Hy by (unfold y; nra). assert (0 < PI * L) as Hz by nra.
  pose proof (Si_rest3 Si (PI / 2) HS y Hy) as A. pose proof (Ci_rest2 Ci HC y Hy) as B. pose proof (Si_rest0 Si (PI / 2) HS (PI * L) Hz) as C.
  set (e1 := PI / 2 - Si y - _) in A. set (e2 := Ci y - _) in B. set (s := PI / 2 - Si (PI * L)) in C.
  assert (Si y = PI / 2 - (cos y / y ^ 1 + sin y / y ^ 2 - 2 * cos y / y ^ 3) - e1) as E1 by (unfold e1; ring).
  assert (Ci y = sin y / y ^ 1 - cos y / y ^ 2 + e2) as E2 by (unfold e2; ring).
  assert (Si (PI * L) = PI / 2 - s) as E3 by (unfold s; ring). clearbody e1 e2 s. rewrite E1, E2, E3.
  assert (L = y / (2 * PI)) as EL by (unfold y; field; lra).
  assert (PI * L = y / 2) as Ez by (unfold y; field).
  replace (_ - _) with (2 / PI ^ 2 * ((- cos y / y ^ 2 + y * e1 - e2) + s ^ 2 / 2)) by (rewrite EL; field; split; lra).
  replace (6 / (PI ^ 4 * L ^ 2)) with (2 / PI ^ 2 * ((1 / y ^ 2 + 2 / y ^ 2 + 1 / y ^ 2) + 8 / y ^ 2)) by (rewrite EL; field; split; lra).
  assert (0 < 2 / PI ^ 2) as P2 by (apply Rdiv_lt_0_compat; [lra|apply pow_lt, HP]).
  rewrite Rabs_mult, (Rabs_right (2 / PI ^ 2)) by lra. apply Rmult_le_compat_l; [lra|].
  assert (Rabs (- cos y / y ^ 2) <= 1 / y ^ 2) as Q1 by (apply over_pow; [exact Hy|rewrite Rabs_Ropp; apply abs_cos]).
  assert (Rabs (y * e1) <= 2 / y ^ 2) as Q2.
  { rewrite Rabs_mult, (Rabs_right y) by lra. replace (2 / y ^ 2) with (y * (2 / y ^ 3)) by (field; lra). apply Rmult_le_compat_l; [lra|exact A]. }
  assert (Rabs (s ^ 2 / 2) <= 8 / y ^ 2) as Q3.
  { rewrite Rabs_right; [|pose proof (pow2_ge_0 s); lra]. rewrite <- (pow2_abs s). rewrite Ez in C.
    replace (2 / (y / 2)) with (4 / y) in C by (field; lra). replace (8 / y ^ 2) with ((4 / y) ^ 2 / 2) by (field; lra).
    pose proof (pow_incr (Rabs s) (4 / y) 2 (conj (Rabs_pos s) C)). lra. }
  eapply Rle_trans; [apply Rabs_triang|]. apply Rplus_le_compat; [|exact Q3].
  unfold Rminus at 1. eapply Rle_trans; [apply Rabs_triang|]. rewrite Rabs_Ropp. apply Rplus_le_compat; [|exact B].
  eapply Rle_trans; [apply Rabs_triang|]. lra.
Qed.
Lemma PI4_bound L : 0 < L -> 6 / (PI ^ 4 * L ^ 2) < 1 / (16 * L ^ 2).
Proof.
  intro HL. pose proof PI_bounds as [H _]. assert (96 < PI ^ 4) as H4.
  { assert (9.86 < PI ^ 2) by (cbn; nra). replace (PI ^ 4) with (PI ^ 2 * PI ^ 2) by ring. nra. }
  assert (0 < L ^ 2) as P by (apply pow_lt, HL).
  replace (1 / (16 * L ^ 2)) with (6 / (96 * L ^ 2)) by (field; lra). apply Rmult_lt_compat_l; [lra|]. apply Rinv_lt_contravar; [apply Rmult_lt_0_compat; nra|nra].
Qed.

(** A cosine integral exists. *)
Lemma cosine_integral_exists : exists Ci, CosineIntegral Ci.
Proof.
  set (k := fun t => (1 + sin t) / t ^ 2).
  assert (forall x, 0 < x -> continuous k x) as Kc.
  { intros x H. apply (ex_derive_continuous (K := R_AbsRing) (V := R_NormedModule)). unfold k. auto_derive. apply Rgt_not_eq; nra. }
  assert (forall a b, 0 < a -> 0 < b -> ex_RInt k a b) as Ki.
  { intros a b Ha Hb. apply (ex_RInt_continuous (V := R_CompleteNormedModule)). intros z Hz. apply Kc. unfold Rmin in Hz. destruct (Rle_dec a b); lra. }
  assert (forall t, 0 < t -> 0 <= k t) as Kp.
  { intros t H. unfold k. pose proof (SIN_bound t). apply Rmult_le_pos; [lra|]. left. apply Rinv_0_lt_compat. nra. }
  assert (forall a b, 1 <= a -> a <= b -> RInt k 1 a <= RInt k 1 b) as Kincr.
  { intros a b Ha Hab. rewrite <- (RInt_Chasles k 1 a b) by (apply Ki; lra).
    assert (0 <= RInt k a b) by (apply RInt_ge_0; [exact Hab|apply Ki; lra|intros; apply Kp; lra]).
    change (RInt k 1 a <= RInt k 1 a + RInt k a b). lra. }
  assert (forall b, 1 <= b -> RInt k 1 b <= 2) as Kb.
  { intros b Hb.
    assert (is_RInt (fun t => 2 / t ^ 2) 1 b (minus (- 2 / b) (- 2 / 1))) as I1.
    { apply (is_RInt_derive (V := R_CompleteNormedModule) (fun t => - 2 / t)).
      - intros t Ht. rewrite Rmin_left in Ht by lra. auto_derive; [lra|]. field. lra.
      - intros t Ht. rewrite Rmin_left in Ht by lra. apply (ex_derive_continuous (K := R_AbsRing) (V := R_NormedModule)). auto_derive. apply Rgt_not_eq; nra. }
    apply Rle_trans with (RInt (fun t => 2 / t ^ 2) 1 b).
    - apply RInt_le; [exact Hb|apply Ki; lra|eexists; exact I1|]. intros t Ht. unfold k. pose proof (SIN_bound t).
      apply Rmult_le_compat_r; [left; apply Rinv_0_lt_compat; nra|lra].
    - rewrite (is_RInt_unique _ _ _ _ I1). unfold minus, plus, opp; cbn. assert (0 < / b) by (apply Rinv_0_lt_compat; lra). unfold Rdiv. lra. }
  assert (exists l : R, is_lim (fun b => RInt k 1 b) p_infty l) as [l Hl].
  { destruct (completeness (fun v => exists M, 1 <= M /\ v = RInt k 1 M)) as (l & Hu & Hl).
    - exists 2. intros v (M & HM & ->). now apply Kb.
    - exists (RInt k 1 1), 1. split; [lra|reflexivity].
    - exists l. apply is_lim_spec. intros eps.
      assert (E : exists M, 1 <= M /\ l - eps < RInt k 1 M).
      { destruct (Classical_Prop.classic (exists M, 1 <= M /\ l - eps < RInt k 1 M)) as [G|G]; [exact G|exfalso].
        assert (B : l <= l - eps). { apply Hl. intros v (M & HM & ->). destruct (Rle_or_lt (RInt k 1 M) (l - eps)) as [Q|Q]; [exact Q|]. destruct G. now exists M. }
        destruct eps as (e & He). cbn in B. lra. }
      destruct E as (M0 & HM0 & E). exists M0. intros M HM. pose proof (Kincr M0 M ltac:(lra) ltac:(lra)). assert (RInt k 1 M <= l) by (apply Hu; exists M; split; [lra|reflexivity]).
      destruct eps as (e & He). cbn in *. apply Rabs_def1; lra. }
  exists (fun x => (sin x + 1) / x - l + RInt k 1 x). split.
  - intros x Hx.
    assert (is_derive (fun x => RInt k 1 x) x (k x)) as D1.
    { apply is_derive_RInt with (a := 1).
      - exists (mkposreal x Hx). intros y Hy. apply (@RInt_correct R_CompleteNormedModule). apply Ki; [lra|]. apply Rabs_def2 in Hy. unfold minus, plus, opp in Hy; cbn in Hy. lra.
      - now apply Kc. }
    assert (is_derive (fun x => (sin x + 1) / x - l) x (cos x / x - k x)) as D2.
    { auto_derive; [lra|]. unfold k. field. lra. }
    replace (cos x / x) with (plus (cos x / x - k x) (k x)) by (unfold plus; cbn; ring).
    apply (is_derive_plus (V := R_NormedModule) (fun x => (sin x + 1) / x - l) (fun x => RInt k 1 x)); assumption.
  - replace (Finite 0) with (Rbar_plus (0 - l) l) by (cbn; f_equal; ring). apply is_lim_plus'; [|exact Hl].
    replace (Finite (0 - l)) with (Rbar_minus 0 l) by reflexivity. apply is_lim_minus'; [|apply is_lim_const].
    apply (is_lim_ext (fun x => (sin x + 1) / x ^ 1)); [intro x; f_equal; ring|]. apply (over_pow_lim (fun x => sin x + 1) 2 0). intro x. pose proof (SIN_bound x). apply Rabs_le. lra.
Qed.
