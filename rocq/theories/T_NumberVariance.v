(** Property C121: what the sampled level variance estimates. *)
From Coq Require Import List ZArith Bool Arith Lia Reals Lra.
From Coquelicot Require Import Coquelicot.
From Verif Require Import Base S_Order S_EigVals S_Trim S_Loops S_Average M_Step M_Loops P_Order P_EigVals P_Ols P_Loops P_TrimFull T_Loops T_WindowMean.
Import ListNotations.
Local Open Scope R_scope.
Local Notation length := List.length.

Lemma window_RInt (f : R -> R) lo hi a b : lo < hi -> a <= b -> lo <= b -> a <= hi ->
  (forall t, a <= lo + (hi - lo) * t <= b -> f t = 1) -> (forall t, ~ a <= lo + (hi - lo) * t <= b -> f t = 0) ->
  is_RInt f 0 1 ((Rmin hi b - Rmax lo a) / (hi - lo)).
Proof.
  intros Hlh Hab Hb Ha F1 F0. set (w := hi - lo) in *. assert (0 < w) as Hw by (unfold w; lra).
  set (A := Rmax lo a). set (B := Rmin hi b).
  assert (lo <= A) by apply Rmax_l. assert (a <= A) by apply Rmax_r. assert (B <= hi) by apply Rmin_l. assert (B <= b) by apply Rmin_r.
  assert (A <= B) by (unfold A, B; apply Rmax_lub; apply Rmin_glb; lra).
  assert (forall y t, (y - lo) / w < t -> y < lo + w * t) as C1. { intros y t H5. apply (Rmult_lt_compat_l w) in H5; [|exact Hw]. replace (w * ((y - lo) / w)) with (y - lo) in H5 by (field; lra). lra. }
  assert (forall y t, t < (y - lo) / w -> lo + w * t < y) as C2. { intros y t H5. apply (Rmult_lt_compat_l w) in H5; [|exact Hw]. replace (w * ((y - lo) / w)) with (y - lo) in H5 by (field; lra). lra. }
  replace ((B - A) / w) with ((B - lo) / w - (A - lo) / w) by (field; lra).
  apply indicator_RInt.
  - apply Rmult_le_pos; [lra|]. left. now apply Rinv_0_lt_compat.
  - apply Rmult_le_compat_r; [left; now apply Rinv_0_lt_compat|lra].
  - apply (Rmult_le_reg_r w); [exact Hw|]. unfold Rdiv. rewrite Rmult_assoc, Rinv_l by lra. unfold w. lra.
  - intros t [T0 T]. apply C2 in T. apply F0. intros [G1 _]. assert (lo <= lo + w * t) by nra. apply (Rlt_not_le _ _ T). unfold A. now apply Rmax_lub.
  - intros t [T1 T2]. apply C1 in T1. apply C2 in T2. apply F1. lra.
  - intros t [T T0]. apply C1 in T. apply F0. intros [_ G2]. assert (lo + w * t <= hi) by (unfold w in *; nra). apply (Rlt_not_le _ _ T). unfold B. now apply Rmin_glb.
Qed.

Notation Win u L lo hi t := (INR (CountIn u (lo + (hi - lo) * t - L / 2) (lo + (hi - lo) * t + L / 2))).
Lemma win_one x L lo hi t : Win [x] L lo hi t = if Rle_dec (x - L / 2) (lo + (hi - lo) * t) then if Rle_dec (lo + (hi - lo) * t) (x + L / 2) then 1 else 0 else 0.
Proof. cbn [CountIn]. repeat destruct Rle_dec; cbn; lra. Qed.

Lemma two_levels lo hi L x y : lo < hi -> 0 <= L -> lo <= x <= hi -> lo <= y <= hi ->
  is_RInt (fun t => Win [x] L lo hi t * Win [y] L lo hi t) 0 1 (Reach2 lo hi L x y / (hi - lo)).
Proof.
  intros Hlh HL Hx Hy. unfold Reach2. set (a := Rmax x y - L / 2). set (b := Rmin x y + L / 2).
  assert (x <= Rmax x y) by apply Rmax_l. assert (y <= Rmax x y) by apply Rmax_r. assert (Rmin x y <= x) by apply Rmin_l. assert (Rmin x y <= y) by apply Rmin_r.
  assert (Rmax x y <= hi) by (apply Rmax_lub; lra). assert (lo <= Rmin x y) by (apply Rmin_glb; lra).
  assert (Rmax x y = x \/ Rmax x y = y) as Emax by (unfold Rmax; destruct Rle_dec; auto). assert (Rmin x y = x \/ Rmin x y = y) as Emin by (unfold Rmin; destruct Rle_dec; auto).
  assert (forall t, a <= lo + (hi - lo) * t <= b -> Win [x] L lo hi t * Win [y] L lo hi t = 1) as F1.
  { intros t [G1 G2]. rewrite !win_one. unfold a, b in *. repeat destruct Rle_dec; lra. }
  assert (forall t, ~ a <= lo + (hi - lo) * t <= b -> Win [x] L lo hi t * Win [y] L lo hi t = 0) as F0.
  { intros t G. rewrite !win_one. repeat destruct Rle_dec; try lra. exfalso. apply G. unfold a, b. destruct Emax as [-> | ->], Emin as [-> | ->]; lra. }
  destruct (Rle_dec a b) as [Hab|Hab].
  - rewrite Rmax_right.
    + apply window_RInt; auto; unfold a, b; lra.
    + assert (Rmax lo a <= Rmin hi b); [|lra]. apply Rmax_lub; apply Rmin_glb; unfold a, b in *; lra.
  - rewrite Rmax_left.
    + apply (is_RInt_ext (fun _ => 0)). { intros t _. symmetry. apply F0. lra. }
      replace (0 / (hi - lo)) with (scal (1 - 0) 0) by (unfold scal; cbn; unfold mult; cbn; field; lra). apply (is_RInt_const (V := R_NormedModule)).
    + assert (Rmin hi b <= b) by apply Rmin_r. assert (a <= Rmax lo a) by apply Rmax_r. lra.
Qed.

Lemma is_RInt_sum {A} (f : A -> R -> R) (m : A -> R) (l : list A) : (forall x, In x l -> is_RInt (f x) 0 1 (m x)) ->
  is_RInt (fun t => Rsum (map (fun x => f x t) l)) 0 1 (Rsum (map m l)).
Proof.
  induction l as [|x l IH]; intro H.
  - cbn. assert (scal (1 - 0) 0 = 0) as E0 by (unfold scal; cbn; unfold mult; cbn; ring). pose proof (is_RInt_const (V := R_NormedModule) 0 1 0) as I.
    change (is_RInt (fun _ : R => 0) 0 1 (scal (1 - 0) 0)) in I. rewrite E0 in I. exact I.
  - cbn [map]. rewrite Rsum_cons. apply (is_RInt_ext (fun t => plus (f x t) (Rsum (map (fun x => f x t) l)))); [intros t _; rewrite Rsum_cons; reflexivity|].
    apply (is_RInt_plus (V := R_NormedModule)); [apply H; now left|apply IH; intros; apply H; now right].
Qed.
Lemma win_sum u L lo hi t : Win u L lo hi t = Rsum (map (fun x => Win [x] L lo hi t) u).
Proof. induction u as [|x u IH]; [reflexivity|]. cbn [map]. rewrite Rsum_cons, <- IH, <- plus_INR. f_equal. cbn [CountIn]. lia. Qed.
Lemma sum_mult (c : R) l : c * Rsum l = Rsum (map (fun x => c * x) l).
Proof. induction l as [|x l IH]; [cbn; lra|]. cbn [map]. rewrite !Rsum_cons, <- IH. lra. Qed.
Lemma sum_div {A} (f : A -> R) c l : Rsum (map (fun x => f x / c) l) = Rsum (map f l) / c.
Proof. induction l as [|x l IH]; [cbn; unfold Rdiv; lra|]. cbn [map]. rewrite !Rsum_cons, IH. unfold Rdiv. lra. Qed.
Lemma map_ext_Rsum {A} (f g : A -> R) l : (forall x, f x = g x) -> Rsum (map f l) = Rsum (map g l).
Proof. intro H. f_equal. apply map_ext. exact H. Qed.

(** C121. The mean over all window centres of the squared number of levels: every ordered pair of levels is counted by the centres whose
    window holds both. *)
Theorem C121_mean_square : forall (u : list R) lo hi L, IsMin u lo -> IsMax u hi -> lo < hi -> 0 <= L ->
  is_RInt (fun t => IZR (n_within u L (uniform lo hi t)) * IZR (n_within u L (uniform lo hi t))) 0 1 (MeanSquare u lo hi L).
Proof.
  intros u lo hi L [_ Hlo] [_ Hhi] Hlh HL. rewrite Forall_forall in Hlo, Hhi.
  apply (is_RInt_ext (fun t => Rsum (map (fun x => Rsum (map (fun y => Win [x] L lo hi t * Win [y] L lo hi t) u)) u))).
  { intros t _. rewrite n_within_R, <- INR_IZR_INZ. change (uniform lo hi t) with (lo + (hi - lo) * t). rewrite win_sum.
    symmetry. rewrite sum_mult, map_map. apply map_ext_Rsum. intro x. rewrite Rmult_comm, sum_mult, map_map. reflexivity. }
  assert (MeanSquare u lo hi L = Rsum (map (fun x => Rsum (map (fun y => Reach2 lo hi L x y / (hi - lo)) u)) u)) as ->.
  { unfold MeanSquare. change (fold_right Rplus 0) with Rsum. rewrite <- sum_div. apply map_ext_Rsum. intro x. symmetry. apply sum_div. }
  apply is_RInt_sum. intros x Hx. apply is_RInt_sum. intros y Hy. apply two_levels; auto.
Qed.
Print Assumptions C121_mean_square.

(** ** The average of the population variance of independent samples *)
Lemma is_RInt_quad (g : R -> R) m1 m2 a b c : is_RInt g 0 1 m1 -> is_RInt (fun t => g t * g t) 0 1 m2 ->
  is_RInt (fun t => a + b * g t + c * (g t * g t)) 0 1 (a + b * m1 + c * m2).
Proof.
  intros I1 I2. pose proof (is_RInt_const (V := R_NormedModule) 0 1 a) as I0. change (is_RInt (fun _ : R => a) 0 1 (scal (1 - 0) a)) in I0.
  assert (scal (1 - 0) a = a) as E0 by (unfold scal; cbn; unfold mult; cbn; ring). rewrite E0 in I0.
  apply (is_RInt_scal (V := R_NormedModule) _ _ _ b) in I1. apply (is_RInt_scal (V := R_NormedModule) _ _ _ c) in I2.
  pose proof (is_RInt_plus (V := R_NormedModule) _ _ _ _ _ _ (is_RInt_plus (V := R_NormedModule) _ _ _ _ _ _ I0 I1) I2) as I.
  exact I.
Qed.
Lemma average_ext k : forall f g v, (forall l, length l = k -> f l = g l) -> IsAverage k f v -> IsAverage k g v.
Proof.
  induction k as [|k IH]; intros f g v H A; cbn [IsAverage] in *; [rewrite <- H by reflexivity; exact A|].
  destruct A as (h & A & I). exists h. split; [|exact I]. intro t. apply (IH (fun l => f (t :: l))); [|apply A]. intros l Hl. apply H. cbn. lia.
Qed.
Lemma average_quad (g : R -> R) m1 m2 : is_RInt g 0 1 m1 -> is_RInt (fun t => g t * g t) 0 1 m2 ->
  forall k a b c d, IsAverage k (fun l => a + b * Rsum (map g l) + c * (Rsum (map g l) * Rsum (map g l)) + d * Rsum (map (fun t => g t * g t) l))
    (a + b * (INR k * m1) + c * (INR k * m2 + INR k * (INR k - 1) * (m1 * m1)) + d * (INR k * m2)).
Proof.
  intros I1 I2. induction k as [|k IH]; intros a b c d; cbn [IsAverage]; [cbn; ring|].
  exists (fun t => (a + b * (INR k * m1) + c * (INR k * m2 + INR k * (INR k - 1) * (m1 * m1)) + d * (INR k * m2)) +
    (b + 2 * c * (INR k * m1)) * g t + (c + d) * (g t * g t)). split.
  - intro t. apply (average_ext k (fun l => (a + b * g t + c * (g t * g t) + d * (g t * g t)) + (b + 2 * c * g t) * Rsum (map g l) +
      c * (Rsum (map g l) * Rsum (map g l)) + d * Rsum (map (fun t => g t * g t) l))).
    + intros l _. cbn [map]. rewrite !Rsum_cons. ring.
    + pose proof (IH (a + b * g t + c * (g t * g t) + d * (g t * g t)) (b + 2 * c * g t) c d) as A.
      match type of A with IsAverage _ _ ?v => match goal with |- IsAverage _ _ ?v' => replace v' with v by ring end end. exact A.
  - pose proof (is_RInt_quad g m1 m2 (a + b * (INR k * m1) + c * (INR k * m2 + INR k * (INR k - 1) * (m1 * m1)) + d * (INR k * m2))
      (b + 2 * c * (INR k * m1)) (c + d) I1 I2) as I.
    rewrite S_INR. match type of I with is_RInt _ _ _ ?v => match goal with |- is_RInt _ _ _ ?v' => replace v' with v by ring end end. exact I.
Qed.
Lemma popvar_quad (l : list R) : l <> [] -> PopVar l = 0 + 0 * Rsum l + (- / (INR (length l) * INR (length l))) * (Rsum l * Rsum l) + / INR (length l) * Rsum (map (fun x => x * x) l).
Proof.
  intro Hne. assert (INR (length l) <> 0) as Hn by (apply not_0_INR; destruct l; [congruence|discriminate]).
  assert (forall m, Rsum (map (fun x => (x - m) * (x - m)) l) = Rsum (map (fun x => x * x) l) - 2 * m * Rsum l + INR (length l) * (m * m)) as E.
  { intro m. clear. induction l as [|x l IH]; [cbn; ring|]. cbn [map length]. rewrite !Rsum_cons, IH, S_INR. ring. }
  unfold PopVar. rewrite E. unfold Rmean. field. exact Hn.
Qed.
Lemma map_nth_seq {A} (f : nat -> A) (l : list R) (g : R -> A) : (forall j, f (S j) = g (nth j l 0)) -> map f (seq 1 (length l)) = map g l.
Proof.
  intro H. rewrite <- seq_shift, map_map. revert f H. induction l as [|x l IH]; intros f H; [reflexivity|]. cbn [length seq map]. f_equal; [apply (H 0%nat)|].
  rewrite <- seq_shift, map_map. apply (IH (fun j => f (S j))). intro j. apply (H (S j)).
Qed.

(** C121 (the estimate is biased). A level variance computed from exactly k windows with independent uniform centres is, on average,
    (1 - 1/k) times the number variance: mean square minus squared mean of the number of levels in a window. *)
Theorem C121_expected_refuted : forall (u : list R) lo hi L k tol mn t0, IsMin u lo -> IsMax u hi -> lo < hi -> 0 <= L -> (1 <= k)%nat -> tol <= 0 ->
  exists s, (forall l, length l = k -> sigma_L u L (Z.of_nat k) tol mn (fun j => nth j (t0 :: l) 0) = Ok (Done (s l, false, Z.of_nat k))) /\
    IsAverage k s ((1 - / INR k) * NumberVariance u lo hi L).
Proof.
  intros u lo hi L k tol mn t0 Hlo Hhi Hlh HL Hk Ht.
  set (g := fun t => IZR (n_within u L (uniform lo hi t))).
  assert (is_RInt g 0 1 (MeanCount u lo hi L)) as I1 by (apply C119_mean; auto).
  assert (is_RInt (fun t => g t * g t) 0 1 (MeanSquare u lo hi L)) as I2 by (apply C121_mean_square; auto).
  exists (fun l => PopVar (map g l)). split.
  - intros l Hl. assert (u <> []) as Hu by (destruct Hlo as [H _]; intros ->; destruct H).
    destruct (C35_population_variance u L (Z.of_nat k) tol mn (fun j => nth j (t0 :: l) 0) Hu) as (lo' & hi' & s & conv & k' & M1 & M2 & E & Hk' & Es & _).
    assert (lo' = lo) as ->. { destruct M1 as (A & B), Hlo as (C & D). rewrite Forall_forall in B, D. specialize (B _ C). specialize (D _ A). lra. }
    assert (hi' = hi) as ->. { destruct M2 as (A & B), Hhi as (C & D). rewrite Forall_forall in B, D. specialize (B _ C). specialize (D _ A). lra. }
    assert (conv = false) as ->.
    { destruct conv; [|reflexivity]. exfalso. pose proof (proj1 (C36_flag u L _ tol mn _ lo hi s true k' Hu M1 M2 E) eq_refl 0%nat 0%nat ltac:(lia) ltac:(lia)) as K.
      cbv beta in K. rewrite Rminus_eq_0, Rabs_R0 in K. lra. }
    assert (k' = k) as ->.
    { destruct (C36_iterations u L (Z.of_nat k) tol mn (fun j => nth j (t0 :: l) 0) Hu) as (s' & conv' & k2 & E2 & B & C). rewrite E in E2. injection E2 as <- <- <-.
      destruct (Z.lt_ge_cases (Z.of_nat k') (Z.of_nat k)) as [H|H]; [destruct (C H) as [X _]; discriminate|lia]. }
    rewrite E. do 4 f_equal. cbv zeta in Es. rewrite Es. f_equal. rewrite <- Hl. apply (map_nth_seq _ l g). intro j.
    cbn [nth]. unfold g, WindowCount. rewrite n_within_R, <- INR_IZR_INZ. reflexivity.
  - assert (INR k <> 0) as Hn by (apply not_0_INR; lia).
    apply (average_ext k (fun l => 0 + 0 * Rsum (map g l) + (- / (INR k * INR k)) * (Rsum (map g l) * Rsum (map g l)) + / INR k * Rsum (map (fun t => g t * g t) l))).
    + intros l Hl. rewrite popvar_quad by (destruct l; [cbn in Hl; lia|discriminate]). rewrite map_length, Hl, map_map. reflexivity.
    + pose proof (average_quad g _ _ I1 I2 k 0 0 (- / (INR k * INR k)) (/ INR k)) as A.
      match type of A with IsAverage _ _ ?v => match goal with |- IsAverage _ _ ?v' => replace v' with v; [exact A|] end end.
      unfold NumberVariance. field. exact Hn.
Qed.
Print Assumptions C121_expected_refuted.

(** The number variance is the mean squared deviation of the number of levels in a window from its mean, so it is not negative. *)
Theorem C121_number_variance : forall (u : list R) lo hi L, IsMin u lo -> IsMax u hi -> lo < hi -> 0 <= L ->
  let n t := IZR (n_within u L (uniform lo hi t)) in
  is_RInt n 0 1 (MeanCount u lo hi L) /\
  is_RInt (fun t => (n t - MeanCount u lo hi L) * (n t - MeanCount u lo hi L)) 0 1 (NumberVariance u lo hi L) /\
  0 <= NumberVariance u lo hi L.
Proof.
  intros u lo hi L Hlo Hhi Hlh HL n. set (m := MeanCount u lo hi L).
  assert (is_RInt n 0 1 m) as I1 by (apply C119_mean; auto).
  assert (is_RInt (fun t => n t * n t) 0 1 (MeanSquare u lo hi L)) as I2 by (apply C121_mean_square; auto).
  pose proof (is_RInt_quad n _ _ (m * m) (- (2 * m)) 1 I1 I2) as I.
  assert (is_RInt (fun t => (n t - m) * (n t - m)) 0 1 (NumberVariance u lo hi L)) as J.
  { replace (NumberVariance u lo hi L) with (m * m + - (2 * m) * m + 1 * MeanSquare u lo hi L) by (unfold NumberVariance; fold m; ring).
    eapply is_RInt_ext; [|exact I]. intros t _. cbv beta. match goal with |- ?a = ?b => change (@eq R a b) end. ring. }
  split; [exact I1|]. split; [exact J|]. apply (is_RInt_ge_0 (fun t => (n t - m) * (n t - m)) 0 1); [lra|exact J|]. intros t _. apply Rle_0_sqr.
Qed.
Print Assumptions C121_number_variance.

(** Levels 0, 1, 3 and windows of length 2: the number variance is 2/9, and level variances from four windows average to 1/6. *)
Example C121_case : NumberVariance [0; 1; 3] 0 3 2 = 2 / 9 /\
  exists s, (forall l, length l = 4%nat -> sigma_L [0; 1; 3] 2 4 0 0 (fun j => nth j (0 :: l) 0) = Ok (Done (s l, false, 4%Z))) /\ IsAverage 4 s (1 / 6).
Proof.
  assert (NumberVariance [0; 1; 3] 0 3 2 = 2 / 9) as E.
  { unfold NumberVariance, MeanSquare, MeanCount, Reach1, Reach2. cbn [map fold_right].
    repeat match goal with
      | |- context [Rmin ?a ?b] => first [rewrite (Rmin_left a b) by lra|rewrite (Rmin_right a b) by lra]
      | |- context [Rmax ?a ?b] => first [rewrite (Rmax_left a b) by lra|rewrite (Rmax_right a b) by lra]
      end. field. }
  split; [exact E|].
  destruct (C121_expected_refuted [0; 1; 3] 0 3 2 4 0 0 0) as (s & H1 & H2); try lra; try lia.
  - split; [now left|repeat constructor; lra].
  - split; [do 2 right; now left|repeat constructor; lra].
  - exists s. split; [exact H1|]. replace (1 / 6) with ((1 - / INR 4) * NumberVariance [0; 1; 3] 0 3 2); [exact H2|]. rewrite E. cbn. field.
Qed.
