(** Properties C38, C41-C43: compensated addition, least squares, quadrature and sampled rigidity values. *)
From Coq Require Import List ZArith Bool Arith Lia Reals Lra QArith.
From Coq Require Import Floats.SpecFloat.
From Flocq Require Import Core BinarySingleNaN.
From Coquelicot Require Import Coquelicot.
From Verif Require Import Base S_Order S_EigVals S_Trim M_Step M_Quad S_Quad P_Order P_Step P_EigVals P_TrimStat P_Quad P_Ols P_Float.
Import ListNotations.
Local Open Scope R_scope.
Local Notation length := List.length.

(** C38. Exact arithmetic: the compensated sum is the sum, with nothing carried. *)
Theorem C38_exact : forall s u c : R, kahan_add s u c = (s + u - c, 0).
Proof. intros. unfold kahan_add. cbn. f_equal; ring. Qed.
Print Assumptions C38_exact.

(** C38. Binary64: with [r] the rounded u - c, no larger in magnitude than s, and no overflow in r and in the sum, the returned
    pair represents s + r exactly; the sum is the correctly rounded s + r. [SF2R radix2] is the real value of a float. *)
Theorem C38_binary64 : forall s u c : b64,
  valid_binary b64_prec b64_emax s = true -> valid_binary b64_prec b64_emax u = true -> valid_binary b64_prec b64_emax c = true ->
  is_finite_SF s = true -> is_finite_SF u = true -> is_finite_SF c = true ->
  let r := SFsub b64_prec b64_emax u c in
  let sum := fst (kahan_add s u c) in let carry := snd (kahan_add s u c) in
  is_finite_SF r = true -> is_finite_SF sum = true -> Rabs (SF2R radix2 r) <= Rabs (SF2R radix2 s) ->
  is_finite_SF carry = true /\ SF2R radix2 sum - SF2R radix2 carry = SF2R radix2 s + SF2R radix2 r /\
  SF2R radix2 sum = round radix2 (FLT_exp (-1074) 53) ZnearestE (SF2R radix2 s + SF2R radix2 r).
Proof.
  intros s u c V1 V2 V3 F1 F2 F3 r sum carry Fr Fs H.
  destruct (kahan_exact s u c V1 V2 V3 F1 F2 F3 Fr Fs H) as (_ & _ & Fc & E & _ & R). split; [exact Fc|]. split; [exact E|exact R].
Qed.
Print Assumptions C38_binary64.
(** 2^53 + 1 is not a float: the sum stays 2^53 and the carry is -1. *)
Example C38_case :
  let two53 := b64_ofZ 9007199254740992 in
  kahan_add two53 (b64_ofZ 1) (b64_ofZ 0) = (two53, b64_ofZ (-1)) /\
  valid_binary b64_prec b64_emax two53 = true /\ is_finite_SF two53 = true /\
  Rabs (SF2R radix2 (SFsub b64_prec b64_emax (b64_ofZ 1) (b64_ofZ 0))) <= Rabs (SF2R radix2 two53).
Proof.
  cbv zeta. repeat split; try (vm_compute; reflexivity).
  replace (SFsub b64_prec b64_emax (b64_ofZ 1) (b64_ofZ 0)) with (S754_finite false 4503599627370496 (-52)) by (vm_compute; reflexivity).
  replace (b64_ofZ 9007199254740992) with (S754_finite false 4503599627370496 1) by (vm_compute; reflexivity).
  unfold SF2R, F2R. cbn [cond_Zopp Fnum Fexp]. rewrite !Rabs_mult, !(Rabs_pos_eq (bpow _ _)) by apply bpow_ge_0.
  apply Rmult_le_compat_l; [apply Rabs_pos|]. apply bpow_le. lia.
Qed.

(** C41. The fitted line has the least sum of squared residuals among all lines, and its residuals sum to zero. *)
Theorem C41_least_squares : forall x y : list R, x <> [] -> length x = length y ->
  let a := slope x y in let b := intercept x y a in
  Rsum (Residuals x y a b) = 0 /\ forall a' b', SumSq (Residuals x y a b) <= SumSq (Residuals x y a' b').
Proof. intros x y Hx Hl a b. split; [now apply ols_sum_zero|]. now apply ols_minimal. Qed.
Print Assumptions C41_least_squares.
(** C41. Points on a line, with two different abscissae, give back that line. *)
Theorem C41_recovers_line : forall (x : list R) a b u v, In u x -> In v x -> u <> v ->
  let y := map (fun t => a * t + b) x in slope x y = a /\ intercept x y (slope x y) = b.
Proof.
  intros x a b u v Hu Hv Huv y. destruct (ols_recovers x a b u v Hu Hv Huv) as (H1 & H2). fold y in H1, H2. now rewrite H1.
Qed.
Print Assumptions C41_recovers_line.
(** C41. All abscissae equal: slope 0 (and then the intercept is the mean of y). *)
Theorem C41_constant_x : forall (x y : list R) c, List.Forall (fun v => v = c) x ->
  slope x y = 0 /\ intercept x y (slope x y) = Rmean y.
Proof. intros x y c H. rewrite (slope_constant x y c H), intercept_R. split; lra. Qed.
Print Assumptions C41_constant_x.
Example C41_case :
  slope [1; 2; 4]%Q [1; 3; 2]%Q = (3 # 14)%Q /\ intercept [1; 2; 4]%Q [1; 3; 2]%Q (3 # 14) = (3 # 2)%Q /\
  slope [2; 2]%Q [1; 3]%Q = 0%Q.
Proof. vm_compute. repeat split; reflexivity. Qed.
Example C41_case_hypotheses : In 1 [1; 2] /\ In 2 [1; 2] /\ 1 <> 2 /\ List.Forall (fun v => v = 2) [2; 2].
Proof. repeat split; cbn; auto; lra. Qed.

(** C42. The trapezoidal rule over any grid is the sum of trapezoids, and exact for affine functions. *)
Theorem C42_trapezoid_exact : forall (g : list R) lo hi a b, Increasing g -> head_opt g = Some lo -> last_opt g = Some hi ->
  let v := map (fun t => a * t + b) g in
  integrate_fast g v = TrapSum g v /\ is_RInt (fun t => a * t + b) lo hi (integrate_fast g v).
Proof.
  intros g lo hi a b _ H1 H2 v. split; [apply trap_TrapSum; unfold v; now rewrite map_length|now apply trap_exact].
Qed.
Print Assumptions C42_trapezoid_exact.
(** C42. Simpson's rule with three or more points, in odd or even number, is exact for quadratics. *)
Theorem C42_simpson_exact : forall (g : list R) lo hi a b c, Increasing g -> (3 <= length g)%nat ->
  head_opt g = Some lo -> last_opt g = Some hi ->
  is_RInt (fun t => a * t * t + b * t + c) lo hi (int_simps_nonunif g (map (fun t => a * t * t + b * t + c) g)).
Proof. intros. now apply simpson_exact. Qed.
Print Assumptions C42_simpson_exact.
(** C42. On uniform grids with an odd number of points Simpson's rule is exact for cubics. *)
Theorem C42_simpson_cubic : forall (g : list R) s lo hi a b c d, 0 < s -> Uniform s g -> (3 <= length g)%nat -> Nat.odd (length g) = true ->
  head_opt g = Some lo -> last_opt g = Some hi ->
  is_RInt (fun t => a*t*t*t + b*t*t + c*t + d) lo hi (int_simps_nonunif g (map (fun t => a*t*t*t + b*t*t + c*t + d) g)).
Proof. intros g s lo hi a b c d Hs U. now apply (simpson_exact_cubic a b c d s). Qed.
Print Assumptions C42_simpson_cubic.
(** C42. Both rules are linear in the values. *)
Theorem C42_linear : forall (g u v : list R) al be, length u = length v ->
  let comb := map (fun p => al * fst p + be * snd p) (combine u v) in
  integrate_fast g comb = al * integrate_fast g u + be * integrate_fast g v /\
  ((3 <= length g)%nat -> int_simps_nonunif g comb = al * int_simps_nonunif g u + be * int_simps_nonunif g v).
Proof. intros g u v al be H comb. split; [now apply trap_linear|intros; now apply simpson_linear]. Qed.
Print Assumptions C42_linear.
(** C42. With two points the irregular Simpson rule reads index -1 and gives h (2 v0 + v1) / 3 instead of the trapezoid, which
    is wrong for every affine function of non-zero slope. *)
Theorem C42_two_points_refuted : forall lo hi a b, lo < hi -> a <> 0 ->
  let f t := a * t + b in
  int_simps_nonunif [lo; hi] [f lo; f hi] = (hi - lo) * (2 * f lo + f hi) / 3 /\
  ~ is_RInt f lo hi (int_simps_nonunif [lo; hi] [f lo; f hi]).
Proof.
  intros lo hi a b Hlt Ha f.
  assert (E : int_simps_nonunif [lo; hi] [f lo; f hi] = (hi - lo) * (2 * f lo + f hi) / 3).
  { unfold int_simps_nonunif. cbn [length Z.of_nat Pos.of_succ_nat Pos.succ Z.sub Z.opp Z.add Z.pos_sub ndiff].
    change (Z.to_nat (1 / 2)) with 0%nat. change ((1 + 1) mod 2 =? 0)%Z with true. cbn. unfold sq, cube, at_. cbn.
    change (Pos.to_nat 1) with 1%nat. cbn [nth_error]. field. lra. }
  split; [exact E|]. rewrite E. intros H. pose proof (is_RInt_unique _ _ _ _ H) as H1. pose proof (is_RInt_unique _ _ _ _ (int_affine a b lo hi)) as H2.
  unfold f in *. rewrite H1 in H2. assert (K : a * ((hi - lo) * (hi - lo)) = 0) by nra. apply Rmult_integral in K as [K|K]; [now apply Ha|].
  apply Rmult_integral in K. lra.
Qed.
Print Assumptions C42_two_points_refuted.
(** x^2 over the irregular grids 0,1,3 and 0,1,3,4: 9 and 64/3. *)
Example C42_case :
  int_simps_nonunif [0; 1; 3]%Q [0; 1; 9]%Q = 9%Q /\ int_simps_nonunif [0; 1; 3; 4]%Q [0; 1; 9; 16]%Q = (64 # 3)%Q /\
  integrate_fast [0; 1; 3]%Q [1; 3; 7]%Q = 12%Q /\ int_simps_nonunif [0; 1]%Q [0; 1]%Q = (1 # 3)%Q /\
  int_simps_nonunif [0; 1; 2]%Q [0; 1; 8]%Q = 4%Q.
Proof. vm_compute. repeat split; reflexivity. Qed.
Example C42_case_hypotheses : Increasing [0; 1; 3] /\ Uniform 1 [0; 1; 2].
Proof.
  split; intros [|[|[|i]]] x y; cbn; intros E1 E2; try discriminate; try (destruct i; discriminate);
    injection E1; injection E2; intros; subst; lra.
Qed.

(** C43. Every sampled value is non-negative, for both integration methods. *)
Theorem C43_nonnegative : forall simpson gridsize L (unfolded : list R) start d, 0 < L -> (3 <= gridsize)%nat ->
  d3_sample simpson gridsize L unfolded start = Done d -> 0 <= d.
Proof. intros. eapply d3_nonneg; eauto. Qed.
Print Assumptions C43_nonnegative.
(** C43. A value is always computed: no spectrum, window or grid makes the step function run on or read out of bounds. *)
Theorem C43_defined : forall simpson gridsize L (unfolded : list R) start, unfolded <> [] -> (1 <= gridsize)%nat ->
  exists d, d3_sample simpson gridsize L unfolded start = Done d.
Proof. intros. now apply d3_defined. Qed.
Print Assumptions C43_defined.
(** C43. With the trapezoidal rule the value is at most twice what any other line would give for the same step values. *)
Theorem C43_any_line : forall gridsize L (unfolded : list R) start d, 0 < L -> (2 <= gridsize)%nat ->
  d3_sample false gridsize L unfolded start = Done d ->
  let g := EvenGrid (start - L / 2) (start + L / 2) gridsize in
  exists counts, step_function_fast unfolded g = Done counts /\
    forall a b, d <= 2 * (TrapSum g (SqResiduals g (map IZR counts) a b) / L).
Proof. intros. now apply d3_line. Qed.
Print Assumptions C43_any_line.
(** C43. Moving the spectrum and the window centre together changes nothing. *)
Theorem C43_translation : forall simpson gridsize L (unfolded : list R) start t, (2 <= gridsize)%nat ->
  d3_sample simpson gridsize L (map (fun v => v + t) unfolded) (start + t) = d3_sample simpson gridsize L unfolded start.
Proof. intros. now apply d3_shift. Qed.
Print Assumptions C43_translation.
(** Levels 1, 2, 4, window of length 4 about 5/2, five grid points. *)
Example C43_case :
  d3_sample true 5 4%Q [1; 2; 4]%Q (5 # 2)%Q = Done (19 # 300)%Q /\ d3_sample false 5 4%Q [1; 2; 4]%Q (5 # 2)%Q = Done (7 # 100)%Q /\
  d3_sample false 5 4%Q [11; 12; 14]%Q (25 # 2)%Q = Done (7 # 100)%Q.
Proof. vm_compute. repeat split; reflexivity. Qed.
