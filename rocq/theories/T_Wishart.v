(** Property C142: eigenvalues of the covariances of pure noise, and the Marchenko-Pastur law on the stored end points. *)
From Coq Require Import List ZArith Bool Arith Lia Reals Lra Sorting.Permutation.
From Coquelicot Require Import Coquelicot.
From Verif Require Import Base S_Generate S_Normal S_Rotate S_Series S_Cov M_EigVals M_Series M_Cov P_Order P_Cov P_Generate P_Surmise P_Rotate T_Rotate P_Moments P_Wishart T_Units S_Rotate.
Import ListNotations.
Local Open Scope R_scope.

(** A routine that diagonalises every symmetric matrix of order [m]. *)
Definition Diagonalises (m : nat) (ev : ndarray R -> result (list R)) : Prop :=
  forall x, Symmetric m x -> exists lam, ev (mkarr [m; m] (table m m x)) = Ok lam /\ Spectrum m x lam.
(** The eigenvalues of the object built from [n] series of [t] values with [covariance=True, trim_zeros=False]. *)
Definition noise_object (ev : ndarray R -> result (list R)) (n t : nat) (zeros : zeros_arg R) (draws : list R) : result (tsobj R) :=
  series_object sqrt ev (mkarr [n; t] draws) true false zeros 1.
Definition of_object (f : list R -> R) (o : result (tsobj R)) : R := match o with Ok ts => f (ts_vals ts) | Raise _ => 0 end.

Lemma total_perm l l' : Permutation l l' -> total l = total l'.
Proof. unfold total. induction 1; cbn; lra. Qed.
Lemma squares_perm l l' : Permutation l l' -> squares l = squares l'.
Proof. intro H. unfold squares. apply total_perm. now apply Permutation_map. Qed.
Lemma handed_symmetric n t x m : Symmetric m (handed true n t x).
Proof.
  intros i j _ _. unfold handed, SampleCov. destruct (Nat.leb n t); f_equal; rewrite !Sum_SumTo; apply SumTo_ext; intros; ring.
Qed.
Lemma noise_values ev n t zeros z : Diagonalises (Nat.min n t) ev -> (2 <= n)%nat -> (2 <= t)%nat ->
  exists ts, noise_object ev n t zeros z = Ok ts /\ length (ts_vals ts) = Nat.min n t /\ ts_mp ts = (MPLower 1 (Z.of_nat n) (Z.of_nat t), MPUpper 1 (Z.of_nat n) (Z.of_nat t)) /\
    total (ts_vals ts) = gram1 n t z / (INR t - 1) /\ squares (ts_vals ts) = gram n t z / ((INR t - 1) * (INR t - 1)).
Proof.
  intros He Hn Ht. assert (INR t - 1 <> 0) as Hnz by (assert (2 <= INR t) by (change 2 with (INR 2); now apply le_INR); lra).
  pose (mm := Nat.min n t). destruct (He (handed true n t (flat t z)) (handed_symmetric n t (flat t z) mm)) as (lam & El & Hs). fold mm in El, Hs.
  pose proof (solved ev n t z true ltac:(lia) ltac:(lia) (or_introl eq_refl)) as Hsol. fold mm in Hsol. rewrite El in Hsol.
  unfold noise_object, series_object, from_time_series. cbn [shape data negb Z.eqb Pos.eqb orb]. rewrite Hsol. cbn [bind zero_trim negb].
  assert (length lam = mm) as Hl by apply Hs. destruct lam as [|h lam]; [unfold mm in Hl; cbn in Hl; lia|]. cbn [arr_max bind]. destruct (Nat.eqb_spec t 0) as [|_]; [lia|].
  eexists. split; [reflexivity|]. cbn [ts_vals ts_mp]. pose proof (np_sort_perm (h :: lam)) as HP.
  split; [rewrite <- (Permutation_length HP); exact Hl|]. split.
  { unfold MPLower, MPUpper, nsq. cbn. rewrite !Rmult_1_l. reflexivity. }
  rewrite <- (total_perm _ _ HP), <- (squares_perm _ _ HP), (spectrum_total _ _ _ Hs), (spectrum_squares _ _ _ Hs).
  set (D := Dev (data_at t z) t). unfold gram1, gram. fold D. unfold mm, handed. destruct (Nat.leb_spec n t) as [Hle|Hgt].
  - rewrite Nat.min_l by exact Hle. unfold SampleCov. change (flat t z) with (data_at t z). fold D. split.
    + unfold Rdiv. rewrite (Rmult_comm _ (/ (INR t - 1))), <- SumTo_scale. apply SumTo_ext. intros i _. rewrite Sum_SumTo. ring.
    + unfold Rdiv. rewrite (Rmult_comm _ (/ ((INR t - 1) * (INR t - 1)))), <- SumTo_scale. apply SumTo_ext. intros i _. rewrite <- SumTo_scale. apply SumTo_ext. intros j _. rewrite !Sum_SumTo.
      transitivity (/ ((INR t - 1) * (INR t - 1)) * (SumTo t (fun k => D i k * D j k) * SumTo t (fun k => D i k * D j k))); [field; exact Hnz|]. f_equal. rewrite SumTo_product.
      apply SumTo_ext. intros k _. apply SumTo_ext. intros l _. ring.
  - rewrite Nat.min_r by lia. change (flat t z) with (data_at t z). fold D. split.
    + rewrite SumTo_swap. unfold Rdiv. rewrite (Rmult_comm _ (/ (INR t - 1))), <- SumTo_scale. apply SumTo_ext. intros i _. rewrite Sum_SumTo. ring.
    + transitivity (SumTo t (fun k => SumTo t (fun l => / ((INR t - 1) * (INR t - 1)) * SumTo n (fun i => SumTo n (fun j => D i k * D j k * D i l * D j l))))).
      * apply SumTo_ext. intros k _. apply SumTo_ext. intros l _. rewrite !Sum_SumTo.
        transitivity (/ ((INR t - 1) * (INR t - 1)) * (SumTo n (fun s => D s k * D s l) * SumTo n (fun s => D s k * D s l))); [field; exact Hnz|]. f_equal. rewrite SumTo_product.
        apply SumTo_ext. intros i _. apply SumTo_ext. intros j _. ring.
      * rewrite (SumTo_ext t _ (fun k => / ((INR t - 1) * (INR t - 1)) * SumTo t (fun l => SumTo n (fun i => SumTo n (fun j => D i k * D j k * D i l * D j l))))) by (intros; now rewrite SumTo_scale).
        rewrite SumTo_scale. unfold Rdiv. rewrite Rmult_comm. f_equal.
        transitivity (SumTo t (fun k => SumTo n (fun i => SumTo n (fun j => SumTo t (fun l => D i k * D j k * D i l * D j l))))).
        -- apply SumTo_ext. intros k _. rewrite SumTo_swap. apply SumTo_ext. intros i _. apply SumTo_swap.
        -- rewrite SumTo_swap. apply SumTo_ext. intros i _. rewrite SumTo_swap. reflexivity.
Qed.

(** C142. [n] series of [t] independent standard normal values, n <= t or n > t: the min(n, t) eigenvalues add up to n on average,
    and the sum of their squares to n (1 + (n+1)/(t-1)). *)
Theorem C142_noise : forall ev n t zeros, Diagonalises (Nat.min n t) ev -> (2 <= n)%nat -> (2 <= t)%nat ->
  (forall draws, exists ts, noise_object ev n t zeros draws = Ok ts /\ length (ts_vals ts) = Nat.min n t /\
     ts_mp ts = (MPLower 1 (Z.of_nat n) (Z.of_nat t), MPUpper 1 (Z.of_nat n) (Z.of_nat t))) /\
  NormalAverage (n * t) (fun draws => of_object total (noise_object ev n t zeros draws)) (INR n) /\
  NormalAverage (n * t) (fun draws => of_object squares (noise_object ev n t zeros draws)) (INR n * (1 + (INR n + 1) / (INR t - 1))).
Proof.
  intros ev n t zeros He Hn Ht. assert (INR t - 1 <> 0) as Hnz by (assert (2 <= INR t) by (change 2 with (INR 2); now apply le_INR); lra). split; [|split].
  - intro z. destruct (noise_values ev n t zeros z He Hn Ht) as (ts & E & L & P & _). now exists ts.
  - apply (navg_ext _ (fun z => / (INR t - 1) * gram1 n t z)).
    + intros z _. destruct (noise_values ev n t zeros z He Hn Ht) as (ts & E & _ & _ & T & _). rewrite E. cbn [of_object]. rewrite T. unfold Rdiv. ring.
    + refine (navg_value _ _ _ _ _ (navg_scale _ _ _ (/ (INR t - 1)) (gram1_avg n t ltac:(lia)))). field. exact Hnz.
  - apply (navg_ext _ (fun z => / ((INR t - 1) * (INR t - 1)) * gram n t z)).
    + intros z _. destruct (noise_values ev n t zeros z He Hn Ht) as (ts & E & _ & _ & _ & S). rewrite E. cbn [of_object]. rewrite S. unfold Rdiv. ring.
    + refine (navg_value _ _ _ _ _ (navg_scale _ _ _ (/ ((INR t - 1) * (INR t - 1))) (gram_avg n t ltac:(lia)))). field. exact Hnz.
Qed.
Print Assumptions C142_noise.

(** The Marchenko-Pastur density with aspect ratio [g] between the end points [lo] and [hi]. *)
Definition MPDensity (g lo hi x : R) : R := sqrt ((hi - x) * (x - lo)) / (2 * PI * g * x).
(** Moments of a half disc of radius [r] about [m]. *)
Lemma disc r m c d : 0 < r -> is_RInt (fun x => (c + d * x) * sqrt (r * r - (x - m) * (x - m))) (m - r) (m + r) ((c + d * m) * (PI * (r * r) / 2)).
Proof.
  intros Hr. pose proof PI_RGT_0 as HPI. pose (f := fun x => (c + d * x) * sqrt (r * r - (x - m) * (x - m))).
  assert (forall x, continuous f x) as HC.
  { intro x. apply (continuous_mult (K := R_AbsRing) (fun x => c + d * x) (fun x => sqrt (r * r - (x - m) * (x - m)))).
    - apply (ex_derive_continuous (V := R_NormedModule)). auto_derive. exact I.
    - apply (continuous_comp (fun x => r * r - (x - m) * (x - m)) sqrt).
      + apply (ex_derive_continuous (V := R_NormedModule)). auto_derive. exact I.
      + apply continuous_sqrt. }
  assert (is_RInt (fun t => scal (r * cos t) (f (m + r * sin t))) (- (PI / 2)) (PI / 2) (RInt f (m + r * sin (- (PI / 2))) (m + r * sin (PI / 2)))) as HS.
  { apply (is_RInt_comp (V := R_CompleteNormedModule) f (fun t => m + r * sin t) (fun t => r * cos t)).
    - intros t _. apply HC.
    - intros t _. split; [auto_derive; [exact I|ring]|]. apply (continuous_mult (K := R_AbsRing) (fun _ => r) cos); [apply continuous_const|apply continuous_cos]. }
  rewrite sin_neg, sin_PI2 in HS. replace (m + r * - (1)) with (m - r) in HS by ring. rewrite Rmult_1_r in HS.
  assert (is_RInt (fun t => scal (r * cos t) (f (m + r * sin t))) (- (PI / 2)) (PI / 2) ((c + d * m) * (PI * (r * r) / 2))) as HV.
  { pose (F := fun t => r * r * ((c + d * m) * ((t + sin t * cos t) / 2) - d * r * (cos t * cos t * cos t) / 3)).
    apply (is_RInt_ext (fun t => r * r * ((c + d * m + d * r * sin t) * (cos t * cos t)))).
    - intros t Ht. rewrite Rmin_left, Rmax_right in Ht by lra. unfold scal. cbn. unfold mult. cbn. unfold f.
      assert (0 <= cos t) as Hc by (apply cos_ge_0; lra). replace (r * r - (m + r * sin t - m) * (m + r * sin t - m)) with (r * cos t * (r * cos t)).
      + rewrite sqrt_square by nra. ring.
      + pose proof (sin2_cos2 t) as K. unfold Rsqr in K. replace (r * cos t * (r * cos t)) with (r * r * (cos t * cos t)) by ring. replace (cos t * cos t) with (1 - sin t * sin t) by lra. ring.
    - replace ((c + d * m) * (PI * (r * r) / 2)) with (F (PI / 2) - F (- (PI / 2))).
      2:{ unfold F. rewrite sin_neg, cos_neg, sin_PI2, cos_PI2. field. }
      apply (is_RInt_derive (V := R_CompleteNormedModule) F).
      + intros t _. unfold F. auto_derive; [exact I|]. pose proof (sin2_cos2 t) as K. unfold Rsqr in K. set (s := sin t) in *. set (k := cos t) in *.
        match goal with |- ?l = ?e => replace l with (r * r * ((c + d * m) * ((1 + (k * k - s * s)) / 2) + d * r * s * (k * k))) by field end.
        replace (s * s) with (1 - k * k) by lra. field.
      + intros t _. apply (ex_derive_continuous (V := R_NormedModule)). auto_derive. exact I. }
  pose proof (is_RInt_unique (V := R_CompleteNormedModule) _ _ _ _ HS) as E1. rewrite (is_RInt_unique (V := R_CompleteNormedModule) _ _ _ _ HV) in E1. rewrite E1.
  apply (RInt_correct (V := R_CompleteNormedModule)), (ex_RInt_continuous (V := R_CompleteNormedModule)). intros x _. apply HC.
Qed.

(** C142. The law with the stored end points as its support has the exact mean of the eigenvalues, for every n and t, and a mean
    square that is too small by (n+t)/(t(t-1)): zero in the limit, positive at every size. *)
Theorem C142_law : forall n t, (2 <= n)%nat -> (2 <= t)%nat ->
  let lo := MPLower 1 (Z.of_nat n) (Z.of_nat t) in let hi := MPUpper 1 (Z.of_nat n) (Z.of_nat t) in let rho := MPDensity (INR n / INR t) lo hi in
  0 <= lo < hi /\ is_RInt (fun x => x * rho x) lo hi 1 /\ is_RInt (fun x => x * x * rho x) lo hi (1 + INR n / INR t) /\
  1 + (INR n + 1) / (INR t - 1) - (1 + INR n / INR t) = (INR n + INR t) / (INR t * (INR t - 1)) /\ 0 < (INR n + INR t) / (INR t * (INR t - 1)).
Proof.
  intros n t Hn Ht lo hi rho. pose proof PI_RGT_0 as HPI.
  assert (2 <= INR n) as HN by (change 2 with (INR 2); now apply le_INR). assert (2 <= INR t) as HT by (change 2 with (INR 2); now apply le_INR).
  set (g := INR n / INR t). assert (0 < g) as Hg by (apply Rdiv_lt_0_compat; lra).
  set (q := sqrt g). assert (0 < q) as Hq by now apply sqrt_lt_R0. assert (q * q = g) as Hqq by (apply sqrt_sqrt; lra).
  assert (lo = 1 + g - 2 * q) as Elo. { unfold lo, MPLower. rewrite <- !INR_IZR_INZ. fold g. fold q. rewrite <- Hqq. ring. }
  assert (hi = 1 + g + 2 * q) as Ehi. { unfold hi, MPUpper. rewrite <- !INR_IZR_INZ. fold g. fold q. rewrite <- Hqq. ring. }
  assert (0 <= lo) as Hlo. { rewrite Elo, <- Hqq. pose proof (Rle_0_sqr (1 - q)) as K. unfold Rsqr in K. lra. }
  assert (lo < hi) as Hlh by lra.
  assert (forall k d, is_RInt (fun x => (k + d * x) * (x * rho x)) lo hi (k + d * (1 + g))) as K.
  { intros k d. pose proof (disc (2 * q) (1 + g) (/ (2 * PI * g) * k) (/ (2 * PI * g) * d) ltac:(lra)) as K. rewrite <- Elo, <- Ehi in K.
    replace (k + d * (1 + g)) with ((/ (2 * PI * g) * k + / (2 * PI * g) * d * (1 + g)) * (PI * (2 * q * (2 * q)) / 2)).
    2:{ replace (2 * q * (2 * q)) with (4 * g) by (rewrite <- Hqq; ring). field. lra. }
    apply (is_RInt_ext (V := R_NormedModule) (fun x => (/ (2 * PI * g) * k + / (2 * PI * g) * d * x) * sqrt (2 * q * (2 * q) - (x - (1 + g)) * (x - (1 + g))))); [|exact K].
    intros x Hx. rewrite Rmin_left, Rmax_right in Hx by lra. unfold rho, MPDensity. fold g.
    replace ((hi - x) * (x - lo)) with (2 * q * (2 * q) - (x - (1 + g)) * (x - (1 + g))) by (rewrite Elo, Ehi; ring). match goal with |- ?a = ?b => change (@eq R a b) end. field. lra. }
  split; [lra|]. split; [|split; [|split]].
  - pose proof (K 1 0) as K1. replace (1 + 0 * (1 + g)) with 1 in K1 by ring. refine (is_RInt_ext _ _ _ _ _ _ K1). intros x _. match goal with |- ?a = ?b => change (@eq R a b) end. ring.
  - pose proof (K 0 1) as K1. replace (0 + 1 * (1 + g)) with (1 + g) in K1 by ring. refine (is_RInt_ext _ _ _ _ _ _ K1). intros x _. match goal with |- ?a = ?b => change (@eq R a b) end. ring.
  - unfold g. field. lra.
  - apply Rdiv_lt_0_compat; [lra|]. apply Rmult_lt_0_compat; lra.
Qed.
Print Assumptions C142_law.

(** The hypothesis is met: a solver for order two, with two series of three values and with three series of two values. *)
Definition ex_solver (a : ndarray R) : result (list R) := Ok (ex_eig (fun i j => nth (i * 2 + j) (data a) 0)).
Lemma ex_solver_ok : Diagonalises 2 ex_solver.
Proof.
  intros x Hs. eexists. split; [reflexivity|]. exact (ex_eig_ok x Hs).
Qed.
Example C142_ex : forall zeros,
  NormalAverage 6 (fun draws => of_object squares (noise_object ex_solver 2 3 zeros draws)) 5 /\
  NormalAverage 6 (fun draws => of_object squares (noise_object ex_solver 3 2 zeros draws)) 15 /\
  is_RInt (fun x => x * x * MPDensity (INR 2 / INR 3) (MPLower 1 2 3) (MPUpper 1 2 3) x) (MPLower 1 2 3) (MPUpper 1 2 3) (5 / 3).
Proof.
  intro zeros. split; [|split].
  - refine (navg_value _ _ _ _ _ (proj2 (proj2 (C142_noise ex_solver 2 3 zeros ex_solver_ok ltac:(lia) ltac:(lia))))). cbn. field.
  - refine (navg_value _ _ _ _ _ (proj2 (proj2 (C142_noise ex_solver 3 2 zeros ex_solver_ok ltac:(lia) ltac:(lia))))). cbn. field.
  - replace (5 / 3) with (1 + INR 2 / INR 3) by (cbn; field). exact (proj1 (proj2 (proj2 (C142_law 2 3 ltac:(lia) ltac:(lia))))).
Qed.
