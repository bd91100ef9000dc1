(** Property C161: as many series as time points, in the limit.  The eigenvalues follow the Marchenko-Pastur law of ratio one, whose
    density is unbounded at zero, and trim_marchenko_pastur keeps almost none of them as signal. *)
From Coq Require Import List ZArith Bool Arith Lia Reals Lra Sorting.Permutation.
From Coquelicot Require Import Coquelicot.
From Verif Require Import Base S_Order S_Generate S_Normal S_Rotate S_CCharPoly S_Moments S_Law S_MP S_Series S_Cov M_EigVals M_Series M_Cov P_Order P_EigVals P_Series P_TrimStat P_Cov P_Generate P_Surmise P_Rotate T_Rotate P_Moments P_Wishart P_Tridiag T_Units T_Wishart T_Tridiag P_Semi P_Approx P_Law P_LawUnfold T_Law P_MPLoop P_MP P_MPLaw T_MP T_MPDefault T_MPWide P_MPOne.
Import ListNotations.
Local Open Scope R_scope.
Local Notation length := List.length.
Local Notation total := S_Rotate.total.

(** ** No eigenvalue of a covariance is negative *)
Lemma spectrum_form n m lam : Spectrum n m lam -> exists q, forall l, (l < n)%nat -> nth l lam 0 = SumTo n (fun i => SumTo n (fun j => q i l * q j l * m i j)).
Proof.
  intros (_ & q & Hq & Hm). exists q. intros l Hl.
  assert (forall i j, (i < n)%nat -> (j < n)%nat -> m i j = SumTo n (fun k => q i k * (nth k lam 0 * q j k))) as E.
  { intros i j Hi Hj. rewrite (Hm i j Hi Hj). unfold turn. apply SumTo_ext. intros k Hk. f_equal. unfold diagonal. rewrite (SumTo_ext n _ (fun l => if Nat.eqb l k then nth k lam 0 * q j l else 0)); [now rewrite (SumTo_delta n k (fun l => nth k lam 0 * q j l) Hk)|].
    intros c _. rewrite (Nat.eqb_sym c k). destruct (Nat.eqb k c); ring. }
  symmetry. transitivity (SumTo n (fun i => q i l * SumTo n (fun k => q i k * nth k lam 0 * (if Nat.eqb k l then 1 else 0)))).
  - apply SumTo_ext. intros i Hi. rewrite <- SumTo_scale.
    transitivity (SumTo n (fun j => SumTo n (fun k => q i l * (q i k * nth k lam 0 * (q j k * q j l))))).
    { apply SumTo_ext. intros j Hj. rewrite (E i j Hi Hj), <- SumTo_scale. apply SumTo_ext. intros; ring. }
    rewrite SumTo_swap. apply SumTo_ext. intros k Hk. rewrite <- (Hq k l Hk Hl), <- !SumTo_scale. apply SumTo_ext. intros; ring.
  - transitivity (SumTo n (fun i => nth l lam 0 * (q i l * q i l))).
    { apply SumTo_ext. intros i _. rewrite (SumTo_ext n _ (fun k => if Nat.eqb k l then q i k * nth k lam 0 else 0)) by (intros k _; destruct (Nat.eqb k l); ring). rewrite (SumTo_delta n l (fun k => q i k * nth k lam 0) Hl). ring. }
    rewrite SumTo_scale, (Hq l l Hl Hl), Nat.eqb_refl. ring.
Qed.
Lemma square_form n t (D : nat -> nat -> R) (u : nat -> R) : 0 <= SumTo n (fun i => SumTo n (fun j => u i * u j * SumTo t (fun k => D i k * D j k))).
Proof.
  replace (SumTo n _) with (SumTo t (fun k => SumTo n (fun i => u i * D i k) * SumTo n (fun i => u i * D i k))); [apply sumto_nonneg; intro; apply Rle_0_sqr|].
  rewrite (SumTo_ext t _ (fun k => SumTo n (fun i => SumTo n (fun j => u i * D i k * (u j * D j k))))) by (intros; apply SumTo_product). rewrite SumTo_swap. apply SumTo_ext. intros i _. rewrite SumTo_swap. apply SumTo_ext. intros j _. rewrite <- SumTo_scale. apply SumTo_ext. intros; ring.
Qed.
Lemma noise_nonneg ev n t zeros z : Diagonalises (Nat.min n t) ev -> (2 <= n)%nat -> (2 <= t)%nat -> forall v, In v (vals_of (noise_object ev n t zeros z)) -> 0 <= v.
Proof.
  intros He Hn Ht v Hv. destruct (noise_spectrum ev n t zeros z He Hn Ht) as (ts & E & Hs & _). rewrite E in Hv. cbn [vals_of] in Hv. destruct (In_nth _ _ 0 Hv) as (l & Hl & <-). pose proof (proj1 Hs) as Hlen.
  destruct (spectrum_form _ _ _ Hs) as (q & Hq). rewrite Hq by lia. assert (0 < INR t - 1) as Hp by (assert (2 <= INR t) by (change 2 with (INR 2); apply le_INR; lia); lra). apply Rinv_0_lt_compat in Hp. set (D := Dev (data_at t z) t). unfold handed. destruct (Nat.leb_spec n t).
  - rewrite Nat.min_l by lia. pose proof (square_form n t D (fun i => q i l)) as S. replace (SumTo n _) with (/ (INR t - 1) * SumTo n (fun i => SumTo n (fun j => q i l * q j l * SumTo t (fun k => D i k * D j k)))); [apply Rmult_le_pos; lra|].
    rewrite <- SumTo_scale. apply SumTo_ext. intros i _. rewrite <- SumTo_scale. apply SumTo_ext. intros j _. unfold SampleCov. rewrite Sum_SumTo. unfold Rdiv, D. ring.
  - rewrite Nat.min_r by lia. pose proof (square_form t n (fun i k => D k i) (fun i => q i l)) as S. replace (SumTo t _) with (/ (INR t - 1) * SumTo t (fun i => SumTo t (fun j => q i l * q j l * SumTo n (fun k => D k i * D k j)))); [apply Rmult_le_pos; lra|].
    rewrite <- SumTo_scale. apply SumTo_ext. intros i _. rewrite <- SumTo_scale. apply SumTo_ext. intros j _. rewrite Sum_SumTo. unfold Rdiv, D. ring.
Qed.
(** C161. Whatever the numbers: no computed eigenvalue is negative, so the default rule zeros="negative" removes exactly the zeros. *)
Theorem C161_nonneg : forall ev n t zeros, Diagonalises (Nat.min n t) ev -> (2 <= n)%nat -> (2 <= t)%nat -> forall data,
  (exists ts, noise_object ev n t zeros data = Ok ts /\ List.Forall (fun v => 0 <= v) (ts_vals ts)) /\
  forall full ts, noise_object ev n t ZNegative data = Ok full -> default_object ev n t data = Ok ts ->
    ts_vals ts = filter (fun v => if Req_EM_T v 0 then false else true) (ts_vals full).
Proof.
  intros ev n t zeros He Hn Ht z. split.
  - destruct (noise_spectrum ev n t zeros z He Hn Ht) as (ts & E & _). exists ts. split; [exact E|]. apply Forall_forall. intros v Hv. apply (noise_nonneg ev n t zeros z He Hn Ht). now rewrite E.
  - intros full ts Ef Ed. destruct (default_values ev n t z He Hn Ht) as (ts1 & E1 & [[_ (x & Ex)]|(_ & ts2 & E2 & V & _)]); [congruence|]. rewrite Ef in E1. injection E1 as <-. rewrite Ed in E2. injection E2 as <-. rewrite V.
    apply filter_ext_in. intros v Hv. assert (0 <= v) as P by (apply (noise_nonneg ev n t ZNegative z He Hn Ht); now rewrite Ef).
    destruct (Req_EM_T v 0) as [->|Hz]; [destruct (nlt 0 0) eqn:X; [apply nlt_R in X; lra|reflexivity]|]. apply nlt_R. lra.
Qed.
Print Assumptions C161_nonneg.

(** ** Sizes whose ratio tends to one *)
Section One.
Variables (ev : ndarray R -> result (list R)) (zeros : zeros_arg R) (N T : nat -> nat).
Hypothesis diag : forall m, Diagonalises m ev.
Hypothesis sizes : forall j, (2 <= N j)%nat /\ (2 <= T j)%nat.
Hypothesis grow : is_lim_seq (fun j => INR (N j)) p_infty.
Hypothesis ratio : is_lim_seq (fun j => INR (N j) / INR (T j)) 1.
Local Notation K j := (N j * T j)%nat.
Local Notation M j := (Nat.min (N j) (T j)).
Local Notation lam j l := (vals_of (noise_object ev (N j) (T j) zeros l)).
Lemma one_N j : 2 <= INR (N j).
Proof. change 2 with (INR 2). apply le_INR, sizes. Qed.
Lemma one_T j : 2 <= INR (T j).
Proof. change 2 with (INR 2). apply le_INR, sizes. Qed.
Lemma one_M j : 2 <= INR (M j).
Proof. change 2 with (INR 2). pose proof (sizes j). apply le_INR. lia. Qed.
Lemma one_inv_N : is_lim_seq (fun j => / INR (N j)) 0.
Proof. exact (inv_N N grow). Qed.
Lemma one_inv_T : is_lim_seq (fun j => / INR (T j)) 0.
Proof.
  apply (is_lim_seq_ext (fun j => INR (N j) / INR (T j) * / INR (N j))); [intro j; pose proof (one_N j); pose proof (one_T j); field; lra|].
  replace (Finite 0) with (Finite (1 * 0)) by (f_equal; ring). apply is_lim_seq_mult'; [exact ratio|exact one_inv_N].
Qed.
Lemma one_inv_d : is_lim_seq (fun j => / (INR (T j) - 1)) 0.
Proof.
  apply (is_lim_seq_le_le (fun _ => 0) _ (fun j => 2 * / INR (T j))).
  - intro j. pose proof (one_T j). split; [apply Rlt_le, Rinv_0_lt_compat; lra|]. replace (2 * / INR (T j)) with (/ (INR (T j) / 2)) by (field; lra). apply Rinv_le_contravar; lra.
  - apply is_lim_seq_const.
  - replace (Finite 0) with (Finite (2 * 0)) by (f_equal; ring). apply (is_lim_seq_scal_l _ 2 0). exact one_inv_T.
Qed.
Lemma one_ratio : is_lim_seq (fun j => INR (N j) / (INR (T j) - 1)) 1.
Proof.
  apply (is_lim_seq_ext (fun j => INR (N j) / INR (T j) * (1 + / (INR (T j) - 1)))).
  - intro j. pose proof (one_T j). field. lra.
  - replace (Finite 1) with (Finite (1 * (1 + 0))) by (f_equal; ring). apply is_lim_seq_mult'; [exact ratio|]. apply is_lim_seq_plus'; [apply is_lim_seq_const|exact one_inv_d].
Qed.
Lemma one_min : is_lim_seq (fun j => INR (N j) / INR (M j)) 1.
Proof.
  apply (is_lim_seq_ext (fun j => 1 + (INR (N j) / INR (M j) - 1))); [intro; ring|]. replace (Finite 1) with (Finite (1 + 0)) by (f_equal; ring). apply is_lim_seq_plus'; [apply is_lim_seq_const|].
  apply (is_lim_seq_le_le (fun _ => 0) _ (fun j => Rabs (INR (N j) / INR (T j) - 1))); [|apply is_lim_seq_const|].
  - intro j. pose proof (one_N j) as H1. pose proof (one_T j) as H2. destruct (Nat.le_ge_cases (N j) (T j)) as [H|H].
    + rewrite Nat.min_l by exact H. replace (INR (N j) / INR (N j) - 1) with 0 by (field; lra). split; [lra|apply Rabs_pos].
    + rewrite Nat.min_r by exact H. split; [|apply Rle_abs]. apply le_INR in H. apply (Rmult_le_reg_r (INR (T j))); [lra|]. unfold Rdiv. rewrite Rmult_minus_distr_r, Rmult_assoc, Rinv_l by lra. lra.
  - apply (proj1 (is_lim_seq_abs_0 (fun j => INR (N j) / INR (T j) - 1))). replace (Finite 0) with (Finite (1 - 1)) by (f_equal; ring). apply is_lim_seq_minus'; [exact ratio|apply is_lim_seq_const].
Qed.
Lemma one_facts j l : exists ts, noise_object ev (N j) (T j) zeros l = Ok ts /\ Ascending (ts_vals ts) /\ length (ts_vals ts) = M j /\ ts_N ts = N j /\ ts_T ts = T j.
Proof.
  destruct (sizes j) as [S1 S2]. destruct (noise_spectrum ev (N j) (T j) zeros l (diag _) S1 S2) as (ts & E & Hs & Ha & E1 & E2). exists ts. split; [exact E|]. split; [exact Ha|]. split; [|auto]. apply Hs.
Qed.
Lemma one_averages ks j : NormalAverage (K j) (fun l => power_sums ks (lam j l)) (INR (M j) ^ zeros_of ks * covariance_average (N j) (T j) (nonzero ks)).
Proof.
  destruct (sizes j) as [S1 S2]. destruct (C159_averages ev (N j) (T j) zeros (nonzero ks) (diag _) S1 S2 (or_intror (nonzero_pos ks))) as (_ & H).
  refine (navg_ext _ _ _ _ _ (navg_scale _ _ _ (INR (M j) ^ zeros_of ks) H)).
  intros l _. destruct (one_facts j l) as (ts & -> & _ & Hl & _). cbn [of_object vals_of]. rewrite (split_powers ks), Hl. ring.
Qed.
Lemma one_sums ks : is_lim_seq (fun j => covariance_average (N j) (T j) ks / INR (N j) ^ length ks) (fold_right Rmult 1 (map (mp_moment 1) ks)).
Proof.
  assert (forall j, 0 < INR (N j)) as HN by (intro j; pose proof (one_N j); lra). assert (forall j, 0 < INR (T j) - 1) as HT by (intro j; pose proof (one_T j); lra).
  refine (is_lim_seq_ext _ _ _ _ (noise_limit 1 ltac:(lra) (fun j => INR (N j)) (fun j => INR (T j) - 1) HN HT one_inv_N one_inv_d one_ratio (S (burden ks)) ks ltac:(lia))). intro j. unfold covariance_average, degree.
  pose proof (pow_lt _ (length ks) (HN j)). pose proof (pow_lt _ (fold_right Nat.add O ks) (HT j)). cbv beta. field. split; lra.
Qed.
Lemma one_limits ks : is_lim_seq (fun j => INR (M j) ^ zeros_of ks * covariance_average (N j) (T j) (nonzero ks) / INR (M j) ^ length ks) (fold_right Rmult 1 (map (mp_moment 1) ks)).
Proof.
  pose proof (dual_product 1 ks ltac:(lra)) as DP. rewrite Rinv_1, !pow1, !Rmult_1_l in DP. rewrite <- DP.
  replace (Finite (fold_right Rmult 1 (map (mp_moment 1) (nonzero ks)))) with (Finite (1 ^ length (nonzero ks) * fold_right Rmult 1 (map (mp_moment 1) (nonzero ks)))) by (f_equal; rewrite pow1; ring).
  refine (is_lim_seq_ext _ _ _ _ (is_lim_seq_mult' _ _ _ _ (lim_pow _ _ (length (nonzero ks)) one_min) (one_sums (nonzero ks)))).
  intro j. cbv beta. pose proof (one_N j). pose proof (one_M j). assert (INR (M j) <> 0) by lra. assert (INR (N j) <> 0) by lra. rewrite (split_length ks), pow_add. set (m := M j) in *. change (INR (N j) / INR m) with (INR (N j) * / INR m). rewrite (Rpow_mult_distr (INR (N j)) (/ INR m)), (pow_inv (INR m)).
  assert (forall k, INR m ^ k <> 0) by (intro; now apply pow_nonzero). assert (forall k, INR (N j) ^ k <> 0) by (intro; now apply pow_nonzero). field. repeat split; auto.
Qed.
Lemma one_count r e : 0 <= r -> 0 < e -> let x := r * r in exists J, forall j, (J <= j)%nat ->
  AverageWithin (K j) (fun l => count_le x (lam j l) / INR (M j)) (twice r - e) (twice r + e) /\
  AverageWithin (K j) (fun l => count_lt x (lam j l) / INR (M j)) (twice r - e) (twice r + e) /\
  exists h w, (forall l, length l = K j -> (count_le x (lam j l) / INR (M j) - twice r) ^ 2 <= h l) /\ NormalAverage (K j) h w /\ w <= e.
Proof.
  intros Hr He x. assert (forall j, 0 < INR (M j)) as HM by (intro j; pose proof (one_M j); lra). pose proof (fun e He => sides_one r e Hr He) as SD.
  assert (forall j l y, length l = K j -> In y (lam j l) -> 0 <= y) as NN by (intros j l y _; destruct (sizes j); now apply noise_nonneg).
  pose (v := fun ks j => INR (M j) ^ zeros_of ks * covariance_average (N j) (T j) (nonzero ks)).
  destruct (part_mean_on (fun j => K j) (fun j => M j) (fun j l => lam j l) v (mp_moment 1) HM one_averages one_limits (fun y => 0 <= y) NN x (twice r) SD (fun j l => count_le x (lam j l)) ltac:(intros; split; [apply count_lt_le|lra]) e He) as (J1 & H1).
  destruct (part_mean_on (fun j => K j) (fun j => M j) (fun j l => lam j l) v (mp_moment 1) HM one_averages one_limits (fun y => 0 <= y) NN x (twice r) SD (fun j l => count_lt x (lam j l)) ltac:(intros; split; [lra|apply count_lt_le]) e He) as (J2 & H2).
  destruct (part_spread_on (fun j => K j) (fun j => M j) (fun j l => lam j l) v (mp_moment 1) HM one_averages one_limits (fun y => 0 <= y) NN x (twice r) SD (fun j l => count_le x (lam j l)) ltac:(intros; split; [apply count_lt_le|lra]) e He) as (J3 & H3).
  exists (J1 + J2 + J3)%nat. intros j Hj. split; [apply H1; lia|]. split; [apply H2; lia|apply H3; lia].
Qed.
End One.

(** C161. n_j series of t_j values, both growing, n_j / t_j tending to one from either side: the average share of the computed eigenvalues
    up to x tends to the area of the Marchenko-Pastur density of ratio one between 0 and x, and the mean square distance tends to zero. *)
Theorem C161_law : forall ev zeros, (forall m, Diagonalises m ev) -> forall N T, (forall j, 2 <= N j /\ 2 <= T j)%nat ->
  is_lim_seq (fun j => INR (N j)) p_infty -> is_lim_seq (fun j => INR (N j) / INR (T j)) 1 ->
  forall x p, 0 < x <= 4 -> is_RInt_gen (MPDensity 1 0 4) (at_right 0) (at_point x) p -> forall e, 0 < e -> exists J, forall j, (J <= j)%nat -> let m := Nat.min (N j) (T j) in
  AverageWithin (N j * T j) (fun draws => of_object (count_le x) (noise_object ev (N j) (T j) zeros draws) / INR m) (p - e) (p + e) /\
  AverageWithin (N j * T j) (fun draws => of_object (count_lt x) (noise_object ev (N j) (T j) zeros draws) / INR m) (p - e) (p + e) /\
  exists h w, (forall draws, length draws = (N j * T j)%nat -> (of_object (count_le x) (noise_object ev (N j) (T j) zeros draws) / INR m - p) ^ 2 <= h draws) /\ NormalAverage (N j * T j) h w /\ w <= e.
Proof.
  intros ev zeros He N T Hs Hg Hr x p Hx Hp e Hpos. rewrite (one_value x p Hx Hp). assert (x = sqrt x * sqrt x) as E by (symmetry; apply sqrt_sqrt; lra). pose proof (sqrt_pos x) as HR. set (r := sqrt x) in *. clearbody r. subst x.
  destruct (one_count ev zeros N T He Hs Hg Hr r e HR Hpos) as (J & H). exists J. intros j Hj m. destruct (H j Hj) as (H1 & H2 & h & w & H3 & H4 & H5). fold m in H1, H2, H3.
  assert (forall f l, f (vals_of (noise_object ev (N j) (T j) zeros l)) = of_object f (noise_object ev (N j) (T j) zeros l)) as EQ.
  { intros f l. destruct (one_facts ev zeros N T He Hs j l) as (ts & -> & _). reflexivity. }
  split; [refine (within_ext _ _ _ _ _ _ H1); intros l _; cbv beta; now rewrite EQ|]. split; [refine (within_ext _ _ _ _ _ _ H2); intros l _; cbv beta; now rewrite EQ|].
  exists h, w. split; [|auto]. intros l Hl. rewrite <- EQ. now apply H3.
Qed.
Print Assumptions C161_law.

(** C161. trim_marchenko_pastur: a vanishing share of the computed eigenvalues is kept as the largest ones, almost all as noise. *)
Theorem C161_trim : forall ev zeros, (forall m, Diagonalises m ev) -> forall N T, (forall j, 2 <= N j /\ 2 <= T j)%nat ->
  is_lim_seq (fun j => INR (N j)) p_infty -> is_lim_seq (fun j => INR (N j) / INR (T j)) 1 -> forall shifted e, 0 < e -> exists J, forall j, (J <= j)%nat -> let m := Nat.min (N j) (T j) in
  (forall largest draws, exists r, noise_trim ev (N j) (T j) zeros largest shifted draws = Ok r) /\
  AverageWithin (N j * T j) (fun draws => kept_share m (noise_trim ev (N j) (T j) zeros true shifted draws)) 0 e /\
  AverageWithin (N j * T j) (fun draws => kept_share m (noise_trim ev (N j) (T j) zeros false shifted draws)) (1 - e) 1.
Proof.
  intros ev zeros He N T Hs Hg Hr shifted e Hpos. set (d := Rmin 1 (e / 16)). assert (0 < d) as Hd by (unfold d; apply Rmin_case; lra). assert (d <= 1 /\ d <= e / 16) as [D1 D2] by (unfold d; split; [apply Rmin_l|apply Rmin_r]).
  set (x0 := d * d). set (x1 := (2 - d) * (2 - d)). assert (0 < x0) as Hx0 by (apply Rmult_lt_0_compat; lra). assert (x1 <= 4 - 3 * d) as Hx1 by (unfold x1; nra). set (eta := d / 8). assert (0 < eta < 1) as Heta by (unfold eta; lra).
  assert (is_lim_seq (fun j => sqrt (INR (N j) / INR (T j))) 1) as LQ by (rewrite <- sqrt_1; apply (is_lim_seq_continuous sqrt _ 1); [apply continuity_pt_sqrt; lra|exact Hr]).
  assert (is_lim_seq (fun j => MPLower 1 (Z.of_nat (N j)) (Z.of_nat (T j))) 0) as LL.
  { replace (Finite 0) with (Finite ((1 - 1) * (1 - 1))) by (f_equal; ring). apply (is_lim_seq_ext (fun j => (1 - sqrt (INR (N j) / INR (T j))) * (1 - sqrt (INR (N j) / INR (T j))))); [intro j; unfold MPLower; rewrite <- !INR_IZR_INZ; ring|].
    apply is_lim_seq_mult'; apply is_lim_seq_minus'; try apply is_lim_seq_const; exact LQ. }
  assert (is_lim_seq (fun j => MPUpper 1 (Z.of_nat (N j)) (Z.of_nat (T j))) 4) as LH.
  { replace (Finite 4) with (Finite ((1 + 1) * (1 + 1))) by (f_equal; ring). apply (is_lim_seq_ext (fun j => (1 + sqrt (INR (N j) / INR (T j))) * (1 + sqrt (INR (N j) / INR (T j))))); [intro j; unfold MPUpper; rewrite <- !INR_IZR_INZ; ring|].
    apply is_lim_seq_mult'; apply is_lim_seq_plus'; try apply is_lim_seq_const; exact LQ. }
  pose proof (one_sums N T Hs Hg Hr [2%nat]) as L2. cbn [length map fold_right] in L2. pose proof (one_inv_N N Hg) as IN.
  assert (is_lim_seq (fun j => / (eta * INR (N j) * (eta * INR (N j))) * covariance_average (N j) (T j) [2%nat]) 0) as LP.
  { apply (is_lim_seq_ext (fun j => / (eta * eta) * (covariance_average (N j) (T j) [2%nat] / INR (N j) ^ 1 * / INR (N j)))).
    - intro j. pose proof (one_N N T Hs j). field. lra.
    - replace (Finite 0) with (Finite (/ (eta * eta) * (mp_moment 1 2 * 1 * 0))) by (f_equal; ring). apply (is_lim_seq_scal_l _ (/ (eta * eta)) (mp_moment 1 2 * 1 * 0)). now apply is_lim_seq_mult'. }
  destruct (one_count ev zeros N T He Hs Hg Hr d (e / 8) ltac:(lra) ltac:(lra)) as (J0 & C0). destruct (one_count ev zeros N T He Hs Hg Hr (2 - d) (e / 8) ltac:(lra) ltac:(lra)) as (J1 & C1). cbv zeta in C0, C1. fold x0 in C0. fold x1 in C1.
  pose proof (twice_step 0 d ltac:(lra)) as AL. rewrite twice_0 in AL. pose proof (twice_step (2 - d) 2 ltac:(lra)) as AH. rewrite twice_2 in AH.
  apply is_lim_seq_spec in LL. apply is_lim_seq_spec in LH. apply is_lim_seq_spec in LP. assert (0 < x0 / 4) as Hx4 by lra.
  destruct (LL (mkposreal (x0 / 4) Hx4)) as (J2 & HL). destruct (LH (mkposreal d Hd)) as (J3 & HH). destruct (LP (mkposreal (e / 8) ltac:(lra))) as (J4 & HP). cbn [pos] in HL, HH, HP.
  exists (J0 + J1 + J2 + J3 + J4)%nat. intros j Hj m. specialize (HL j ltac:(lia)). specialize (HH j ltac:(lia)). specialize (HP j ltac:(lia)). apply Rabs_def2 in HL. apply Rabs_def2 in HH. apply Rabs_def2 in HP.
  destruct (C0 j ltac:(lia)) as ((g0 & h0 & a0 & b0 & G0 & _ & K0 & _ & B0) & _). destruct (C1 j ltac:(lia)) as ((g1 & h1 & a1 & b1 & G1 & K1 & _ & B1 & _) & _). fold m in G0, G1. destruct (Hs j) as [S1 S2].
  assert (forall l, let vals := vals_of (noise_object ev (N j) (T j) zeros l) in (forall largest, exists r, noise_trim ev (N j) (T j) zeros largest shifted l = Ok r) /\
    let rest := 1 - count_le x1 vals / INR m + power_sum 2 vals / (eta * INR (N j) * (eta * INR (N j))) in
    0 <= kept_share m (noise_trim ev (N j) (T j) zeros true shifted l) <= rest /\ 1 - (count_le x0 vals / INR m + rest) <= kept_share m (noise_trim ev (N j) (T j) zeros false shifted l) <= 1) as Q.
  { intros l. unfold noise_trim. destruct (one_facts ev zeros N T He Hs j l) as (ts & -> & Ha & Hl & E1 & E2). cbn [vals_of bind]. rewrite E1, E2.
    apply (trim_bounds (ts_vals ts) m (N j) (T j) shifted eta x0 x1 Ha Hl ltac:(unfold m; lia) ltac:(lia) ltac:(lia) Heta).
    - unfold eta. nra.
    - unfold eta. nra. }
  destruct (C159_averages ev (N j) (T j) zeros [2%nat] (He _) S1 S2 ltac:(right; repeat constructor)) as (_ & AV).
  assert (forall l, of_object (power_sums [2%nat]) (noise_object ev (N j) (T j) zeros l) = power_sum 2 (vals_of (noise_object ev (N j) (T j) zeros l))) as EP.
  { intro l. destruct (one_facts ev zeros N T He Hs j l) as (ts & -> & _). cbn [of_object vals_of]. unfold power_sums. cbn [map fold_right]. ring. }
  pose proof (navg_lin _ _ _ _ _ 1 (/ (eta * INR (N j) * (eta * INR (N j)))) (navg_lin _ _ _ _ _ 1 (-1) (navg_const (N j * T j) 1) K1) AV) as R1.
  pose proof (navg_lin _ _ _ _ _ 1 (-1) (navg_lin _ _ _ _ _ 1 (-1) (navg_const (N j * T j) 1) K0) R1) as R2.
  split; [intros largest l; apply (Q l)|]. split.
  - eexists (fun _ => 0), _, 0, _. split; [|split; [apply (navg_const _ 0)|split; [exact R1|]]].
    + intros l Hl. cbv beta. destruct (Q l) as (_ & Q1 & _). specialize (G1 l Hl). rewrite EP. unfold Rdiv in *. lra.
    + cbv beta. lra.
  - eexists _, (fun _ => 1), _, 1. split; [|split; [exact R2|split; [apply (navg_const _ 1)|]]].
    + intros l Hl. cbv beta. destruct (Q l) as (_ & _ & Q2). specialize (G1 l Hl). specialize (G0 l Hl). rewrite EP. unfold Rdiv in *. lra.
    + cbv beta. lra.
Qed.
Print Assumptions C161_trim.

(** C161. The default call (trim_zeros=True, zeros="negative") at ratio one. *)
Theorem C161_default : forall ev, (forall m, Diagonalises m ev) -> forall N T, (forall j, 2 <= N j /\ 2 <= T j)%nat ->
  is_lim_seq (fun j => INR (N j)) p_infty -> is_lim_seq (fun j => INR (N j) / INR (T j)) 1 ->
  forall x p, 0 < x <= 4 -> is_RInt_gen (MPDensity 1 0 4) (at_right 0) (at_point x) p -> forall shifted e, 0 < e -> exists J, forall j, (J <= j)%nat -> let m := Nat.min (N j) (T j) in
  AverageWithin (N j * T j) (fun draws => failed (default_object ev (N j) (T j) draws)) 0 e /\
  AverageWithin (N j * T j) (fun draws => of_object (count_le x) (default_object ev (N j) (T j) draws) / INR m) (p - e) (p + e) /\
  (forall largest draws ts, default_object ev (N j) (T j) draws = Ok ts -> exists r, default_trim ev (N j) (T j) largest shifted draws = Ok r) /\
  AverageWithin (N j * T j) (fun draws => kept_share m (default_trim ev (N j) (T j) true shifted draws)) 0 e /\
  AverageWithin (N j * T j) (fun draws => kept_share m (default_trim ev (N j) (T j) false shifted draws)) (1 - e) 1.
Proof.
  intros ev He N T Hs Hg Hr x p Hx Hp shifted e Hpos.
  destruct (C161_law ev ZNegative He N T Hs Hg Hr x p Hx Hp (e / 2) ltac:(lra)) as (J1 & L1). destruct (one_count ev ZNegative N T He Hs Hg Hr 0 (e / 2) ltac:(lra) ltac:(lra)) as (J2 & L2). rewrite twice_0, Rmult_0_l in L2.
  destruct (C161_trim ev ZNegative He N T Hs Hg Hr shifted (e / 2) ltac:(lra)) as (J3 & L3). exists (J1 + J2 + J3)%nat. intros j Hj m. destruct (Hs j) as [S1' S2'].
  destruct (L1 j ltac:(lia)) as ((gx & hx & ax & bx & B1 & B2 & B3 & B4 & B5) & _). destruct (L2 j ltac:(lia)) as ((g0 & h0 & a0 & b0 & D1 & _ & D3 & _ & D5) & _). destruct (L3 j ltac:(lia)) as (_ & (gs & hs & as_ & bs & S1 & _ & S3 & _ & S5) & (gn & hn & an & bn & M1 & M2 & _ & M4 & _)). fold m in B1, D1, S1, M1.
  pose proof (fun z => default_bounds ev (N j) (T j) m shifted z (He _) S1' S2' eq_refl) as Q. cbv zeta in Q.
  assert (0 < INR m) as Hn by (apply lt_0_INR; unfold m; lia). pose proof (Rinv_0_lt_compat _ Hn) as Hi.
  assert (forall f l, f (vals_of (noise_object ev (N j) (T j) ZNegative l)) = of_object f (noise_object ev (N j) (T j) ZNegative l)) as EQ.
  { intros f l. destruct (one_facts ev ZNegative N T He Hs j l) as (ts & -> & _). reflexivity. }
  assert (forall l, length l = (N j * T j)%nat -> 0 <= count_le 0 (vals_of (noise_object ev (N j) (T j) ZNegative l)) / INR m <= h0 l) as DR.
  { intros l Hl. split; [unfold Rdiv; apply Rmult_le_pos; [apply count_le_range|lra]|]. exact (proj2 (D1 l Hl)). }
  split; [|split; [|split; [|split]]].
  - exists (fun _ => 0), h0, 0, b0. split; [|split; [apply (navg_const _ 0)|split; [exact D3|lra]]]. intros l Hl. destruct (Q l) as (Q1 & _). specialize (DR l Hl). split; [destruct (default_object _ _ _ _); cbn; lra|lra].
  - eexists _, hx, _, bx. split; [|split; [exact (navg_lin _ _ _ _ _ 1 (-1) B2 D3)|split; [exact B3|lra]]]. intros l Hl. cbv beta. destruct (Q l) as (_ & Q2 & _). rewrite (Q2 x ltac:(lra)), (EQ (count_le x)). specialize (B1 l Hl). specialize (DR l Hl). lra.
  - intros largest l ts E. destruct (Q l) as (_ & _ & Q3 & _). exact (Q3 ts largest E).
  - exists (fun _ => 0), hs, 0, bs. split; [|split; [apply (navg_const _ 0)|split; [exact S3|lra]]]. intros l Hl. destruct (Q l) as (_ & _ & _ & Q4). specialize (Q4 true). specialize (S1 l Hl). lra.
  - eexists _, (fun _ => 1), _, 1. split; [|split; [exact (navg_lin _ _ _ _ _ 1 (-1) M2 D3)|split; [apply (navg_const _ 1)|lra]]]. intros l Hl. cbv beta. destruct (Q l) as (_ & _ & _ & Q4). specialize (Q4 false). specialize (M1 l Hl). specialize (DR l Hl). split; [lra|].
    destruct Q4 as (_ & _ & Q5). apply (Rle_trans _ _ _ Q5). destruct (one_facts ev ZNegative N T He Hs j l) as (ts & E & Ha & Hl' & E1 & E2). unfold noise_trim. rewrite E. cbn [bind]. rewrite E1, E2.
    destruct (trim_marchenko_pastur _ _ _ _ _ _ _ _) as [[k b]|] eqn:Et; [|cbn; lra]. cbn [kept_share].
    destruct (arr_max_exists (ts_vals ts) ltac:(intro H; rewrite H in Hl'; cbn [length] in Hl'; lia)) as (mx & Hm & _). rewrite (mp_value (ts_vals ts) (Z.of_nat (N j)) (Z.of_nat (T j)) mx) in Et by (auto; lia). injection Et as <- _.
    assert (forall f : R -> bool, INR (length (filter f (ts_vals ts))) / INR m <= 1) as F.
    { intro f. rewrite filter_count. apply (Rmult_le_reg_r (INR m)); [exact Hn|]. unfold Rdiv. rewrite Rmult_assoc, Rinv_l, Rmult_1_r, Rmult_1_l by lra. unfold m. rewrite <- Hl'. apply total_range. intro v. destruct (f v); lra. }
    apply F.
Qed.
Print Assumptions C161_default.

(** The density of ratio one has area 1, and area 1/2 + 1/PI up to 2. *)
Lemma one_areas : is_RInt_gen (MPDensity 1 0 4) (at_right 0) (at_point 4) 1 /\ is_RInt_gen (MPDensity 1 0 4) (at_right 0) (at_point 2) (1 / 2 + 1 / PI).
Proof.
  pose proof PI_RGT_0. split.
  - assert (twice (sqrt 4) = 1) as E by (replace 4 with (2 * 2) by ring; rewrite sqrt_square by lra; exact twice_2). rewrite <- E at 2. apply density_one. lra.
  - assert (twice (sqrt 2) = 1 / 2 + 1 / PI) as E by (unfold twice; destruct mass_root2 as [-> ->]; field; lra). rewrite <- E. apply density_one. lra.
Qed.
(** The hypotheses are met: square data, and one series more than time points. *)
Example C161_ex : forall zeros,
  (exists J, forall j, (J <= j)%nat -> AverageWithin ((j + 2) * (j + 2)) (fun draws => of_object (count_le 2) (noise_object any_solver (j + 2) (j + 2) zeros draws) / INR (j + 2)) (1 / 2 + 1 / PI - 1 / 100) (1 / 2 + 1 / PI + 1 / 100)) /\
  (exists J, forall j, (J <= j)%nat -> AverageWithin ((j + 3) * (j + 2)) (fun draws => kept_share (j + 2) (noise_trim any_solver (j + 3) (j + 2) zeros true true draws)) 0 (1 / 100)) /\
  (exists J, forall j, (J <= j)%nat -> AverageWithin ((j + 3) * (j + 2)) (fun draws => kept_share (j + 2) (default_trim any_solver (j + 3) (j + 2) false false draws)) (99 / 100) 1).
Proof.
  intro zeros. assert (forall k, is_lim_seq (fun j => INR (j + k)) p_infty) as L by (intro k; apply (is_lim_seq_ext (fun j => INR (j + k))); [reflexivity|]; apply (is_lim_seq_incr_n INR k), is_lim_seq_INR).
  assert (is_lim_seq (fun j => INR (j + 2) / INR (j + 2)) 1) as R1 by (apply (is_lim_seq_ext (fun _ => 1)); [|apply is_lim_seq_const]; intro j; assert (0 < INR (j + 2)) by (apply lt_0_INR; lia); field; lra).
  assert (is_lim_seq (fun j => INR (j + 3) / INR (j + 2)) 1) as R2.
  { apply (is_lim_seq_ext (fun j => 1 + / INR (j + 2))); [intro j; replace (j + 3)%nat with (S (j + 2)) by lia; rewrite S_INR; assert (0 < INR (j + 2)) by (apply lt_0_INR; lia); field; lra|].
    replace (Finite 1) with (Finite (1 + 0)) by (f_equal; ring). apply is_lim_seq_plus'; [apply is_lim_seq_const|]. exact (inv_N (fun j => (j + 2)%nat) (L 2%nat)). }
  destruct one_areas as [A4 A2]. split; [|split].
  - destruct (C161_law any_solver zeros any_solver_ok (fun j => (j + 2)%nat) (fun j => (j + 2)%nat) ltac:(intro; cbv beta; lia) (L 2%nat) R1 2 (1 / 2 + 1 / PI) ltac:(lra) A2 (1 / 100) ltac:(lra)) as (J & H).
    exists J. intros j Hj. destruct (H j Hj) as (H1 & _). rewrite Nat.min_id in H1. exact H1.
  - destruct (C161_trim any_solver zeros any_solver_ok (fun j => (j + 3)%nat) (fun j => (j + 2)%nat) ltac:(intro; cbv beta; lia) (L 3%nat) R2 true (1 / 100) ltac:(lra)) as (J & H).
    exists J. intros j Hj. destruct (H j Hj) as (_ & H1 & _). rewrite Nat.min_r in H1 by lia. exact H1.
  - destruct (C161_default any_solver any_solver_ok (fun j => (j + 3)%nat) (fun j => (j + 2)%nat) ltac:(intro; cbv beta; lia) (L 3%nat) R2 4 1 ltac:(lra) A4 false (1 / 100) ltac:(lra)) as (J & H).
    exists J. intros j Hj. destruct (H j Hj) as (_ & _ & _ & _ & H1). rewrite Nat.min_r in H1 by lia. replace (99 / 100) with (1 - 1 / 100) by field. exact H1.
Qed.
(** The hypotheses of C161_nonneg are met by two series of three values. *)
Example C161_nonneg_ex : exists ts, noise_object any_solver 2 3 ZNegative [1; 2; 3; 4; 5; 7] = Ok ts /\ List.Forall (fun v => 0 <= v) (ts_vals ts).
Proof. apply (C161_nonneg any_solver 2 3 ZNegative (any_solver_ok 2) ltac:(lia) ltac:(lia)). Qed.
