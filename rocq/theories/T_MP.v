(** Property C159: the eigenvalues of the covariances of pure noise: exact averages of all products of power sums, the
    Marchenko-Pastur law for large sizes, and what trim_marchenko_pastur therefore keeps. *)
From Coq Require Import List ZArith Bool Arith Lia Reals Lra Sorting.Permutation.
From Coquelicot Require Import Coquelicot.
From Verif Require Import Base S_Order S_Generate S_Normal S_Rotate S_CCharPoly S_Moments S_Law S_MP S_Series S_Cov M_EigVals M_Series M_Cov P_Order P_EigVals P_Series P_TrimStat P_Cov P_Generate P_Surmise P_Rotate T_Rotate P_Moments P_Wishart P_Fourth P_Wick P_Tridiag T_Units T_Wishart P_Semi P_Law P_LawUnfold P_Spectral4 T_Law P_MPLoop P_MP P_MPLaw.
Import ListNotations.
Local Open Scope R_scope.
Local Notation length := List.length.
Local Notation lin := P_Wick.lin.
Local Notation total := S_Rotate.total.

(** The average of a product of power sums of the eigenvalues for [n] series of [t] values. *)
Definition covariance_average (n t : nat) (ks : list nat) : R :=
  noise_average (S (burden ks)) (INR n) (INR t - 1) ks / (INR t - 1) ^ fold_right Nat.add O ks.

Lemma dev_zero x t i : (0 < t)%nat -> SumTo t (fun k => Dev x t i k) = 0.
Proof.
  intro Ht. unfold Dev. rewrite (SumTo_ext t _ (fun k => x i k + - Mean x t i)) by (intros; ring). rewrite SumTo_add, SumTo_const. unfold Mean. rewrite Sum_SumTo. assert (0 < INR t) by now apply lt_0_INR. field. lra.
Qed.
Lemma row_lin n t z i k : (i < n)%nat -> (k < t)%nat -> lin (n * t) (coef t i k) z = Dev (data_at t z) t i k.
Proof. intros Hi Hk. symmetry. exact (dev_lin n t z i k Hi Hk). Qed.
Lemma gram_traces n t ks : (2 <= t)%nat -> NormalAverage (n * t) (fun l => trs (n * t) n t (coef t) l ks) (noise_average (S (burden ks)) (INR n) (INR t - 1) ks).
Proof.
  intro Ht. apply (noise_traces (n * t) n t (coef t) (centre t) (INR t - 1)).
  - intros i j k l Hi Hj Hk Hl. exact (coef_dot n t i j k l Hi Hj Hk Hl).
  - intros l i k Hl Hi Hk. rewrite row_lin by assumption. rewrite (SumTo_ext t _ (fun q => kron k q * Dev (data_at t l) t i q + - / INR t * Dev (data_at t l) t i q)).
    + rewrite SumTo_add, SumTo_scale, dev_zero by lia. rewrite (pick t k (fun q => Dev (data_at t l) t i q)) by exact Hk. ring.
    + intros q Hq. rewrite row_lin by assumption. unfold centre. ring.
  - apply centre_trace. lia.
  - lia.
Qed.
(** Powers of the two matrices of products of deviations. *)
Lemma two_powers n t (D : nat -> nat -> R) k : forall x y, (x < t)%nat -> (y < t)%nat ->
  rpow t (S k) (fun x y => SumTo n (fun s => D s x * D s y)) x y = SumTo n (fun i => SumTo n (fun j => D i x * rpow n k (fun i j => SumTo t (fun q => D i q * D j q)) i j * D j y)).
Proof.
  induction k as [|k IH]; intros x y Hx Hy.
  - cbn [rpow]. rewrite (SumTo_ext t _ (fun h => kron y h * SumTo n (fun s => D s x * D s h))) by (intros; rewrite (kron_sym y); ring). rewrite (pick t y (fun h => SumTo n (fun s => D s x * D s h))) by exact Hy.
    apply SumTo_ext. intros i Hi. rewrite (SumTo_ext n _ (fun j => kron i j * (D i x * D j y))) by (intros; ring). now rewrite (pick n i (fun j => D i x * D j y)).
  - set (B := fun x y => SumTo n (fun s => D s x * D s y)) in *. set (A := fun i j => SumTo t (fun q => D i q * D j q)) in *. change (rpow t (S (S k)) B x y) with (SumTo t (fun h => B x h * rpow t (S k) B h y)).
    rewrite (SumTo_ext t _ (fun h => SumTo n (fun s => SumTo n (fun i => SumTo n (fun j => D s x * (rpow n k A i j * D j y) * (D s h * D i h)))))).
    + rewrite SumTo_swap. apply SumTo_ext. intros s Hs. rewrite SumTo_swap. rewrite (SumTo_ext n _ (fun i => SumTo n (fun j => A s i * (D s x * (rpow n k A i j * D j y))))).
      * rewrite SumTo_swap. apply SumTo_ext. intros j Hj. cbn [rpow]. rewrite (SumTo_ext n _ (fun i => D s x * D j y * (A s i * rpow n k A i j))) by (intros; ring). rewrite SumTo_scale. ring.
      * intros i Hi. rewrite SumTo_swap. apply SumTo_ext. intros j Hj. rewrite SumTo_scale. unfold A at 2. ring.
    + intros h Hh. rewrite IH by assumption. unfold B. rewrite SumTo_product. apply SumTo_ext. intros s _.
      apply SumTo_ext. intros i _. rewrite <- SumTo_scale. apply SumTo_ext. intros; ring.
Qed.
Lemma two_traces n t (D : nat -> nat -> R) k : SumTo t (fun x => rpow t (S k) (fun x y => SumTo n (fun s => D s x * D s y)) x x) = SumTo n (fun i => rpow n (S k) (fun i j => SumTo t (fun q => D i q * D j q)) i i).
Proof.
  rewrite (SumTo_ext t _ _ (fun x Hx => two_powers n t D k x x Hx Hx)). rewrite SumTo_swap. apply SumTo_ext. intros i Hi. set (A := fun i j => SumTo t (fun q => D i q * D j q)).
  rewrite SumTo_swap. rewrite <- (rpow_1r n A k i i) by assumption. apply SumTo_ext. intros j Hj. rewrite (SumTo_ext t _ (fun x => rpow n k A i j * (D j x * D i x))) by (intros; ring). now rewrite SumTo_scale.
Qed.
Lemma rtraces_ext n ks m m' : (forall i j, (i < n)%nat -> (j < n)%nat -> m i j = m' i j) -> rtraces n ks m = rtraces n ks m'.
Proof. intro H. unfold rtraces. f_equal. apply map_ext_in. intros k _. apply SumTo_ext. intros a Ha. apply rpow_ext; assumption. Qed.
Lemma trs_rtraces n t z ks : trs (n * t) n t (coef t) z ks = rtraces n ks (fun i j => SumTo t (fun q => Dev (data_at t z) t i q * Dev (data_at t z) t j q)).
Proof.
  transitivity (rtraces n ks (P_MPLoop.prods (n * t) t (coef t) z)); [reflexivity|]. apply rtraces_ext. intros i j Hi Hj. apply SumTo_ext. intros q Hq. now rewrite !row_lin.
Qed.
Lemma handed_traces n t z ks : (2 <= t)%nat -> (n <= t)%nat \/ List.Forall (fun k => 0 < k)%nat ks ->
  rtraces (Nat.min n t) ks (handed true n t (data_at t z)) = trs (n * t) n t (coef t) z ks / (INR t - 1) ^ fold_right Nat.add O ks.
Proof.
  intros Ht Hk. assert (0 < INR t - 1) as Hp by (assert (2 <= INR t) by (change 2 with (INR 2); now apply le_INR); lra). rewrite trs_rtraces. set (D := Dev (data_at t z) t).
  assert (forall m f, rtraces m ks (fun i j => f i j / (INR t - 1)) = rtraces m ks f / (INR t - 1) ^ fold_right Nat.add O ks) as E.
  { intros m f. rewrite (rtraces_ext m ks _ (fun i j => / (INR t - 1) * f i j)) by (intros; unfold Rdiv; ring). rewrite rtraces_scale, pow_inv. unfold Rdiv. ring. }
  unfold handed. destruct (Nat.leb_spec n t) as [L|L].
  - rewrite Nat.min_l by exact L. rewrite (rtraces_ext n ks _ (fun i j => SumTo t (fun q => D i q * D j q) / (INR t - 1))) by (intros; unfold SampleCov; now rewrite Sum_SumTo). apply E.
  - rewrite Nat.min_r by lia. rewrite (rtraces_ext t ks _ (fun i j => SumTo n (fun s => D s i * D s j) / (INR t - 1))) by (intros; now rewrite Sum_SumTo). rewrite E. f_equal.
    destruct Hk as [Hk|Hk]; [lia|]. unfold rtraces. f_equal. apply map_ext_in. intros k Hin. rewrite Forall_forall in Hk. specialize (Hk k Hin). destruct k as [|k]; [lia|]. apply two_traces.
Qed.
(** The eigenvalues of the object. *)
Lemma noise_spectrum ev n t zeros z : Diagonalises (Nat.min n t) ev -> (2 <= n)%nat -> (2 <= t)%nat ->
  exists ts, noise_object ev n t zeros z = Ok ts /\ Spectrum (Nat.min n t) (handed true n t (data_at t z)) (ts_vals ts) /\ Ascending (ts_vals ts) /\ ts_N ts = n /\ ts_T ts = t.
Proof.
  intros He Hn Ht. destruct (He (handed true n t (flat t z)) (handed_symmetric n t (flat t z) (Nat.min n t))) as (lam & El & Hs).
  pose proof (solved ev n t z true ltac:(lia) ltac:(lia) (or_introl eq_refl)) as Hsol. rewrite El in Hsol.
  unfold noise_object, series_object, from_time_series. cbn [shape data negb Z.eqb Pos.eqb orb]. rewrite Hsol. cbn [bind zero_trim negb].
  assert (length lam = Nat.min n t) as Hl by apply Hs. destruct lam as [|h lam]; [cbn [length] in Hl; lia|]. cbn [arr_max bind]. destruct (Nat.eqb_spec t 0) as [|_]; [lia|].
  eexists. split; [reflexivity|]. cbn [ts_vals ts_N ts_T]. split; [exact (spectrum_perm _ _ _ _ (np_sort_perm (h :: lam)) Hs)|]. split; [apply np_sort_ascending, notnan_R|]. auto.
Qed.

(** C159. [n] series of [t] independent standard normal values: the exact average of every product of power sums of the eigenvalues
    (for n > t, where only t eigenvalues are computed, of positive powers). *)
Theorem C159_averages : forall ev n t zeros ks, Diagonalises (Nat.min n t) ev -> (2 <= n)%nat -> (2 <= t)%nat -> (n <= t)%nat \/ List.Forall (fun k => 0 < k)%nat ks ->
  (forall draws, exists ts, noise_object ev n t zeros draws = Ok ts) /\
  NormalAverage (n * t) (fun draws => of_object (power_sums ks) (noise_object ev n t zeros draws)) (covariance_average n t ks).
Proof.
  intros ev n t zeros ks He Hn Ht Hk. split; [intro z; destruct (noise_spectrum ev n t zeros z He Hn Ht) as (ts & E & _); now exists ts|].
  apply (navg_ext _ (fun l => / (INR t - 1) ^ fold_right Nat.add O ks * trs (n * t) n t (coef t) l ks)).
  - intros z _. destruct (noise_spectrum ev n t zeros z He Hn Ht) as (ts & -> & Hs & _). cbn [of_object]. rewrite <- (rtraces_spectrum _ ks _ _ Hs), handed_traces by assumption. unfold Rdiv. ring.
  - refine (navg_value _ _ _ _ _ (navg_scale _ _ _ _ (gram_traces n t ks Ht))). unfold covariance_average, Rdiv. ring.
Qed.
Print Assumptions C159_averages.

(** ** Large sizes *)
Definition vals_of (o : result (tsobj R)) : list R := match o with Ok ts => ts_vals ts | Raise _ => [] end.
Section Sizes.
Variables (ev : ndarray R -> result (list R)) (zeros : zeros_arg R) (N T : nat -> nat) (c : R).
Hypothesis diag : forall m, Diagonalises m ev.
Hypothesis sizes : forall j, (2 <= N j <= T j)%nat.
Hypothesis grow : is_lim_seq (fun j => INR (N j)) p_infty.
Hypothesis ratio : is_lim_seq (fun j => INR (N j) / INR (T j)) c.
Hypothesis c_range : 0 < c < 1.
Local Notation K j := (N j * T j)%nat.
Local Notation lam j l := (vals_of (noise_object ev (N j) (T j) zeros l)).
Lemma big_N j : 2 <= INR (N j).
Proof. change 2 with (INR 2). apply le_INR, sizes. Qed.
Lemma big_T j : INR (N j) <= INR (T j).
Proof. apply le_INR, sizes. Qed.
Lemma inv_N : is_lim_seq (fun j => / INR (N j)) 0.
Proof. replace (Finite 0) with (Rbar_inv p_infty) by reflexivity. apply is_lim_seq_inv; [exact grow|discriminate]. Qed.
Lemma inv_d : is_lim_seq (fun j => / (INR (T j) - 1)) 0.
Proof.
  apply (is_lim_seq_le_le (fun _ => 0) _ (fun j => 2 * / INR (N j))).
  - intro j. pose proof (big_N j). pose proof (big_T j). split; [apply Rlt_le, Rinv_0_lt_compat; lra|]. replace (2 * / INR (N j)) with (/ (INR (N j) / 2)) by (field; lra). apply Rinv_le_contravar; lra.
  - apply is_lim_seq_const.
  - replace (Finite 0) with (Finite (2 * 0)) by (f_equal; ring). apply (is_lim_seq_scal_l _ 2 0). exact inv_N.
Qed.
Lemma ratio_d : is_lim_seq (fun j => INR (N j) / (INR (T j) - 1)) c.
Proof.
  apply (is_lim_seq_ext (fun j => INR (N j) / INR (T j) * (1 + / (INR (T j) - 1)))).
  - intro j. pose proof (big_N j). pose proof (big_T j). field. lra.
  - replace c with (c * (1 + 0)) by ring. apply is_lim_seq_mult'; [exact ratio|]. apply is_lim_seq_plus'; [apply is_lim_seq_const|exact inv_d].
Qed.
Lemma lam_facts j l : exists ts, noise_object ev (N j) (T j) zeros l = Ok ts /\ Ascending (ts_vals ts) /\ length (ts_vals ts) = N j /\ ts_N ts = N j /\ ts_T ts = T j.
Proof.
  pose proof (sizes j) as S. destruct (noise_spectrum ev (N j) (T j) zeros l (diag _) ltac:(lia) ltac:(lia)) as (ts & E & Hs & Ha & E1 & E2). exists ts. split; [exact E|]. split; [exact Ha|]. split; [|auto].
  rewrite Nat.min_l in Hs by lia. apply Hs.
Qed.
Lemma lam_averages ks j : NormalAverage (K j) (fun l => power_sums ks (lam j l)) (covariance_average (N j) (T j) ks).
Proof.
  pose proof (sizes j) as S. destruct (C159_averages ev (N j) (T j) zeros ks (diag _) ltac:(lia) ltac:(lia) ltac:(left; lia)) as (_ & H). refine (navg_ext _ _ _ _ _ H).
  intros l _. destruct (lam_facts j l) as (ts & -> & _). reflexivity.
Qed.
Lemma lam_limits ks : is_lim_seq (fun j => covariance_average (N j) (T j) ks / INR (N j) ^ length ks) (fold_right Rmult 1 (map (mp_moment c) ks)).
Proof.
  assert (forall j, 0 < INR (N j)) as HN by (intro j; pose proof (big_N j); lra). assert (forall j, 0 < INR (T j) - 1) as HT by (intro j; pose proof (big_N j); pose proof (big_T j); lra).
  refine (is_lim_seq_ext _ _ _ _ (noise_limit c (proj1 c_range) (fun j => INR (N j)) (fun j => INR (T j) - 1) HN HT inv_N inv_d ratio_d (S (burden ks)) ks ltac:(lia))). intro j. unfold covariance_average, degree.
  pose proof (pow_lt _ (length ks) (HN j)). pose proof (pow_lt _ (fold_right Nat.add O ks) (HT j)). cbv beta. field. split; lra.
Qed.
Lemma count_law t e : -2 <= t <= 2 -> 0 < e -> let x := 1 + c + sqrt c * t in exists J, forall j, (J <= j)%nat ->
  AverageWithin (K j) (fun l => count_le x (lam j l) / INR (N j)) (area c t - e) (area c t + e) /\
  AverageWithin (K j) (fun l => count_lt x (lam j l) / INR (N j)) (area c t - e) (area c t + e) /\
  exists h w, (forall l, length l = K j -> (count_le x (lam j l) / INR (N j) - area c t) ^ 2 <= h l) /\ NormalAverage (K j) h w /\ w <= e.
Proof.
  intros Ht He x. assert (forall j, 0 < INR (N j)) as HN by (intro j; pose proof (big_N j); lra).
  pose proof (fun e He => sides_mp c c_range t e Ht He) as SD.
  destruct (part_mean (fun j => K j) N (fun j l => lam j l) (fun ks j => covariance_average (N j) (T j) ks) (mp_moment c) HN lam_averages lam_limits x (area c t) SD (fun j l => count_le x (lam j l)) ltac:(intros; split; [apply count_lt_le|lra]) e He) as (J1 & H1).
  destruct (part_mean (fun j => K j) N (fun j l => lam j l) (fun ks j => covariance_average (N j) (T j) ks) (mp_moment c) HN lam_averages lam_limits x (area c t) SD (fun j l => count_lt x (lam j l)) ltac:(intros; split; [lra|apply count_lt_le]) e He) as (J2 & H2).
  destruct (part_spread (fun j => K j) N (fun j l => lam j l) (fun ks j => covariance_average (N j) (T j) ks) (mp_moment c) HN lam_averages lam_limits x (area c t) SD (fun j l => count_le x (lam j l)) ltac:(intros; split; [apply count_lt_le|lra]) e He) as (J3 & H3).
  exists (J1 + J2 + J3)%nat. intros j Hj. split; [apply H1; lia|]. split; [apply H2; lia|apply H3; lia].
Qed.
End Sizes.
(** The area under the Marchenko-Pastur density. *)
Lemma area_density c x p : 0 < c < 1 -> let lo := (1 - sqrt c) ^ 2 in let hi := (1 + sqrt c) ^ 2 in lo <= x <= hi -> is_RInt (MPDensity c lo hi) lo x p ->
  exists t, -2 <= t <= 2 /\ x = 1 + c + sqrt c * t /\ area c t = p.
Proof.
  intros Hc lo hi Hx Hp. destruct (q_range c Hc) as [Hq Eq]. set (q := sqrt c) in *. pose proof PI_RGT_0 as HPI.
  assert (lo = 1 + c - 2 * q) as El by (unfold lo; rewrite <- Eq; ring). assert (hi = 1 + c + 2 * q) as Eh by (unfold hi; rewrite <- Eq; ring).
  exists ((x - (1 + c)) / q). assert (q * ((x - (1 + c)) / q) = x - (1 + c)) as E by (field; lra). set (t := (x - (1 + c)) / q) in *.
  assert (-2 <= t <= 2) as Ht by (split; apply (Rmult_le_reg_l q); lra). split; [exact Ht|]. split; [lra|]. unfold area. apply (is_RInt_unique (V := R_CompleteNormedModule)).
  assert (is_RInt (MPDensity c lo hi) (q * (-2) + (1 + c)) (q * t + (1 + c)) p) as Hp'.
  { replace (q * (-2) + (1 + c)) with lo by (rewrite El; ring). replace (q * t + (1 + c)) with x by lra. exact Hp. }
  apply (is_RInt_comp_lin (V := R_NormedModule)) in Hp'. refine (is_RInt_ext _ _ _ _ _ _ Hp'). intros s Hs. rewrite Rmin_left, Rmax_right in Hs by lra. match goal with |- _ = ?b => change (@eq R (q * MPDensity c lo hi (q * s + (1 + c))) b) end. clearbody lo hi.
  pose proof (below c Hc s ltac:(lra)) as B. pose proof (gap_pos c Hc) as G. fold q in B, G. unfold MPDensity, P_MP.dens, semicircle. fold q.
  replace ((hi - (q * s + (1 + c))) * (q * s + (1 + c) - lo)) with (q * q * (4 - s * s)) by (rewrite El, Eh; ring). rewrite (sqrt_mult (q * q) (4 - s * s)) by nra. rewrite (sqrt_square q) by lra. transitivity (q * q * sqrt (4 - s * s) / (2 * PI * c * (q * s + (1 + c)))); [field; repeat split; lra|]. rewrite Eq. field. repeat split; lra.
Qed.

(** C159. n_j series of t_j >= n_j values, n_j growing and n_j / t_j tending to c, 0 < c < 1: the average share of eigenvalues up to x,
    with or without those equal to x, tends to the area p of the Marchenko-Pastur law of ratio c below x, and the mean square distance
    of the share from p tends to zero. *)
Theorem C159_law : forall ev zeros, (forall m, Diagonalises m ev) -> forall N T (c : R), (forall j, 2 <= N j <= T j)%nat ->
  is_lim_seq (fun j => INR (N j)) p_infty -> is_lim_seq (fun j => INR (N j) / INR (T j)) c -> 0 < c < 1 ->
  let lo := (1 - sqrt c) ^ 2 in let hi := (1 + sqrt c) ^ 2 in forall x p, lo <= x <= hi -> is_RInt (MPDensity c lo hi) lo x p -> forall e, 0 < e -> exists J, forall j, (J <= j)%nat ->
  AverageWithin (N j * T j) (fun draws => of_object (count_le x) (noise_object ev (N j) (T j) zeros draws) / INR (N j)) (p - e) (p + e) /\
  AverageWithin (N j * T j) (fun draws => of_object (count_lt x) (noise_object ev (N j) (T j) zeros draws) / INR (N j)) (p - e) (p + e) /\
  exists h w, (forall draws, length draws = (N j * T j)%nat -> (of_object (count_le x) (noise_object ev (N j) (T j) zeros draws) / INR (N j) - p) ^ 2 <= h draws) /\ NormalAverage (N j * T j) h w /\ w <= e.
Proof.
  intros ev zeros He N T c Hs Hg Hr Hc lo hi x p Hx Hp e Hpos. destruct (area_density c x p Hc Hx Hp) as (t & Ht & -> & <-).
  destruct (count_law ev zeros N T c He Hs Hg Hr Hc t e Ht Hpos) as (J & H). exists J. intros j Hj. destruct (H j Hj) as (H1 & H2 & h & w & H3 & H4 & H5).
  assert (forall f l, f (vals_of (noise_object ev (N j) (T j) zeros l)) = of_object f (noise_object ev (N j) (T j) zeros l)) as EQ.
  { intros f l. destruct (lam_facts ev zeros N T He Hs j l) as (ts & -> & _). reflexivity. }
  split; [refine (within_ext _ _ _ _ _ _ H1); intros l _; cbv beta; now rewrite EQ|]. split; [refine (within_ext _ _ _ _ _ _ H2); intros l _; cbv beta; now rewrite EQ|].
  exists h, w. split; [|auto]. intros l Hl. rewrite <- EQ. now apply H3.
Qed.
Print Assumptions C159_law.

(** ** What trim_marchenko_pastur keeps of pure noise *)
(** from_time_series(covariance=True, trim_zeros=False) followed by trim_marchenko_pastur() with the stored sizes. *)
Definition noise_trim (ev : ndarray R -> result (list R)) (n t : nat) (zeros : zeros_arg R) (largest shifted : bool) (draws : list R) : result (list R * (R * R)) :=
  let! o := noise_object ev n t zeros draws in trim_marchenko_pastur sqrt (ts_vals o) (Some (Z.of_nat (ts_N o))) (Some (Z.of_nat (ts_T o))) None None largest shifted.
(** The share of [n] values that is kept. *)
Definition kept_share (n : nat) (r : result (list R * (R * R))) : R := match r with Ok (k, _) => INR (length k) / INR n | Raise _ => 0 end.
Lemma filter_count {A} (f : A -> bool) l : INR (length (filter f l)) = total (map (fun v => if f v then 1 else 0) l).
Proof. unfold total. induction l as [|x l IH]; [reflexivity|]. cbn [filter map fold_right]. destruct (f x); [|rewrite IH; cbv iota; ring]. cbv iota. cbn [length]. rewrite S_INR, IH. ring. Qed.
Lemma total_comb {A} (f g : A -> R) u v l : total (map (fun x => u * f x + v * g x) l) = u * total (map f l) + v * total (map g l).
Proof. unfold total. induction l as [|x l IH]; cbn [map fold_right]; [ring|]. rewrite IH. ring. Qed.
Lemma total_one {A} (l : list A) : total (map (fun _ => 1) l) = INR (length l).
Proof. unfold total. induction l as [|x l IH]; [reflexivity|]. cbn [map fold_right length]. rewrite S_INR, IH. ring. Qed.
Lemma total_range {A} (f : A -> R) l : (forall x, 0 <= f x <= 1) -> 0 <= total (map f l) <= INR (length l).
Proof.
  intro H. split; [|rewrite <- (total_one l); apply total_le; apply H]. replace 0 with (total (map (fun _ : A => 0) l)); [apply total_le; apply H|]. unfold total. induction l as [|x l IH]; cbn [map fold_right]; [reflexivity|]. rewrite IH. ring.
Qed.
Lemma count_le_range x l : 0 <= count_le x l <= INR (length l).
Proof. apply total_range. intro v. destruct (Rle_dec v x); lra. Qed.
Lemma squares_largest l m : In m l -> m * m <= power_sum 2 l.
Proof.
  unfold power_sum, total. induction l as [|x l IH]; [intros []|]. intros [->|H]; cbn [map fold_right].
  - assert (0 <= fold_right Rplus 0 (map (fun x => x ^ 2) l)); [|replace (m ^ 2) with (m * m) by ring; lra]. clear IH. induction l as [|y l IH]; cbn [map fold_right]; [lra|]. pose proof (pow2_ge_0 y). lra.
  - specialize (IH H). pose proof (pow2_ge_0 x). lra.
Qed.
(** The share kept as signal, and the share not kept as noise, for a given spectrum. *)
Lemma trim_bounds vals m n t shifted eta x0 x1 : Ascending vals -> length vals = m -> (0 < m)%nat -> (0 < n)%nat -> (0 < t)%nat -> 0 < eta < 1 ->
  let lo := MPLower 1 (Z.of_nat n) (Z.of_nat t) in let hi := MPUpper 1 (Z.of_nat n) (Z.of_nat t) in x1 < (1 - eta) * hi -> (1 + eta) * lo <= x0 ->
  let tr largest := trim_marchenko_pastur sqrt vals (Some (Z.of_nat n)) (Some (Z.of_nat t)) None None largest shifted in
  (forall largest, exists r, tr largest = Ok r) /\
  let rest := 1 - count_le x1 vals / INR m + power_sum 2 vals / (eta * INR n * (eta * INR n)) in
  0 <= kept_share m (tr true) <= rest /\ 1 - (count_le x0 vals / INR m + rest) <= kept_share m (tr false) <= 1.
Proof.
  intros Ha Hl Hk Hn Ht He lo hi H1 H0 tr. assert (vals <> []) as Hne by (intros ->; cbn in Hl; lia). destruct (arr_max_exists vals Hne) as (mx & Hm & _).
  assert (0 < INR n) as Hp by now apply lt_0_INR. assert (0 < INR m) as Hpm by now apply lt_0_INR. assert (0 <= lo /\ 0 < hi) as [Hlo Hhi].
  { unfold lo, hi, MPLower, MPUpper. pose proof (sqrt_pos (IZR (Z.of_nat n) / IZR (Z.of_nat t))). rewrite !Rmult_1_l. split; [apply Rle_0_sqr|apply Rmult_lt_0_compat; lra]. }
  set (s := mp_scale shifted mx (Z.of_nat n)).
  assert (forall s, MPLower s (Z.of_nat n) (Z.of_nat t) = s * lo /\ MPUpper s (Z.of_nat n) (Z.of_nat t) = s * hi) as SC by (intro; unfold lo, hi, MPLower, MPUpper; split; ring).
  assert (forall largest, tr largest = Ok (if largest then filter (fun v => nlt (s * hi) v) vals else filter (fun v => nlt (s * lo) v && nlt v (s * hi)) vals, (s * lo, s * hi))) as E.
  { intro largest. unfold tr. rewrite (mp_value vals (Z.of_nat n) (Z.of_nat t) mx) by (auto; lia). fold s. destruct (SC s) as [-> ->]. reflexivity. }
  split; [intro largest; rewrite E; eauto|]. intro rest. rewrite !E. cbn [kept_share].
  rewrite !filter_count. set (sig := total (map (fun v => if nlt (s * hi) v then 1 else 0) vals)). set (noi := total (map (fun v => if nlt (s * lo) v && nlt v (s * hi) then 1 else 0) vals)).
  assert (0 <= sig <= INR m) as B1 by (unfold sig; rewrite <- Hl; apply total_range; intro; destruct (nlt _ _); lra).
  assert (0 <= noi <= INR m) as B2 by (unfold noi; rewrite <- Hl; apply total_range; intro; destruct (_ && _); lra).
  pose proof (count_le_range x0 vals) as C0. pose proof (count_le_range x1 vals) as C1. rewrite Hl in C0, C1.
  assert (forall u, 0 <= u <= INR m -> 0 <= u / INR m <= 1) as DV.
  { intros u Hu. split; [apply Rmult_le_pos; [lra|apply Rlt_le, Rinv_0_lt_compat, Hpm]|]. apply (Rmult_le_reg_r (INR m)); [exact Hpm|]. unfold Rdiv. rewrite Rmult_assoc, Rinv_l, Rmult_1_r by lra. lra. }
  pose proof (DV _ B1) as D1. pose proof (DV _ B2) as D2. pose proof (DV _ C0) as D3. pose proof (DV _ C1) as D4.
  assert (0 < eta * INR n * (eta * INR n)) as Hq by (assert (0 < eta * INR n) by (apply Rmult_lt_0_compat; lra); now apply Rmult_lt_0_compat).
  assert (0 <= power_sum 2 vals) as P0 by (apply (Rle_trans _ (mx * mx)); [apply Rle_0_sqr|apply squares_largest, Hm]).
  assert (0 <= power_sum 2 vals / (eta * INR n * (eta * INR n))) as P1 by (apply Rmult_le_pos; [exact P0|apply Rlt_le, Rinv_0_lt_compat, Hq]).
  destruct (Rle_dec (Rabs mx) (eta * INR n)) as [G|G].
  - assert (1 - eta <= s <= 1 + eta) as Hs.
    { unfold s, mp_scale. rewrite <- INR_IZR_INZ. destruct shifted; [|lra]. apply Rabs_le_between in G. assert (- eta <= mx / INR n <= eta); [|lra].
      split; apply (Rmult_le_reg_r (INR n)); try exact Hp; unfold Rdiv; rewrite Rmult_assoc, Rinv_l, Rmult_1_r by lra; lra. }
    assert (x1 < s * hi) as S1 by nra. assert (s * lo <= x0) as S0 by nra.
    assert (sig <= INR m - count_le x1 vals) as U1.
    { rewrite <- Hl, <- total_one. replace (total (map (fun _ => 1) vals) - count_le x1 vals) with (1 * total (map (fun _ => 1) vals) + -1 * count_le x1 vals) by ring. unfold count_le. rewrite <- total_comb. unfold sig. apply total_le. intro v.
      destruct (nlt (s * hi) v) eqn:Ev; [apply nlt_R in Ev|]; destruct (Rle_dec v x1); lra. }
    assert (INR m - noi <= count_le x0 vals + (INR m - count_le x1 vals)) as U2.
    { assert (count_le x1 vals <= noi + count_le x0 vals); [|lra]. replace (noi + count_le x0 vals) with (1 * noi + 1 * count_le x0 vals) by ring. unfold noi, count_le. rewrite <- total_comb. apply total_le. intro v.
      destruct (nlt (s * lo) v && nlt v (s * hi)) eqn:Ev.
      - destruct (Rle_dec v x1); destruct (Rle_dec v x0); lra.
      - apply andb_false_iff in Ev. rewrite !nlt_R_false in Ev. destruct (Rle_dec v x1); destruct (Rle_dec v x0); try lra. }
    assert (sig / INR m <= 1 - count_le x1 vals / INR m) as V1.
    { apply (Rmult_le_compat_r (/ INR m)) in U1; [|apply Rlt_le, Rinv_0_lt_compat, Hpm]. replace ((INR m - count_le x1 vals) * / INR m) with (1 - count_le x1 vals / INR m) in U1 by (field; lra). exact U1. }
    assert (1 - noi / INR m <= count_le x0 vals / INR m + (1 - count_le x1 vals / INR m)) as V2.
    { apply (Rmult_le_compat_r (/ INR m)) in U2; [|apply Rlt_le, Rinv_0_lt_compat, Hpm]. replace ((INR m - noi) * / INR m) with (1 - noi / INR m) in U2 by (field; lra).
      replace ((count_le x0 vals + (INR m - count_le x1 vals)) * / INR m) with (count_le x0 vals / INR m + (1 - count_le x1 vals / INR m)) in U2 by (field; lra). exact U2. }
    unfold rest. lra.
  - assert (1 <= power_sum 2 vals / (eta * INR n * (eta * INR n))) as P2.
    { apply (Rmult_le_reg_r (eta * INR n * (eta * INR n))); [exact Hq|]. replace (power_sum 2 vals / (eta * INR n * (eta * INR n)) * (eta * INR n * (eta * INR n))) with (power_sum 2 vals) by (field; lra). rewrite Rmult_1_l. apply (Rle_trans _ (mx * mx)); [|apply squares_largest, Hm].
      replace (mx * mx) with (Rabs mx * Rabs mx) by (rewrite <- Rabs_mult; apply Rabs_pos_eq, Rle_0_sqr). assert (0 < eta * INR n) by (apply Rmult_lt_0_compat; lra). apply Rmult_le_compat; lra. }
    unfold rest. lra.
Qed.

(** C159. Of pure noise, trim_marchenko_pastur, with or without the shift, keeps a vanishing share of the eigenvalues as the largest ones,
    and almost all of them as noise. *)
Theorem C159_trim : forall ev zeros, (forall m, Diagonalises m ev) -> forall N T (c : R), (forall j, 2 <= N j <= T j)%nat ->
  is_lim_seq (fun j => INR (N j)) p_infty -> is_lim_seq (fun j => INR (N j) / INR (T j)) c -> 0 < c < 1 -> forall shifted e, 0 < e -> exists J, forall j, (J <= j)%nat ->
  (forall largest draws, exists r, noise_trim ev (N j) (T j) zeros largest shifted draws = Ok r) /\
  AverageWithin (N j * T j) (fun draws => kept_share (N j) (noise_trim ev (N j) (T j) zeros true shifted draws)) 0 e /\
  AverageWithin (N j * T j) (fun draws => kept_share (N j) (noise_trim ev (N j) (T j) zeros false shifted draws)) (1 - e) 1.
Proof.
  intros ev zeros He N T c Hs Hg Hr Hc shifted e Hpos. destruct (q_range c Hc) as [Hq Eq]. pose proof (gap_pos c Hc) as G. set (q := sqrt c) in *. set (gap := (1 - q) * (1 - q)) in *.
  set (d := Rmin 1 (e / 8 * gap)). assert (0 < d) as Hd by (unfold d; apply Rmin_case; [lra|apply Rmult_lt_0_compat; lra]). assert (d <= 1 /\ d <= e / 8 * gap) as [D1 D2] by (unfold d; split; [apply Rmin_l|apply Rmin_r]).
  set (x0 := 1 + c + q * (-2 + d)). set (x1 := 1 + c + q * (2 - d)). set (lo := 1 + c - 2 * q). set (hi := 1 + c + 2 * q).
  assert (0 < lo) as Hlo by (replace lo with gap by (unfold lo, gap; rewrite <- Eq; ring); exact G). assert (0 < q * d) as Hqd by (apply Rmult_lt_0_compat; lra). assert (q * d <= 1) as Hqd1 by nra.
  assert (1 < hi) as Hhi by (unfold hi; lra).
  set (eta := q * d / (2 * hi)). assert (0 < eta < 1) as Heta. { unfold eta. split; [apply Rdiv_lt_0_compat; lra|]. apply (Rmult_lt_reg_r (2 * hi)); [lra|]. unfold Rdiv. rewrite Rmult_assoc, Rinv_l, Rmult_1_r by lra. lra. }
  assert (eta * hi = q * d / 2) as Ee by (unfold eta; field; lra).
  assert (is_lim_seq (fun j => sqrt (INR (N j) / INR (T j))) q) as LQ by (apply (is_lim_seq_continuous sqrt _ c); [apply continuity_pt_sqrt; lra|exact Hr]).
  assert (is_lim_seq (fun j => MPLower 1 (Z.of_nat (N j)) (Z.of_nat (T j))) lo) as LL.
  { replace lo with ((1 - q) * (1 - q)) by (unfold lo; rewrite <- Eq; ring). apply (is_lim_seq_ext (fun j => (1 - sqrt (INR (N j) / INR (T j))) * (1 - sqrt (INR (N j) / INR (T j))))); [intro j; unfold MPLower; rewrite <- !INR_IZR_INZ; ring|].
    apply is_lim_seq_mult'; apply is_lim_seq_minus'; try apply is_lim_seq_const; exact LQ. }
  assert (is_lim_seq (fun j => MPUpper 1 (Z.of_nat (N j)) (Z.of_nat (T j))) hi) as LH.
  { replace hi with ((1 + q) * (1 + q)) by (unfold hi; rewrite <- Eq; ring). apply (is_lim_seq_ext (fun j => (1 + sqrt (INR (N j) / INR (T j))) * (1 + sqrt (INR (N j) / INR (T j))))); [intro j; unfold MPUpper; rewrite <- !INR_IZR_INZ; ring|].
    apply is_lim_seq_mult'; apply is_lim_seq_plus'; try apply is_lim_seq_const; exact LQ. }
  pose proof (lam_limits N T c Hs Hg Hr Hc [2%nat]) as L2. cbn [length map fold_right] in L2. pose proof (inv_N N Hg) as IN.
  assert (is_lim_seq (fun j => / (eta * INR (N j) * (eta * INR (N j))) * covariance_average (N j) (T j) [2%nat]) 0) as LP.
  { apply (is_lim_seq_ext (fun j => / (eta * eta) * (covariance_average (N j) (T j) [2%nat] / INR (N j) ^ 1 * / INR (N j)))).
    - intro j. pose proof (big_N N T Hs j). field. lra.
    - replace (Finite 0) with (Finite (/ (eta * eta) * (mp_moment c 2 * 1 * 0))) by (f_equal; ring). apply (is_lim_seq_scal_l _ (/ (eta * eta)) (mp_moment c 2 * 1 * 0)). now apply is_lim_seq_mult'. }
  destruct (count_law ev zeros N T c He Hs Hg Hr Hc (-2 + d) (e / 8) ltac:(lra) ltac:(lra)) as (J0 & C0). destruct (count_law ev zeros N T c He Hs Hg Hr Hc (2 - d) (e / 8) ltac:(lra) ltac:(lra)) as (J1 & C1). cbv zeta in C0, C1. fold q in C0, C1. fold x0 in C0. fold x1 in C1.
  destruct (area_ends c Hc) as [A0 A2]. pose proof (area_step c Hc (-2) (-2 + d) ltac:(lra) ltac:(lra)) as [_ AL]. pose proof (area_step c Hc (2 - d) 2 ltac:(lra) ltac:(lra)) as [_ AH]. fold q gap in AL, AH. rewrite A0 in AL. rewrite A2 in AH.
  replace (-2 + d - -2) with d in AL by ring. replace (2 - (2 - d)) with d in AH by ring.
  assert (d / gap <= e / 8) as DG by (apply (Rmult_le_reg_r gap); [exact G|]; unfold Rdiv; rewrite Rmult_assoc, Rinv_l, Rmult_1_r by lra; unfold Rdiv in D2; lra).
  apply is_lim_seq_spec in LL. apply is_lim_seq_spec in LH. apply is_lim_seq_spec in LP.
  assert (0 < q * d / 8) as Hqd8 by lra.
  destruct (LL (mkposreal (q * d / 8) Hqd8)) as (J2 & HL). destruct (LH (mkposreal (q * d / 8) Hqd8)) as (J3 & HH). destruct (LP (mkposreal (e / 8) ltac:(lra))) as (J4 & HP). cbn [pos] in HL, HH, HP.
  exists (J0 + J1 + J2 + J3 + J4)%nat. intros j Hj. specialize (HL j ltac:(lia)). specialize (HH j ltac:(lia)). specialize (HP j ltac:(lia)). apply Rabs_def2 in HL. apply Rabs_def2 in HH. apply Rabs_def2 in HP.
  destruct (C0 j ltac:(lia)) as ((g0 & h0 & a0 & b0 & G0 & _ & K0 & _ & B0) & _). destruct (C1 j ltac:(lia)) as ((g1 & h1 & a1 & b1 & G1 & K1 & _ & B1 & _) & _).
  assert (forall l, let vals := vals_of (noise_object ev (N j) (T j) zeros l) in (forall largest, exists r, noise_trim ev (N j) (T j) zeros largest shifted l = Ok r) /\
    let rest := 1 - count_le x1 vals / INR (N j) + power_sum 2 vals / (eta * INR (N j) * (eta * INR (N j))) in
    0 <= kept_share (N j) (noise_trim ev (N j) (T j) zeros true shifted l) <= rest /\ 1 - (count_le x0 vals / INR (N j) + rest) <= kept_share (N j) (noise_trim ev (N j) (T j) zeros false shifted l) <= 1) as Q.
  { intros l. pose proof (Hs j) as S. unfold noise_trim. destruct (lam_facts ev zeros N T He Hs j l) as (ts & -> & Ha & Hl & E1 & E2). cbn [vals_of bind]. rewrite E1, E2.
    apply (trim_bounds (ts_vals ts) (N j) (N j) (T j) shifted eta x0 x1 Ha Hl ltac:(lia) ltac:(lia) ltac:(lia) Heta).
    - unfold x1, hi in *. nra.
    - unfold x0, lo, hi in *. nra. }
  pose proof (lam_averages ev zeros N T He Hs [2%nat] j) as AV.
  pose proof (navg_lin _ _ _ _ _ 1 (/ (eta * INR (N j) * (eta * INR (N j)))) (navg_lin _ _ _ _ _ 1 (-1) (navg_const (N j * T j) 1) K1) AV) as R1.
  pose proof (navg_lin _ _ _ _ _ 1 (-1) (navg_lin _ _ _ _ _ 1 (-1) (navg_const (N j * T j) 1) K0) R1) as R2.
  split; [intros largest l; apply (Q l)|]. split.
  - eexists (fun _ => 0), _, 0, _. split; [|split; [apply (navg_const _ 0)|split; [exact R1|]]].
    + intros l Hl. cbv beta. destruct (Q l) as (_ & Q1 & _). specialize (G1 l Hl). unfold power_sums. cbn [map fold_right]. unfold Rdiv in *. lra.
    + cbv beta. lra.
  - eexists _, (fun _ => 1), _, 1. split; [|split; [exact R2|split; [apply (navg_const _ 1)|]]].
    + intros l Hl. cbv beta. destruct (Q l) as (_ & _ & Q2). specialize (G1 l Hl). specialize (G0 l Hl). unfold power_sums. cbn [map fold_right]. unfold Rdiv in *. lra.
    + cbv beta. lra.
Qed.
Print Assumptions C159_trim.

(** The density has total mass one. *)
Lemma density_total c : 0 < c < 1 -> is_RInt (MPDensity c ((1 - sqrt c) ^ 2) ((1 + sqrt c) ^ 2)) ((1 - sqrt c) ^ 2) ((1 + sqrt c) ^ 2) 1.
Proof.
  intro Hc. destruct (q_range c Hc) as [Hq Eq]. pose proof (gap_pos c Hc) as G. pose proof PI_RGT_0. set (lo := (1 - sqrt c) ^ 2) in *. set (hi := (1 + sqrt c) ^ 2) in *. set (q := sqrt c) in *.
  assert (lo = 1 + c - 2 * q) as El by (unfold lo; rewrite <- Eq; ring). assert (hi = 1 + c + 2 * q) as Eh by (unfold hi; rewrite <- Eq; ring). assert (0 < lo) as Hlo by (replace lo with ((1 - q) * (1 - q)) by (unfold lo; ring); exact G).
  assert (ex_RInt (MPDensity c lo hi) lo hi) as (p & Hp).
  { apply (ex_RInt_continuous (V := R_CompleteNormedModule)). intros x Hx. rewrite Rmin_left, Rmax_right in Hx by lra. unfold MPDensity.
    apply (continuous_mult (K := R_AbsRing) (fun x => sqrt ((hi - x) * (x - lo))) (fun x => / (2 * PI * c * x))).
    - apply (continuous_comp (fun x => (hi - x) * (x - lo)) sqrt); [|apply continuous_sqrt]. apply (ex_derive_continuous (V := R_NormedModule)). auto_derive. exact I.
    - apply (ex_derive_continuous (V := R_NormedModule)). auto_derive. apply Rgt_not_eq. apply Rmult_lt_0_compat; [apply Rmult_lt_0_compat; [apply Rmult_lt_0_compat; lra|lra]|lra]. }
  destruct (area_density c hi p Hc ltac:(change (lo <= hi <= hi); lra) Hp) as (t & Ht & E & A). fold q in E.
  assert (q * t = q * 2) as E2 by lra. apply Rmult_eq_reg_l in E2; [|lra]. subst t. rewrite (proj2 (area_ends c Hc)) in A. rewrite A. exact Hp.
Qed.
(** The hypotheses are met: a solver for every order, n_j = j + 2 series of t_j = 2 n_j values. *)
Definition any_solver (a : ndarray R) : result (list R) := let m := hd O (shape a) in Ok (sorted_eigs m (fun i j => nth (i * m + j) (data a) 0) (fun _ _ => 0)).
Lemma any_solver_ok m : Diagonalises m any_solver.
Proof.
  intros x Hx. eexists. split; [reflexivity|]. cbn [shape hd data].
  assert (forall i j, (i < m)%nat -> (j < m)%nat -> nth (i * m + j) (table m m x) 0 = x i j) as E by (intros; now apply nth_table).
  assert (Symmetric m (fun i j => nth (i * m + j) (table m m x) 0)) as S by (intros i j Hi Hj; rewrite !E by assumption; now apply Hx).
  destruct (sorted_real m _ S) as (Hl & Q & HQ & HD). split; [exact Hl|]. exists Q. split; [exact HQ|]. intros i j Hi Hj. rewrite <- E by assumption. now apply HD.
Qed.
Lemma twice_lim : is_lim_seq (fun j => INR (j + 2)) p_infty /\ is_lim_seq (fun j => INR (j + 2) / INR (2 * (j + 2))) (1 / 2).
Proof.
  split; [apply (is_lim_seq_incr_n INR 2), is_lim_seq_INR|]. apply (is_lim_seq_ext (fun _ => 1 / 2)); [|apply is_lim_seq_const]. intro j. rewrite mult_INR. assert (0 < INR (j + 2)) by (apply lt_0_INR; lia). cbn [INR]. field. lra.
Qed.
(** The exact average of the sum of cubes for two series of three values, of a product, and of three series of two; the law at its upper
    end: almost no eigenvalue lies beyond it; and the trimming, with the shift, of the noise. *)
Example C159_ex : forall zeros,
  NormalAverage 6 (fun draws => of_object (power_sums [3%nat]) (noise_object any_solver 2 3 zeros draws)) 18 /\
  NormalAverage 6 (fun draws => of_object (power_sums [1; 2]%nat) (noise_object any_solver 2 3 zeros draws)) 20 /\
  NormalAverage 6 (fun draws => of_object (power_sums [3%nat]) (noise_object any_solver 3 2 zeros draws)) 105 /\
  (exists J, forall j, (J <= j)%nat -> AverageWithin ((j + 2) * (2 * (j + 2))) (fun draws => of_object (count_le ((1 + sqrt (1 / 2)) ^ 2)) (noise_object any_solver (j + 2) (2 * (j + 2)) zeros draws) / INR (j + 2)) (99 / 100) (101 / 100)) /\
  (exists J, forall j, (J <= j)%nat -> AverageWithin ((j + 2) * (2 * (j + 2))) (fun draws => kept_share (j + 2) (noise_trim any_solver (j + 2) (2 * (j + 2)) zeros true true draws)) 0 (1 / 100)).
Proof.
  intro zeros. assert (forall j, 2 <= j + 2 <= 2 * (j + 2))%nat as S by (intro; lia). destruct twice_lim as [L1 L2]. split; [|split; [|split; [|split]]].
  - refine (navg_value _ _ _ _ _ (proj2 (C159_averages any_solver 2 3 zeros [3%nat] (any_solver_ok _) ltac:(lia) ltac:(lia) ltac:(left; lia)))). unfold covariance_average. cbn. field.
  - refine (navg_value _ _ _ _ _ (proj2 (C159_averages any_solver 2 3 zeros [1; 2]%nat (any_solver_ok _) ltac:(lia) ltac:(lia) ltac:(left; lia)))). unfold covariance_average. cbn. field.
  - refine (navg_value _ _ _ _ _ (proj2 (C159_averages any_solver 3 2 zeros [3%nat] (any_solver_ok _) ltac:(lia) ltac:(lia) ltac:(right; repeat constructor)))). unfold covariance_average. cbn. field.
  - destruct (C159_law any_solver zeros any_solver_ok (fun j => (j + 2)%nat) (fun j => (2 * (j + 2))%nat) (1 / 2) S L1 L2 ltac:(lra) ((1 + sqrt (1 / 2)) ^ 2) 1) with (e := 1 / 100) as (J & H).
    + pose proof (sqrt_pos (1 / 2)). split; [|lra]. cbn [pow]. nra.
    + apply density_total. lra.
    + lra.
    + exists J. intros j Hj. destruct (H j Hj) as (H1 & _). replace (99 / 100) with (1 - 1 / 100) by field. replace (101 / 100) with (1 + 1 / 100) by field. exact H1.
  - destruct (C159_trim any_solver zeros any_solver_ok (fun j => (j + 2)%nat) (fun j => (2 * (j + 2))%nat) (1 / 2) S L1 L2 ltac:(lra) true (1 / 100) ltac:(lra)) as (J & H). exists J. intros j Hj. apply (H j Hj).
Qed.
