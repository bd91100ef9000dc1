(** Property C162: correlation matrices of pure noise.  The eigenvalues follow the Marchenko-Pastur law of every ratio, and
    trim_marchenko_pastur keeps almost none of them as signal and almost all of them as noise. *)
From Coq Require Import List ZArith Bool Arith Lia Reals Lra Sorting.Permutation.
From Coquelicot Require Import Coquelicot.
From Verif Require Import Base S_Order S_Generate S_Normal S_Rotate S_CCharPoly S_Moments S_Law S_MP S_Series S_Cov M_EigVals M_Series M_Cov P_Order P_EigVals P_Series P_TrimStat P_Cov P_Generate P_Surmise P_Rotate T_Rotate P_Moments P_Wishart P_Tridiag T_Units T_Wishart T_Tridiag P_Semi P_Approx P_Law P_LawUnfold T_Law P_MPLoop P_MP P_MPLaw T_MP T_MPDefault T_MPWide P_MPOne T_MPOne P_Spectral4 P_Close P_Steady.
Import ListNotations.
Local Open Scope R_scope.
Local Notation length := List.length.
Local Notation total := S_Rotate.total.

(** The eigenvalues of the object built from [n] series of [t] values with [covariance=False, trim_zeros=False]. *)
Definition corr_object (ev : ndarray R -> result (list R)) (n t : nat) (zeros : zeros_arg R) (draws : list R) : result (tsobj R) :=
  series_object sqrt ev (mkarr [n; t] draws) false false zeros 1.
(** No series is constant. *)
Definition Moving (n t : nat) (draws : list R) : Prop := forall i, (i < n)%nat -> Varies (data_at t draws) t i.

Lemma corr_symmetric n t x m : Symmetric m (handed false n t x).
Proof.
  intros i j _ _. unfold handed, Pearson. destruct (Nat.leb n t).
  - rewrite (Rmult_comm (sqrt (SampleCov x t j j))). unfold SampleCov at 1 4. do 2 f_equal. rewrite !Sum_SumTo. apply SumTo_ext. intros; ring.
  - f_equal. rewrite !Sum_SumTo. apply SumTo_ext. intros; ring.
Qed.
Lemma corr_spectrum ev n t zeros z : Diagonalises (Nat.min n t) ev -> (2 <= n)%nat -> (2 <= t)%nat -> Moving n t z ->
  exists ts, corr_object ev n t zeros z = Ok ts /\ Spectrum (Nat.min n t) (handed false n t (data_at t z)) (ts_vals ts) /\ Ascending (ts_vals ts) /\ ts_N ts = n /\ ts_T ts = t.
Proof.
  intros He Hn Ht Hv. destruct (He (handed false n t (flat t z)) (corr_symmetric n t (flat t z) (Nat.min n t))) as (lam & El & Hs).
  pose proof (solved ev n t z false ltac:(lia) ltac:(lia) (or_intror Hv)) as Hsol. rewrite El in Hsol.
  unfold corr_object, series_object, from_time_series. cbn [shape data negb Z.eqb Pos.eqb orb]. rewrite Hsol. cbn [bind zero_trim negb].
  assert (length lam = Nat.min n t) as Hl by apply Hs. destruct lam as [|h lam]; [cbn [length] in Hl; lia|]. cbn [arr_max bind]. destruct (Nat.eqb_spec t 0) as [|_]; [lia|].
  eexists. split; [reflexivity|]. cbn [ts_vals ts_N ts_T]. split; [exact (spectrum_perm _ _ _ _ (np_sort_perm (h :: lam)) Hs)|]. split; [apply np_sort_ascending, notnan_R|]. auto.
Qed.
Lemma spectrum_ext m M M' lam : (forall i j, (i < m)%nat -> (j < m)%nat -> M i j = M' i j) -> Spectrum m M lam -> Spectrum m M' lam.
Proof. intros E (Hl & q & Hq & H). split; [exact Hl|]. exists q. split; [exact Hq|]. intros i j Hi Hj. rewrite <- E by assumption. auto. Qed.
Lemma distance_flip m r A B : distance m r A B = distance m r B A.
Proof. unfold distance. apply SumTo_ext. intros; apply SumTo_ext. intros; ring. Qed.
Lemma gram_squares m r (D : nat -> nat -> R) lam : Spectrum m (fun i j => SumTo r (fun k => D i k * D j k)) lam -> power_sum 2 lam = SumTo m (fun i => SumTo m (fun j => SumTo r (fun k => D i k * D j k) * SumTo r (fun k => D i k * D j k))).
Proof. intro H. apply (squares_spectrum m (fun i j => SumTo r (fun k => D i k * D j k))); [|exact H]. intros. apply SumTo_ext. intros; ring. Qed.
(** The eigenvalues of covariances and correlations of the same data. *)
Lemma corr_counts n t z la lb : (2 <= n)%nat -> (2 <= t)%nat -> Steady n t z -> Spectrum (Nat.min n t) (handed true n t (data_at t z)) la -> Spectrum (Nat.min n t) (handed false n t (data_at t z)) lb ->
  (forall a b, 0 <= a < b -> count_le a lb <= count_le b la + 4 * b / ((b - a) * (b - a)) * offs 2 n t z) /\
  (forall a b, 0 <= a < b -> count_le a la <= count_le b lb + 4 * b / ((b - a) * (b - a)) * offs 2 n t z) /\
  power_sum 2 lb <= 16 * power_sum 2 la.
Proof.
  intros Hn Ht St SA SB. pose proof (d_pos t Ht) as Hd. destruct (root_d t Ht) as [R1 R2]. pose proof (rows_distance n t z Ht St) as RD.
  assert (forall a b, 0 <= a < b -> 0 <= 4 * b / ((b - a) * (b - a))) as KP by (intros a b H; apply Rmult_le_pos; [lra|apply Rlt_le, Rinv_0_lt_compat, Rmult_lt_0_compat; lra]).
  unfold handed in SA, SB. destruct (Nat.leb_spec n t) as [L|L].
  - rewrite Nat.min_l in SA, SB by exact L.
    assert (Spectrum n (fun i j => SumTo t (fun k => plain t z i k * plain t z j k)) la) as SA' by (refine (spectrum_ext _ _ _ _ _ SA); intros; now rewrite plain_products).
    assert (Spectrum n (fun i j => SumTo t (fun k => unit_row t z i k * unit_row t z j k)) lb) as SB'.
    { refine (spectrum_ext _ _ _ _ _ SB). intros i j Hi Hj. rewrite unit_products by exact Ht. destruct (dev_root n t z St i Hi) as [H1 _]. destruct (dev_root n t z St j Hj) as [H2 _]. unfold Pearson. fold (variance t z i). fold (variance t z j). field. lra. }
    split; [|split].
    + intros a b Hab. pose proof (close n t (plain t z) (unit_row t z) la lb SA' SB' a b Hab) as C. pose proof (Rmult_le_compat_l _ _ _ (KP a b Hab) RD) as G. unfold distance in C. lra.
    + intros a b Hab. pose proof (close n t (unit_row t z) (plain t z) lb la SB' SA' a b Hab) as C. rewrite distance_flip in C. pose proof (Rmult_le_compat_l _ _ _ (KP a b Hab) RD) as G. unfold distance in C. lra.
    + rewrite (gram_squares n t (plain t z) la SA'), (gram_squares n t (unit_row t z) lb SB'). rewrite <- SumTo_scale. apply SumTo_le. intros i Hi. rewrite <- SumTo_scale. apply SumTo_le. intros j Hj. now apply (entry_bound n).
  - rewrite Nat.min_r in SA, SB by lia.
    assert (Spectrum t (fun i j => SumTo n (fun k => plain t z k i * plain t z k j)) la) as SA'.
    { refine (spectrum_ext _ _ _ _ _ SA). intros i j _ _. rewrite Sum_SumTo. transitivity (/ (INR t - 1) * SumTo n (fun s => Dev (data_at t z) t s i * Dev (data_at t z) t s j)); [unfold Rdiv; ring|]. rewrite <- SumTo_scale. apply SumTo_ext. intros s _. unfold plain. set (r := sqrt (INR t - 1)) in *. clearbody r. rewrite <- R2. field. lra. }
    assert (Spectrum t (fun i j => SumTo n (fun k => unit_row t z k i * unit_row t z k j)) lb) as SB'.
    { refine (spectrum_ext _ _ _ _ _ SB). intros i j _ _. rewrite Sum_SumTo. transitivity (/ (INR t - 1) * SumTo n (fun s => Standard (data_at t z) t s i * Standard (data_at t z) t s j)); [unfold Rdiv; ring|]. rewrite <- SumTo_scale. apply SumTo_ext. intros s _. unfold unit_row. set (r := sqrt (INR t - 1)) in *. clearbody r. rewrite <- R2. field. lra. }
    rewrite SumTo_swap in RD. split; [|split].
    + intros a b Hab. pose proof (close t n (fun i k => plain t z k i) (fun i k => unit_row t z k i) la lb SA' SB' a b Hab) as C. pose proof (Rmult_le_compat_l _ _ _ (KP a b Hab) RD) as G. unfold distance in C. lra.
    + intros a b Hab. pose proof (close t n (fun i k => unit_row t z k i) (fun i k => plain t z k i) lb la SB' SA' a b Hab) as C. rewrite distance_flip in C. pose proof (Rmult_le_compat_l _ _ _ (KP a b Hab) RD) as G. unfold distance in C. lra.
    + rewrite (gram_squares t n (fun i k => plain t z k i) la SA'), (gram_squares t n (fun i k => unit_row t z k i) lb SB'). rewrite (two_squares n t (plain t z)), (two_squares n t (unit_row t z)). rewrite <- SumTo_scale. apply SumTo_le. intros i Hi. rewrite <- SumTo_scale. apply SumTo_le. intros j Hj. now apply (entry_bound n).
Qed.

(** ** The law for every ratio *)
Definition edge_lo (c : R) : R := (1 - sqrt c) ^ 2.
Definition edge_hi (c : R) : R := (1 + sqrt c) ^ 2.
Definition cdf (c x : R) : R :=
  if Rlt_dec c 1 then area c ((x - (1 + c)) / sqrt c) else if Rlt_dec 1 c then area (/ c) ((x - (1 + c)) / sqrt c) else twice (sqrt x).
Lemma edges c : 0 < c -> let q := sqrt c in 0 < q /\ edge_lo c = 1 + c - 2 * q /\ edge_hi c = 1 + c + 2 * q /\ 0 <= edge_lo c /\ 1 < edge_hi c.
Proof.
  intros Hc q. assert (0 < q) as Hq by now apply sqrt_lt_R0. assert (q * q = c) as E by (apply sqrt_sqrt; lra). unfold edge_lo, edge_hi. fold q. split; [exact Hq|]. split; [rewrite <- E; ring|]. split; [rewrite <- E; ring|]. split; [apply pow2_ge_0|]. cbn [pow]. nra.
Qed.
Lemma cdf_spot c x : 0 < c -> edge_lo c <= x <= edge_hi c -> exists s, -2 <= s <= 2 /\ x = 1 + c + sqrt c * s /\ s = (x - (1 + c)) / sqrt c.
Proof.
  intros Hc Hx. destruct (edges c Hc) as (Hq & El & Eh & _). set (q := sqrt c) in *. assert (q * ((x - (1 + c)) / q) = x - (1 + c)) as E by (field; lra). exists ((x - (1 + c)) / q). set (s := (x - (1 + c)) / q) in *.
  split; [split; apply (Rmult_le_reg_l q); lra|]. split; [lra|reflexivity].
Qed.
Lemma area_cont c e : 0 < c < 1 -> 0 < e -> exists d, 0 < d /\ forall u v, -2 <= u <= v -> v <= 2 -> v - u <= d -> 0 <= area c v - area c u /\ area c v - area c u <= e.
Proof.
  intros Hc He. pose proof (gap_pos c Hc) as G. set (gap := (1 - sqrt c) * (1 - sqrt c)) in *. exists (e * gap). split; [now apply Rmult_lt_0_compat|]. intros u v Hu Hv Hd. pose proof (area_step c Hc u v Hu Hv) as [H1 H2]. fold gap in H2. split; [exact H1|].
  apply (Rle_trans _ _ _ H2). apply (Rmult_le_reg_r gap); [exact G|]. replace ((v - u) / gap * gap) with (v - u) by (field; lra). exact Hd.
Qed.
Lemma cdf_cont c e : 0 < c -> 0 < e -> exists d, 0 < d /\ forall x y, edge_lo c <= x <= y -> y <= edge_hi c -> y - x <= d -> 0 <= cdf c y - cdf c x /\ cdf c y - cdf c x <= e.
Proof.
  intros Hc He. destruct (edges c Hc) as (Hq & El & Eh & Hlo & Hhi). set (q := sqrt c) in *.
  assert (forall g, 0 < g < 1 -> exists d, 0 < d /\ forall x y, edge_lo c <= x <= y -> y <= edge_hi c -> y - x <= d -> 0 <= area g ((y - (1 + c)) / q) - area g ((x - (1 + c)) / q) /\ area g ((y - (1 + c)) / q) - area g ((x - (1 + c)) / q) <= e) as AC.
  { intros g Hg. destruct (area_cont g e Hg He) as (d & Hd & H). exists (q * d). split; [now apply Rmult_lt_0_compat|]. intros x y Hx Hy Hxy.
    destruct (cdf_spot c x Hc ltac:(lra)) as (u & Hu & Ex & Eu). destruct (cdf_spot c y Hc ltac:(lra)) as (v & Hv & Ey & Ev). fold q in Ex, Eu, Ey, Ev. rewrite <- Eu, <- Ev. apply H; try lra; [split; [lra|]|]; apply (Rmult_le_reg_l q); lra. }
  unfold cdf. fold q. destruct (Rlt_dec c 1) as [H1|H1]; [apply AC; lra|]. destruct (Rlt_dec 1 c) as [H2|H2]; [apply AC, (g_range c H2)|].
  exists (e / 2 * (e / 2)). split; [apply Rmult_lt_0_compat; lra|]. intros x y Hx Hy Hd. pose proof (sqrt_le_1 x y ltac:(lra) ltac:(lra) ltac:(lra)) as S. pose proof (twice_step _ _ S) as TS.
  pose proof (mass_slope _ _ S) as M1. pose proof (mass_slope (- sqrt y) (- sqrt x) ltac:(lra)) as M2. split; [unfold twice; lra|].
  assert (sqrt y - sqrt x <= e / 2) as D; [|lra]. pose proof (sqrt_pos x) as P1. destruct (Rle_dec (sqrt y - sqrt x) (e / 2)) as [|N]; [assumption|exfalso].
  pose proof (sqrt_sqrt x ltac:(lra)) as Q1. pose proof (sqrt_sqrt y ltac:(lra)) as Q2. set (u := sqrt x) in *. set (v := sqrt y) in *. clearbody u v. assert (e / 2 * (e / 2) < (v - u) * (v - u)) by nra. nra.
Qed.
Lemma cdf_ends c : 0 < c -> cdf c (edge_lo c) = 0 /\ cdf c (edge_hi c) = 1.
Proof.
  intro Hc. destruct (edges c Hc) as (Hq & El & Eh & _). set (q := sqrt c) in *. unfold cdf. fold q.
  assert ((edge_lo c - (1 + c)) / q = -2) as -> by (rewrite El; field; lra). assert ((edge_hi c - (1 + c)) / q = 2) as -> by (rewrite Eh; field; lra).
  destruct (Rlt_dec c 1) as [H1|H1]; [apply area_ends; lra|]. destruct (Rlt_dec 1 c) as [H2|H2]; [apply area_ends, (g_range c H2)|]. assert (c = 1) as E1 by lra. unfold edge_lo, edge_hi. rewrite E1, sqrt_1.
  replace ((1 - 1) ^ 2) with 0 by ring. replace ((1 + 1) ^ 2) with (2 * 2) by ring. rewrite sqrt_0, sqrt_square by lra. split; [apply twice_0|apply twice_2].
Qed.
Lemma cdf_range c x : 0 < c -> edge_lo c <= x <= edge_hi c -> 0 <= cdf c x <= 1.
Proof.
  intros Hc Hx. destruct (cdf_ends c Hc) as [E0 E1]. assert (forall u v, edge_lo c <= u <= v -> v <= edge_hi c -> cdf c u <= cdf c v) as M.
  { intros u v Hu Hv. destruct (cdf_cont c 1 Hc ltac:(lra)) as (d & Hd & H).
    assert (forall k w, edge_lo c <= u <= w -> w <= edge_hi c -> w - u <= INR k * d -> cdf c u <= cdf c w) as I.
    { induction k as [|k IH]; intros w Hw Hw' L; [cbn [INR] in L; assert (w = u) as -> by lra; lra|]. rewrite S_INR in L. destruct (Rle_dec (w - u) d) as [S|S]; [destruct (H u w Hw Hw' S); lra|].
      specialize (IH (w - d) ltac:(lra) ltac:(lra) ltac:(lra)). destruct (H (w - d) w ltac:(lra) Hw' ltac:(lra)). lra. }
    destruct (archimed ((v - u) / d)) as [A _]. assert (0 <= (v - u) / d) as P by (apply Rmult_le_pos; [lra|apply Rlt_le, Rinv_0_lt_compat, Hd]).
    apply (I (Z.to_nat (up ((v - u) / d)))); try assumption. rewrite INR_IZR_INZ, Z2Nat.id by (apply le_IZR; lra). replace (v - u) with ((v - u) / d * d) at 1 by (field; lra). apply Rmult_le_compat_r; lra. }
  pose proof (M (edge_lo c) x ltac:(lra) ltac:(lra)). pose proof (M x (edge_hi c) ltac:(lra) ltac:(lra)). lra.
Qed.

Section Ratio.
Variables (ev : ndarray R -> result (list R)) (zeros : zeros_arg R) (N T : nat -> nat) (c : R).
Hypothesis diag : forall m, Diagonalises m ev.
Hypothesis sizes : forall j, (2 <= N j)%nat /\ (2 <= T j)%nat.
Hypothesis grow : is_lim_seq (fun j => INR (N j)) p_infty.
Hypothesis ratio : is_lim_seq (fun j => INR (N j) / INR (T j)) c.
Hypothesis c_pos : 0 < c.
Local Notation K j := (N j * T j)%nat.
Local Notation M j := (Nat.min (N j) (T j)).
Local Notation lam j l := (vals_of (noise_object ev (N j) (T j) zeros l)).
Local Notation rho j l := (vals_of (corr_object ev (N j) (T j) zeros l)).
Lemma size_N j : 2 <= INR (N j).
Proof. change 2 with (INR 2). apply le_INR, sizes. Qed.
Lemma size_T j : 2 <= INR (T j).
Proof. change 2 with (INR 2). apply le_INR, sizes. Qed.
Lemma size_M j : 2 <= INR (M j).
Proof. change 2 with (INR 2). pose proof (sizes j). apply le_INR. lia. Qed.
Lemma lim_inv_T : is_lim_seq (fun j => / INR (T j)) 0.
Proof.
  apply (is_lim_seq_ext (fun j => INR (N j) / INR (T j) * / INR (N j))); [intro j; pose proof (size_N j); pose proof (size_T j); field; lra|].
  replace (Finite 0) with (Finite (c * 0)) by (f_equal; ring). apply is_lim_seq_mult'; [exact ratio|exact (inv_N N grow)].
Qed.
Lemma grow_T : is_lim_seq (fun j => INR (T j)) p_infty.
Proof.
  apply (is_lim_seq_ext (fun j => / / INR (T j))); [intro j; pose proof (size_T j); field; lra|]. apply is_lim_seq_spec. intro A. pose proof (proj2 (is_lim_seq_spec _ _) lim_inv_T) as L.
  assert (0 < / (Rabs A + 1)) as HP by (apply Rinv_0_lt_compat; pose proof (Rabs_pos A); lra). destruct (L (mkposreal _ HP)) as (J & HJ). exists J. intros j Hj. specialize (HJ j Hj). cbn [pos] in HJ. rewrite Rminus_0_r in HJ. pose proof (size_T j).
  assert (0 < / INR (T j)) as Hi by (apply Rinv_0_lt_compat; lra). rewrite Rabs_pos_eq in HJ by lra. apply Rinv_lt_contravar in HJ; [|now apply Rmult_lt_0_compat]. rewrite Rinv_inv in HJ. pose proof (Rle_abs A). lra.
Qed.
Lemma lim_inv_d : is_lim_seq (fun j => / (INR (T j) - 1)) 0.
Proof.
  apply (is_lim_seq_le_le (fun _ => 0) _ (fun j => 2 * / INR (T j))).
  - intro j. pose proof (size_T j). split; [apply Rlt_le, Rinv_0_lt_compat; lra|]. replace (2 * / INR (T j)) with (/ (INR (T j) / 2)) by (field; lra). apply Rinv_le_contravar; lra.
  - apply is_lim_seq_const.
  - replace (Finite 0) with (Finite (2 * 0)) by (f_equal; ring). apply (is_lim_seq_scal_l _ 2 0). exact lim_inv_T.
Qed.
Lemma lim_ratio : is_lim_seq (fun j => INR (N j) / (INR (T j) - 1)) c.
Proof.
  apply (is_lim_seq_ext (fun j => INR (N j) / INR (T j) * (1 + / (INR (T j) - 1)))).
  - intro j. pose proof (size_T j). field. lra.
  - replace (Finite c) with (Finite (c * (1 + 0))) by (f_equal; ring). apply is_lim_seq_mult'; [exact ratio|]. apply is_lim_seq_plus'; [apply is_lim_seq_const|exact lim_inv_d].
Qed.
Lemma lim_inv_M : is_lim_seq (fun j => / INR (M j)) 0.
Proof.
  apply (is_lim_seq_le_le (fun _ => 0) _ (fun j => / INR (N j) + / INR (T j))).
  - intro j. pose proof (size_N j) as H1. pose proof (size_T j) as H2. pose proof (size_M j) as H3. assert (0 < / INR (N j)) by (apply Rinv_0_lt_compat; lra). assert (0 < / INR (T j)) by (apply Rinv_0_lt_compat; lra).
    split; [apply Rlt_le, Rinv_0_lt_compat; lra|]. destruct (Nat.min_spec (N j) (T j)) as [[_ ->]|[_ ->]]; lra.
  - apply is_lim_seq_const.
  - replace (Finite 0) with (Finite (0 + 0)) by (f_equal; ring). apply is_lim_seq_plus'; [exact (inv_N N grow)|exact lim_inv_T].
Qed.
(** Averages that tend to zero. *)
Lemma lim_offs : is_lim_seq (fun j => / INR (M j) * (INR (N j) * (2 / (INR (T j) - 1)))) 0.
Proof.
  apply (is_lim_seq_ext (fun j => / INR (M j) * (2 * (INR (N j) / (INR (T j) - 1))))).
  - intro j. unfold Rdiv. ring.
  - replace (Finite 0) with (Finite (0 * (2 * c))) by (f_equal; ring). apply is_lim_seq_mult'; [exact lim_inv_M|]. apply (is_lim_seq_scal_l _ 2 c). exact lim_ratio.
Qed.
Lemma lim_unsteady : is_lim_seq (fun j => 4 * (INR (N j) * (12 / (INR (T j) - 1) ^ 2 + 48 / (INR (T j) - 1) ^ 3))) 0.
Proof.
  apply (is_lim_seq_ext (fun j => INR (N j) / (INR (T j) - 1) * (48 * / (INR (T j) - 1) + 192 * (/ (INR (T j) - 1) * / (INR (T j) - 1))))).
  - intro j. pose proof (size_T j). field. lra.
  - replace (Finite 0) with (Finite (c * (48 * 0 + 192 * (0 * 0)))) by (f_equal; ring). apply is_lim_seq_mult'; [exact lim_ratio|]. apply is_lim_seq_plus'; [apply (is_lim_seq_scal_l _ 48 0); exact lim_inv_d|].
    apply (is_lim_seq_scal_l _ 192 (0 * 0)). apply is_lim_seq_mult'; exact lim_inv_d.
Qed.
(** The covariances, whatever the ratio. *)
Lemma cov_count x e : edge_lo c <= x <= edge_hi c -> 0 < e -> exists J, forall j, (J <= j)%nat ->
  exists h w, (forall l, length l = K j -> (count_le x (lam j l) / INR (M j) - cdf c x) ^ 2 <= h l) /\ NormalAverage (K j) h w /\ w <= e.
Proof.
  intros Hx He. destruct (cdf_spot c x c_pos Hx) as (s & Hs & Ex & Es). unfold cdf. rewrite <- Es. destruct (Rlt_dec c 1) as [H1|H1]; [|destruct (Rlt_dec 1 c) as [H2|H2]].
  - pose proof (proj2 (is_lim_seq_spec _ _) ratio (mkposreal (1 - c) ltac:(lra))) as (J0 & H0). cbn [pos] in H0.
    assert (forall j, (J0 <= j)%nat -> (N j <= T j)%nat) as L.
    { intros j Hj. specialize (H0 j Hj). apply Rabs_def2 in H0. pose proof (size_T j). apply INR_le. apply (Rmult_le_reg_r (/ INR (T j))); [apply Rinv_0_lt_compat; lra|]. rewrite Rinv_r by lra. unfold Rdiv in H0. lra. }
    destruct (count_law ev zeros (fun j => N (j + J0)%nat) (fun j => T (j + J0)%nat) c diag) with (t := s) (e := e) as (J & H); try assumption.
    + intro j. pose proof (sizes (j + J0)%nat). specialize (L (j + J0)%nat ltac:(lia)). lia.
    + exact (proj1 (is_lim_seq_incr_n (fun j => INR (N j)) J0 p_infty) grow).
    + exact (proj1 (is_lim_seq_incr_n (fun j => INR (N j) / INR (T j)) J0 c) ratio).
    + lra.
    + exists (J + J0)%nat. intros j Hj. destruct (H (j - J0)%nat ltac:(lia)) as (_ & _ & R). replace (j - J0 + J0)%nat with j in R by lia. rewrite <- Ex in R. rewrite Nat.min_l by (apply L; lia). exact R.
  - pose proof (proj2 (is_lim_seq_spec _ _) ratio (mkposreal (c - 1) ltac:(lra))) as (J0 & H0). cbn [pos] in H0.
    assert (forall j, (J0 <= j)%nat -> (T j <= N j)%nat) as L.
    { intros j Hj. specialize (H0 j Hj). apply Rabs_def2 in H0. pose proof (size_T j). apply INR_le. apply (Rmult_le_reg_r (/ INR (T j))); [apply Rinv_0_lt_compat; lra|]. rewrite Rinv_r by lra. unfold Rdiv in H0. lra. }
    destruct (wide_count ev zeros (fun j => N (j + J0)%nat) (fun j => T (j + J0)%nat) c diag) with (t := s) (e := e) as (J & H); try assumption.
    + intro j. pose proof (sizes (j + J0)%nat). specialize (L (j + J0)%nat ltac:(lia)). lia.
    + exact (proj1 (is_lim_seq_incr_n (fun j => INR (T j)) J0 p_infty) grow_T).
    + exact (proj1 (is_lim_seq_incr_n (fun j => INR (N j) / INR (T j)) J0 c) ratio).
    + exists (J + J0)%nat. intros j Hj. destruct (H (j - J0)%nat ltac:(lia)) as (_ & _ & R). replace (j - J0 + J0)%nat with j in R by lia. rewrite <- Ex in R. rewrite Nat.min_r by (apply L; lia). exact R.
  - assert (c = 1) as E1 by lra. assert (is_lim_seq (fun j => INR (N j) / INR (T j)) 1) as R1 by (rewrite <- E1; exact ratio). destruct (edges c c_pos) as (_ & _ & _ & Hlo & _).
    destruct (one_count ev zeros N T diag sizes grow R1 (sqrt x) e (sqrt_pos x) He) as (J & H). rewrite sqrt_sqrt in H by lra. exists J. intros j Hj. apply (H j Hj).
Qed.
Lemma cov_values j l : exists ts, noise_object ev (N j) (T j) zeros l = Ok ts /\ Spectrum (M j) (handed true (N j) (T j) (data_at (T j) l)) (ts_vals ts).
Proof. destruct (sizes j) as [S1 S2]. destruct (noise_spectrum ev (N j) (T j) zeros l (diag _) S1 S2) as (ts & E & Hs & _). now exists ts. Qed.
Lemma corr_values j l : Moving (N j) (T j) l -> exists ts, corr_object ev (N j) (T j) zeros l = Ok ts /\ Spectrum (M j) (handed false (N j) (T j) (data_at (T j) l)) (ts_vals ts) /\ Ascending (ts_vals ts) /\ ts_N ts = N j /\ ts_T ts = T j.
Proof. intro H. destruct (sizes j) as [S1 S2]. exact (corr_spectrum ev (N j) (T j) zeros l (diag _) S1 S2 H). Qed.
Lemma steady_moving j l : Steady (N j) (T j) l -> Moving (N j) (T j) l.
Proof. intros H i Hi. exact (steady_varies (N j) (T j) l (proj2 (sizes j)) H i Hi). Qed.
Lemma pair_counts j l : Steady (N j) (T j) l -> length (rho j l) = M j /\
  (forall a b, 0 <= a < b -> count_le a (rho j l) <= count_le b (lam j l) + 4 * b / ((b - a) * (b - a)) * offs 2 (N j) (T j) l) /\
  (forall a b, 0 <= a < b -> count_le a (lam j l) <= count_le b (rho j l) + 4 * b / ((b - a) * (b - a)) * offs 2 (N j) (T j) l) /\
  power_sum 2 (rho j l) <= 16 * power_sum 2 (lam j l).
Proof.
  intro H. destruct (cov_values j l) as (ts & E & S). destruct (corr_values j l (steady_moving j l H)) as (ts' & E' & S' & _). rewrite E, E'. cbn [vals_of]. split; [apply S'|]. destruct (sizes j) as [S1 S2]. now apply corr_counts.
Qed.
Lemma offs_pos n t z : 0 <= offs 2 n t z.
Proof. apply sumto_nonneg. intro. apply pow2_ge_0. Qed.
Lemma small_part y h d : y ^ 2 <= h -> 0 < d -> Rabs y <= d / 2 + h / (2 * d).
Proof.
  intros Hy Hd. replace (d / 2 + h / (2 * d)) with ((d * d + h) / (2 * d)) by (field; lra). apply (Rmult_le_reg_r (2 * d)); [lra|]. replace ((d * d + h) / (2 * d) * (2 * d)) with (d * d + h) by (field; lra).
  pose proof (pow2_ge_0 (Rabs y - d)) as P. rewrite <- pow2_abs in Hy. set (a := Rabs y) in *. clearbody a. cbn [pow] in *. lra.
Qed.
(** From above and from below. *)
Lemma corr_above x e : edge_lo c <= x <= edge_hi c -> 0 < e -> exists J, forall j, (J <= j)%nat ->
  exists h w, NormalAverage (K j) h w /\ w <= e /\ forall l, length l = K j -> 0 <= h l /\ (Steady (N j) (T j) l -> count_le x (rho j l) / INR (M j) - cdf c x <= h l).
Proof.
  intros Hx He. destruct (edges c c_pos) as (_ & _ & _ & Hlo & Hhi). destruct (Rle_dec (edge_hi c) x) as [E|E].
  - exists O. intros j _. exists (fun _ => 0), 0. split; [apply (navg_const _ 0)|]. split; [lra|]. intros l _. split; [lra|]. intro St. assert (x = edge_hi c) as -> by lra. rewrite (proj2 (cdf_ends c c_pos)). destruct (pair_counts j l St) as (Hl & _). pose proof (size_M j) as Hm.
    pose proof (count_le_range (edge_hi c) (rho j l)) as B. rewrite Hl in B. assert (count_le (edge_hi c) (rho j l) / INR (M j) <= 1); [|lra]. apply (Rmult_le_reg_r (INR (M j))); [lra|]. unfold Rdiv. rewrite Rmult_assoc, Rinv_l by lra. lra.
  - destruct (cdf_cont c (e / 8) c_pos ltac:(lra)) as (d & Hd & CC). set (b := Rmin (edge_hi c) (x + d)). assert (x < b /\ b <= edge_hi c /\ b <= x + d) as (B1 & B2 & B3) by (unfold b; split; [apply Rmin_case; lra|split; [apply Rmin_l|apply Rmin_r]]).
    destruct (CC x b ltac:(lra) B2 ltac:(lra)) as [C1 C2]. assert (0 < e * e / 8) as Hee by (assert (0 < e * e) by (apply Rmult_lt_0_compat; lra); lra).
    destruct (cov_count b (e * e / 8) ltac:(lra) Hee) as (J1 & H1). set (kk := 4 * b / ((b - x) * (b - x))). assert (0 <= kk) as Hkk by (apply Rmult_le_pos; [lra|apply Rlt_le, Rinv_0_lt_compat, Rmult_lt_0_compat; lra]).
    assert (is_lim_seq (fun j => kk * (/ INR (M j) * (INR (N j) * (2 / (INR (T j) - 1))))) 0) as L0 by (replace (Finite 0) with (Finite (kk * 0)) by (f_equal; ring); apply (is_lim_seq_scal_l _ kk 0), lim_offs).
    apply is_lim_seq_spec in L0. destruct (L0 (mkposreal (e / 8) ltac:(lra))) as (J2 & H2). cbn [pos] in H2. exists (J1 + J2)%nat. intros j Hj. specialize (H2 j ltac:(lia)). apply Rabs_def2 in H2. destruct (H1 j ltac:(lia)) as (h & w & G1 & G2 & G3).
    destruct (offs_average (N j) (T j) (proj2 (sizes j))) as (A2 & _). pose proof (size_M j) as Hm. assert (0 < / INR (M j)) as Hi by (apply Rinv_0_lt_compat; lra).
    pose proof (navg_lin _ _ _ _ _ 1 1 (navg_lin _ _ _ _ _ 1 (/ e) (navg_const (K j) (e / 4 + e / 8)) G2) (navg_scale _ _ _ (kk * / INR (M j)) A2)) as AV. eexists _, _. split; [exact AV|]. split.
    + assert (/ e * w <= e / 8); [|lra]. apply (Rmult_le_reg_l e); [exact He|]. replace (e * (/ e * w)) with w by (field; lra). lra.
    + intros l Hl. cbv beta. specialize (G1 l Hl). pose proof (small_part _ _ (e / 2) G1 ltac:(lra)) as SP. replace (h l / (2 * (e / 2))) with (/ e * h l) in SP by (field; lra). pose proof (Rle_abs (count_le b (lam j l) / INR (M j) - cdf c b)) as AB. pose proof (offs_pos (N j) (T j) l) as OP.
      assert (0 <= kk * / INR (M j) * offs 2 (N j) (T j) l) as KO by (apply Rmult_le_pos; [apply Rmult_le_pos; lra|exact OP]). pose proof (Rabs_pos (count_le b (lam j l) / INR (M j) - cdf c b)) as AP. split; [lra|].
      intro St. destruct (pair_counts j l St) as (_ & P1 & _). specialize (P1 x b ltac:(lra)). fold kk in P1. apply (Rmult_le_compat_r (/ INR (M j))) in P1; [|lra]. unfold Rdiv in *. lra.
Qed.
Lemma count_between x y l : y < x -> count_le y l <= count_lt x l.
Proof. intro H. apply total_le. intro v. destruct (Rle_dec v y); destruct (Rlt_dec v x); lra. Qed.
Lemma corr_below x e : edge_lo c <= x <= edge_hi c -> 0 < e -> exists J, forall j, (J <= j)%nat ->
  exists h w, NormalAverage (K j) h w /\ w <= e /\ forall l, length l = K j -> 0 <= h l /\ (Steady (N j) (T j) l -> cdf c x - count_lt x (rho j l) / INR (M j) <= h l).
Proof.
  intros Hx He. destruct (edges c c_pos) as (_ & _ & _ & Hlo & Hhi). destruct (Rle_dec x (edge_lo c)) as [E|E].
  - exists O. intros j _. exists (fun _ => 0), 0. split; [apply (navg_const _ 0)|]. split; [lra|]. intros l _. split; [lra|]. intro St. assert (x = edge_lo c) as -> by lra. rewrite (proj1 (cdf_ends c c_pos)). pose proof (size_M j) as Hm.
    assert (0 <= count_lt (edge_lo c) (rho j l) / INR (M j)); [|lra]. apply Rmult_le_pos; [|apply Rlt_le, Rinv_0_lt_compat; lra]. apply (total_range (fun v => if Rlt_dec v (edge_lo c) then 1 else 0)). intro v. destruct (Rlt_dec v (edge_lo c)); lra.
  - destruct (cdf_cont c (e / 8) c_pos ltac:(lra)) as (d & Hd & CC). set (a := Rmax (edge_lo c) (x - d)). assert (a < x /\ edge_lo c <= a /\ x - d <= a) as (B1 & B2 & B3) by (unfold a; split; [apply Rmax_case; lra|split; [apply Rmax_l|apply Rmax_r]]).
    destruct (CC a x ltac:(lra) ltac:(lra) ltac:(lra)) as [C1 C2]. assert (0 < e * e / 8) as Hee by (assert (0 < e * e) by (apply Rmult_lt_0_compat; lra); lra).
    destruct (cov_count a (e * e / 8) ltac:(lra) Hee) as (J1 & H1). set (y := (a + x) / 2). set (kk := 4 * y / ((y - a) * (y - a))). assert (a < y < x) as Hy by (unfold y; lra). assert (0 <= kk) as Hkk by (apply Rmult_le_pos; [lra|apply Rlt_le, Rinv_0_lt_compat, Rmult_lt_0_compat; lra]).
    assert (is_lim_seq (fun j => kk * (/ INR (M j) * (INR (N j) * (2 / (INR (T j) - 1))))) 0) as L0 by (replace (Finite 0) with (Finite (kk * 0)) by (f_equal; ring); apply (is_lim_seq_scal_l _ kk 0), lim_offs).
    apply is_lim_seq_spec in L0. destruct (L0 (mkposreal (e / 8) ltac:(lra))) as (J2 & H2). cbn [pos] in H2. exists (J1 + J2)%nat. intros j Hj. specialize (H2 j ltac:(lia)). apply Rabs_def2 in H2. destruct (H1 j ltac:(lia)) as (h & w & G1 & G2 & G3).
    destruct (offs_average (N j) (T j) (proj2 (sizes j))) as (A2 & _). pose proof (size_M j) as Hm. assert (0 < / INR (M j)) as Hi by (apply Rinv_0_lt_compat; lra).
    pose proof (navg_lin _ _ _ _ _ 1 1 (navg_lin _ _ _ _ _ 1 (/ e) (navg_const (K j) (e / 4 + e / 8)) G2) (navg_scale _ _ _ (kk * / INR (M j)) A2)) as AV. eexists _, _. split; [exact AV|]. split.
    + assert (/ e * w <= e / 8); [|lra]. apply (Rmult_le_reg_l e); [exact He|]. replace (e * (/ e * w)) with w by (field; lra). lra.
    + intros l Hl. cbv beta. specialize (G1 l Hl). pose proof (small_part _ _ (e / 2) G1 ltac:(lra)) as SP. replace (h l / (2 * (e / 2))) with (/ e * h l) in SP by (field; lra). pose proof (Rabs_maj2 (count_le a (lam j l) / INR (M j) - cdf c a)) as AB. pose proof (offs_pos (N j) (T j) l) as OP.
      assert (0 <= kk * / INR (M j) * offs 2 (N j) (T j) l) as KO by (apply Rmult_le_pos; [apply Rmult_le_pos; lra|exact OP]). pose proof (Rabs_pos (count_le a (lam j l) / INR (M j) - cdf c a)) as AP. split; [lra|].
      intro St. destruct (pair_counts j l St) as (_ & _ & P1 & _). specialize (P1 a y ltac:(lra)). fold kk in P1. pose proof (count_between x y (rho j l) ltac:(lra)) as CB. assert (count_le a (lam j l) <= count_lt x (rho j l) + kk * offs 2 (N j) (T j) l) as P2 by lra. apply (Rmult_le_compat_r (/ INR (M j))) in P2; [|lra]. unfold Rdiv in *. lra.
Qed.
Lemma unsteady_small e : 0 < e -> exists J, forall j, (J <= j)%nat -> exists w, NormalAverage (K j) (unsteady (N j) (T j)) w /\ w <= e.
Proof.
  intro He. destruct (proj2 (is_lim_seq_spec _ _) lim_unsteady (mkposreal e He)) as (J & H). cbn [pos] in H. exists J. intros j Hj. specialize (H j Hj). apply Rabs_def2 in H. destruct (offs_average (N j) (T j) (proj2 (sizes j))) as (_ & A4).
  eexists. split; [exact (navg_scale _ _ _ 4 A4)|]. lra.
Qed.
Lemma corr_law x e : edge_lo c <= x <= edge_hi c -> 0 < e -> exists J, forall j, (J <= j)%nat ->
  exists h w, NormalAverage (K j) h w /\ w <= e /\ forall l, length l = K j -> forall v, 0 <= v <= 1 -> (Moving (N j) (T j) l -> count_lt x (rho j l) / INR (M j) <= v <= count_le x (rho j l) / INR (M j)) -> Rabs (v - cdf c x) <= h l.
Proof.
  intros Hx He. destruct (corr_above x (e / 3) Hx ltac:(lra)) as (J1 & H1). destruct (corr_below x (e / 3) Hx ltac:(lra)) as (J2 & H2). destruct (unsteady_small (e / 3) ltac:(lra)) as (J3 & H3). exists (J1 + J2 + J3)%nat. intros j Hj.
  destruct (H1 j ltac:(lia)) as (h1 & w1 & A1 & W1 & B1). destruct (H2 j ltac:(lia)) as (h2 & w2 & A2 & W2 & B2). destruct (H3 j ltac:(lia)) as (w3 & A3 & W3). pose proof (navg_lin _ _ _ _ _ 1 1 (navg_lin _ _ _ _ _ 1 1 A1 A2) A3) as AV. eexists _, _. split; [exact AV|]. split; [lra|].
  intros l Hl v Hv HM. cbv beta. destruct (B1 l Hl) as [P1 Q1]. destruct (B2 l Hl) as [P2 Q2]. destruct (unsteady_one (N j) (T j) l) as [U0 U1]. pose proof (cdf_range c x c_pos Hx) as R. apply Rabs_le. destruct (steady_dec (N j) (T j) l) as [St|St].
  - specialize (Q1 St). specialize (Q2 St). specialize (HM (steady_moving j l St)). lra.
  - specialize (U1 St). lra.
Qed.
End Ratio.

(** The part of the [min n t] computed eigenvalues that the Marchenko-Pastur law of ratio [c] puts up to [x]: the area of the density for
    c <= 1 (an improper integral for c = 1, where the density is unbounded at 0), and [c] times it for c > 1, where the zeros are not computed. *)
Definition NoiseShare (c x p : R) : Prop :=
  let lo := (1 - sqrt c) ^ 2 in let hi := (1 + sqrt c) ^ 2 in
  (c < 1 /\ lo <= x <= hi /\ is_RInt (MPDensity c lo hi) lo x p) \/
  (c = 1 /\ 0 < x <= 4 /\ is_RInt_gen (MPDensity 1 0 4) (at_right 0) (at_point x) p) \/
  (1 < c /\ lo <= x <= hi /\ is_RInt (MPDensity c lo hi) lo x (p / c)).
Lemma noise_share c x p : 0 < c -> NoiseShare c x p -> edge_lo c <= x <= edge_hi c /\ p = cdf c x.
Proof.
  intros Hc [(H & Hx & Hp)|[(-> & Hx & Hp)|(H & Hx & Hp)]].
  - split; [exact Hx|]. destruct (area_density c x p ltac:(lra) Hx Hp) as (t & Ht & E & A). destruct (edges c Hc) as (Hq & _). unfold cdf. destruct (Rlt_dec c 1); [|lra]. rewrite <- A. f_equal. rewrite E. field. lra.
  - split; [unfold edge_lo, edge_hi; rewrite sqrt_1; cbn [pow]; lra|]. unfold cdf. destruct (Rlt_dec 1 1); [lra|]. destruct (Rlt_dec 1 1); [lra|]. now apply one_value.
  - split; [exact Hx|]. destruct (wide_density c x (p / c) H Hx Hp) as (t & Ht & E & A). destruct (edges c Hc) as (Hq & _). unfold cdf. destruct (Rlt_dec c 1); [lra|]. destruct (Rlt_dec 1 c); [|lra]. transitivity (area (/ c) t); [rewrite A; field; lra|]. f_equal. rewrite E. field. lra.
Qed.

(** C162. n_j series of t_j values, n_j growing and n_j / t_j tending to any c > 0, correlations instead of covariances.  Unless a series is
    constant the object is built.  The share of its eigenvalues up to x (with or without those equal to x; any number between 0 and 1 for data
    with a constant series) tends to the share p of the Marchenko-Pastur law, on average and in mean absolute distance. *)
Theorem C162_law : forall ev zeros, (forall m, Diagonalises m ev) -> forall N T (c : R), (forall j, 2 <= N j /\ 2 <= T j)%nat ->
  is_lim_seq (fun j => INR (N j)) p_infty -> is_lim_seq (fun j => INR (N j) / INR (T j)) c -> 0 < c -> forall x p, NoiseShare c x p -> forall e, 0 < e -> exists J, forall j, (J <= j)%nat ->
  let m := Nat.min (N j) (T j) in let share f draws := of_object f (corr_object ev (N j) (T j) zeros draws) / INR m in
  (forall draws, Moving (N j) (T j) draws -> exists ts, corr_object ev (N j) (T j) zeros draws = Ok ts /\ length (ts_vals ts) = m) /\
  forall f, (forall draws, length draws = (N j * T j)%nat -> 0 <= f draws <= 1) -> (forall draws, Moving (N j) (T j) draws -> share (count_lt x) draws <= f draws <= share (count_le x) draws) ->
    AverageWithin (N j * T j) f (p - e) (p + e) /\
    exists h w, (forall draws, length draws = (N j * T j)%nat -> Rabs (f draws - p) <= h draws) /\ NormalAverage (N j * T j) h w /\ w <= e.
Proof.
  intros ev zeros He N T c Hs Hg Hr Hc x p Hp e Hpos. destruct (noise_share c x p Hc Hp) as [Hx ->]. destruct (corr_law ev zeros N T c He Hs Hg Hr Hc x e Hx Hpos) as (J & H). exists J. intros j Hj m share. split.
  - intros l Hm. destruct (corr_values ev zeros N T He Hs j l Hm) as (ts & E & S & _). exists ts. split; [exact E|apply S].
  - intros f F01 FB. destruct (H j Hj) as (h & w & A & W & B).
    assert (forall l, length l = (N j * T j)%nat -> Rabs (f l - cdf c x) <= h l) as D.
    { intros l Hl. apply B; [exact Hl|now apply F01|]. intro Hm. specialize (FB l Hm). unfold share in FB. destruct (corr_values ev zeros N T He Hs j l Hm) as (ts & E & _). rewrite E in *. exact FB. }
    split; [|exists h, w; auto]. pose proof (navg_lin _ _ _ _ _ 1 (-1) (navg_const (N j * T j) (cdf c x)) A) as A1. pose proof (navg_lin _ _ _ _ _ 1 1 (navg_const (N j * T j) (cdf c x)) A) as A2.
    eexists _, _, _, _. split; [|split; [exact A1|split; [exact A2|lra]]]. intros l Hl. cbv beta. specialize (D l Hl). apply Rabs_le_between in D. lra.
Qed.
Print Assumptions C162_law.

(** from_time_series(covariance=False, trim_zeros=False) followed by trim_marchenko_pastur() with the stored sizes. *)
Definition corr_trim (ev : ndarray R -> result (list R)) (n t : nat) (zeros : zeros_arg R) (largest shifted : bool) (draws : list R) : result (list R * (R * R)) :=
  let! o := corr_object ev n t zeros draws in trim_marchenko_pastur sqrt (ts_vals o) (Some (Z.of_nat (ts_N o))) (Some (Z.of_nat (ts_T o))) None None largest shifted.

(** C162. Of the correlations of pure noise, trim_marchenko_pastur, with or without the shift, keeps a vanishing share of the eigenvalues as
    the largest ones and almost all of them as noise. *)
Theorem C162_trim : forall ev zeros, (forall m, Diagonalises m ev) -> forall N T (c : R), (forall j, 2 <= N j /\ 2 <= T j)%nat ->
  is_lim_seq (fun j => INR (N j)) p_infty -> is_lim_seq (fun j => INR (N j) / INR (T j)) c -> 0 < c -> forall shifted e, 0 < e -> exists J, forall j, (J <= j)%nat ->
  let m := Nat.min (N j) (T j) in let kept largest draws := kept_share m (corr_trim ev (N j) (T j) zeros largest shifted draws) in
  (forall largest draws, Moving (N j) (T j) draws -> exists r, corr_trim ev (N j) (T j) zeros largest shifted draws = Ok r) /\
  forall f, (forall draws, length draws = (N j * T j)%nat -> 0 <= f draws <= 1) ->
    ((forall draws, Moving (N j) (T j) draws -> f draws = kept true draws) -> AverageWithin (N j * T j) f 0 e) /\
    ((forall draws, Moving (N j) (T j) draws -> f draws = kept false draws) -> AverageWithin (N j * T j) f (1 - e) 1).
Proof.
  intros ev zeros He N T c Hs Hg Hr Hc shifted e Hpos. destruct (edges c Hc) as (Hq & El & Eh & Hlo & Hhi). destruct (cdf_ends c Hc) as [F0 F1]. destruct (cdf_cont c (e / 16) Hc ltac:(lra)) as (d0 & Hd0 & CC).
  set (lo := edge_lo c) in *. set (hi := edge_hi c) in *. set (q := sqrt c) in *. set (d := Rmin d0 (Rmin 1 q)). assert (0 < d /\ d <= d0 /\ d <= 1 /\ d <= q) as (D1 & D2 & D3 & D4).
  { unfold d. split; [repeat apply Rmin_case; lra|]. split; [apply Rmin_l|]. split; (eapply Rle_trans; [apply Rmin_r|]); [apply Rmin_l|apply Rmin_r]. }
  set (x0 := lo + d). set (x1 := hi - d). assert (lo <= x0 <= hi) as X0 by (unfold x0; lra). assert (lo <= x1 <= hi) as X1 by (unfold x1; lra).
  destruct (CC lo x0 ltac:(unfold x0; lra) ltac:(lra) ltac:(unfold x0; lra)) as [_ C0]. destruct (CC x1 hi ltac:(unfold x1; lra) ltac:(lra) ltac:(unfold x1; lra)) as [_ C1]. rewrite F0 in C0. rewrite F1 in C1.
  set (eta := d / (4 * hi)). assert (0 < eta) as Heta by (unfold eta; apply Rdiv_lt_0_compat; lra). assert (eta * hi = d / 4) as Ee by (unfold eta; field; lra). assert (eta < 1) as Heta1 by nra.
  assert (is_lim_seq (fun j => sqrt (INR (N j) / INR (T j))) q) as LQ by (apply (is_lim_seq_continuous sqrt _ c); [apply continuity_pt_sqrt; lra|exact Hr]).
  assert (is_lim_seq (fun j => MPLower 1 (Z.of_nat (N j)) (Z.of_nat (T j))) lo) as LL.
  { replace (Finite lo) with (Finite ((1 - q) * (1 - q))) by (f_equal; unfold lo, edge_lo; fold q; ring). apply (is_lim_seq_ext (fun j => (1 - sqrt (INR (N j) / INR (T j))) * (1 - sqrt (INR (N j) / INR (T j))))); [intro j; unfold MPLower; rewrite <- !INR_IZR_INZ; ring|].
    apply is_lim_seq_mult'; apply is_lim_seq_minus'; try apply is_lim_seq_const; exact LQ. }
  assert (is_lim_seq (fun j => MPUpper 1 (Z.of_nat (N j)) (Z.of_nat (T j))) hi) as LH.
  { replace (Finite hi) with (Finite ((1 + q) * (1 + q))) by (f_equal; unfold hi, edge_hi; fold q; ring). apply (is_lim_seq_ext (fun j => (1 + sqrt (INR (N j) / INR (T j))) * (1 + sqrt (INR (N j) / INR (T j))))); [intro j; unfold MPUpper; rewrite <- !INR_IZR_INZ; ring|].
    apply is_lim_seq_mult'; apply is_lim_seq_plus'; try apply is_lim_seq_const; exact LQ. }
  assert (is_lim_seq (fun j => 16 * / (eta * INR (N j) * (eta * INR (N j))) * covariance_average (N j) (T j) [2%nat]) 0) as LP.
  { assert (forall j, 0 < INR (N j)) as HN by (intro j; pose proof (size_N N T Hs j); lra). assert (forall j, 0 < INR (T j) - 1) as HT by (intro j; pose proof (size_T N T Hs j); lra).
    pose proof (noise_limit c Hc (fun j => INR (N j)) (fun j => INR (T j) - 1) HN HT (inv_N N Hg) (lim_inv_d N T c Hs Hg Hr) (lim_ratio N T c Hs Hg Hr) (S (burden [2%nat])) [2%nat] ltac:(lia)) as L2. cbn [map fold_right] in L2.
    pose proof (is_lim_seq_scal_l _ (16 * / (eta * eta)) _ (is_lim_seq_mult' _ _ _ _ L2 (inv_N N Hg))) as L3. cbn [Rbar_mult Rbar_mult'] in L3. replace (Finite 0) with (Finite (16 * / (eta * eta) * (mp_moment c 2 * 1 * 0))) by (f_equal; ring).
    refine (is_lim_seq_ext _ _ _ _ L3). intro j. cbv beta. unfold covariance_average, degree. specialize (HN j). specialize (HT j). cbn [length fold_right Nat.add map]. field. repeat split; lra. }
  destruct (corr_above ev zeros N T c He Hs Hg Hr Hc x0 (e / 16) X0 ltac:(lra)) as (J0 & H0). destruct (corr_below ev zeros N T c He Hs Hg Hr Hc x1 (e / 16) X1 ltac:(lra)) as (J1 & H1). destruct (unsteady_small N T c Hs Hg Hr (e / 16) ltac:(lra)) as (J5 & H5).
  apply is_lim_seq_spec in LL. apply is_lim_seq_spec in LH. apply is_lim_seq_spec in LP. assert (0 < d / 8) as Hd8 by lra.
  destruct (LL (mkposreal (d / 8) Hd8)) as (J2 & HL). destruct (LH (mkposreal (d / 8) Hd8)) as (J3 & HH). destruct (LP (mkposreal (e / 16) ltac:(lra))) as (J4 & HP). cbn [pos] in HL, HH, HP.
  exists (J0 + J1 + J2 + J3 + J4 + J5)%nat. intros j Hj m kept. specialize (HL j ltac:(lia)). specialize (HH j ltac:(lia)). specialize (HP j ltac:(lia)). apply Rabs_def2 in HL. apply Rabs_def2 in HH. apply Rabs_def2 in HP.
  destruct (H0 j ltac:(lia)) as (h0 & w0 & A0 & W0 & B0). destruct (H1 j ltac:(lia)) as (h1 & w1 & A1 & W1 & B1). destruct (H5 j ltac:(lia)) as (w5 & A5 & W5). destruct (Hs j) as [S1 S2].
  assert (forall l, Moving (N j) (T j) l -> let vals := vals_of (corr_object ev (N j) (T j) zeros l) in (forall largest, exists r, corr_trim ev (N j) (T j) zeros largest shifted l = Ok r) /\
    let rest := 1 - count_le x1 vals / INR m + power_sum 2 vals / (eta * INR (N j) * (eta * INR (N j))) in
    0 <= kept true l <= rest /\ 1 - (count_le x0 vals / INR m + rest) <= kept false l <= 1) as Q.
  { intros l Hm. unfold kept, corr_trim. destruct (corr_values ev zeros N T He Hs j l Hm) as (ts & -> & Sp & Ha & E1 & E2). cbn [vals_of bind]. rewrite E1, E2.
    apply (trim_bounds (ts_vals ts) m (N j) (T j) shifted eta x0 x1 Ha (proj1 Sp) ltac:(unfold m; lia) ltac:(lia) ltac:(lia) ltac:(lra)).
    - unfold x1. nra.
    - unfold x0. nra. }
  split; [intros largest l Hm; apply (Q l Hm)|].
  destruct (C159_averages ev (N j) (T j) zeros [2%nat] (He _) S1 S2 ltac:(right; repeat constructor)) as (_ & AV).
  assert (forall l, of_object (power_sums [2%nat]) (noise_object ev (N j) (T j) zeros l) = power_sum 2 (vals_of (noise_object ev (N j) (T j) zeros l))) as EP.
  { intro l. destruct (cov_values ev zeros N T He Hs j l) as (ts & -> & _). cbn [of_object vals_of]. unfold power_sums. cbn [map fold_right]. ring. }
  set (g := / (eta * INR (N j) * (eta * INR (N j)))) in *. assert (0 < g) as Hgp by (unfold g; pose proof (size_N N T Hs j); apply Rinv_0_lt_compat; assert (0 < eta * INR (N j)) by (apply Rmult_lt_0_compat; lra); now apply Rmult_lt_0_compat).
  pose proof (navg_lin _ _ _ _ _ 1 (16 * g) (navg_lin _ _ _ _ _ 1 1 (navg_lin _ _ _ _ _ 1 1 (navg_const (N j * T j) (e / 8)) A1) A5) AV) as R1.
  pose proof (navg_lin _ _ _ _ _ 1 1 R1 A0) as R2.
  assert (forall l, length l = (N j * T j)%nat -> 0 <= g * of_object (power_sums [2%nat]) (noise_object ev (N j) (T j) zeros l)) as PP.
  { intros l _. rewrite EP. apply Rmult_le_pos; [lra|]. unfold power_sum. rewrite <- (map_id (vals_of _)), map_map. generalize (vals_of (noise_object ev (N j) (T j) zeros l)). intro v. induction v as [|y v IH]; cbn [map]; unfold S_Rotate.total in *; cbn [fold_right]; [lra|]. pose proof (pow2_ge_0 y). lra. }
  assert (forall l, length l = (N j * T j)%nat -> Steady (N j) (T j) l -> let vals := vals_of (corr_object ev (N j) (T j) zeros l) in
    1 - count_le x1 vals / INR m + power_sum 2 vals / (eta * INR (N j) * (eta * INR (N j))) <= e / 8 + h1 l + 16 * g * of_object (power_sums [2%nat]) (noise_object ev (N j) (T j) zeros l) /\ count_le x0 vals / INR m <= e / 16 + h0 l) as RS.
  { intros l Hl St vals. destruct (pair_counts ev zeros N T He Hs j l St) as (_ & _ & _ & PS). destruct (B0 l Hl) as [_ G0]. specialize (G0 St). destruct (B1 l Hl) as [_ G1]. specialize (G1 St). rewrite EP. fold vals in PS, G0, G1. fold m in G0, G1.
    pose proof (count_lt_le x1 vals) as CL. pose proof (size_M N T Hs j) as Hm. fold m in Hm. assert (0 < / INR m) as Hi by (apply Rinv_0_lt_compat; lra). apply (Rmult_le_compat_r (/ INR m)) in CL; [|lra].
    change (power_sum 2 vals / (eta * INR (N j) * (eta * INR (N j)))) with (power_sum 2 vals * g). apply (Rmult_le_compat_r g) in PS; [|lra]. unfold Rdiv in *. split; lra. }
  intros f F01. split; intro FE.
  - eexists (fun _ => 0), _, 0, _. split; [|split; [apply (navg_const _ 0)|split; [exact R1|]]].
    + intros l Hl. cbv beta. specialize (F01 l Hl). split; [lra|]. destruct (unsteady_one (N j) (T j) l) as [U0 U1]. specialize (PP l Hl). destruct (B1 l Hl) as [P1 _]. destruct (steady_dec (N j) (T j) l) as [St|St]; [|specialize (U1 St); lra].
      pose proof (steady_moving N T Hs j l St) as Hm. rewrite (FE l Hm). destruct (Q l Hm) as (_ & Q1 & _). destruct (RS l Hl St) as [RS1 _]. lra.
    + cbv beta. lra.
  - pose proof (navg_lin _ _ _ _ _ 1 (-1) (navg_const (N j * T j) (1 - e / 16)) R2) as R3. eexists _, (fun _ => 1), _, 1. split; [|split; [exact R3|split; [apply (navg_const _ 1)|]]].
    + intros l Hl. cbv beta. specialize (F01 l Hl). split; [|lra]. destruct (unsteady_one (N j) (T j) l) as [U0 U1]. specialize (PP l Hl). destruct (B0 l Hl) as [P0 _]. destruct (B1 l Hl) as [P1 _]. destruct (steady_dec (N j) (T j) l) as [St|St]; [|specialize (U1 St); lra].
      pose proof (steady_moving N T Hs j l St) as Hm. rewrite (FE l Hm). destruct (Q l Hm) as (_ & _ & Q2). destruct (RS l Hl St) as [RS1 RS2]. lra.
    + cbv beta. lra.
Qed.
Print Assumptions C162_trim.

(** The hypotheses are met.  A share clipped to [0, 1] is one on all data. *)
Definition clip (y : R) : R := Rmax 0 (Rmin 1 y).
Lemma clip_range y : 0 <= clip y <= 1.
Proof. unfold clip. split; [apply Rmax_l|]. apply Rmax_case; [lra|apply Rmin_l]. Qed.
Lemma clip_id y : 0 <= y <= 1 -> clip y = y.
Proof. intro H. unfold clip. rewrite Rmin_right, Rmax_right by lra. reflexivity. Qed.
Lemma count_share g (l : list R) m : length l = m -> (0 < m)%nat -> (forall v, 0 <= g v <= 1) -> 0 <= S_Rotate.total (map g l) / INR m <= 1.
Proof.
  intros Hl Hm Hg. pose proof (total_range g l Hg) as B. rewrite Hl in B. assert (0 < INR m) as Hp by now apply lt_0_INR. split; [apply Rmult_le_pos; [lra|apply Rlt_le, Rinv_0_lt_compat, Hp]|].
  apply (Rmult_le_reg_r (INR m)); [exact Hp|]. unfold Rdiv. rewrite Rmult_assoc, Rinv_l by lra. lra.
Qed.
(** Half as many series as time points, at the upper end; as many series as time points, where the law has 1/2 + 1/PI of the values up to 2;
    and the trimming, with the shift. *)
Example C162_ex : forall zeros,
  (exists J, forall j, (J <= j)%nat -> AverageWithin ((j + 2) * (2 * (j + 2))) (fun draws => clip (of_object (count_le ((1 + sqrt (1 / 2)) ^ 2)) (corr_object any_solver (j + 2) (2 * (j + 2)) zeros draws) / INR (j + 2))) (99 / 100) (101 / 100)) /\
  (exists J, forall j, (J <= j)%nat -> AverageWithin ((j + 2) * (j + 2)) (fun draws => clip (of_object (count_lt 2) (corr_object any_solver (j + 2) (j + 2) zeros draws) / INR (j + 2))) (1 / 2 + 1 / PI - 1 / 100) (1 / 2 + 1 / PI + 1 / 100)) /\
  (exists J, forall j, (J <= j)%nat -> AverageWithin ((j + 2) * (j + 2)) (fun draws => clip (kept_share (j + 2) (corr_trim any_solver (j + 2) (j + 2) zeros true true draws))) 0 (1 / 100)).
Proof.
  intro zeros. destruct twice_lim as [L1 L2]. pose proof PI_RGT_0 as HPI.
  assert (is_lim_seq (fun j => INR (j + 2) / INR (j + 2)) 1) as R1 by (apply (is_lim_seq_ext (fun _ => 1)); [|apply is_lim_seq_const]; intro j; assert (0 < INR (j + 2)) by (apply lt_0_INR; lia); field; lra).
  assert (forall x v, 0 <= (if Rle_dec v x then 1 else 0) <= 1) as G1 by (intros x v; destruct (Rle_dec v x); lra). assert (forall x v, 0 <= (if Rlt_dec v x then 1 else 0) <= 1) as G2 by (intros x v; destruct (Rlt_dec v x); lra).
  assert (forall x l n, (0 < n)%nat -> count_lt x l / INR n <= count_le x l / INR n) as LE by (intros x l n Hn; apply Rmult_le_compat_r; [apply Rlt_le, Rinv_0_lt_compat, lt_0_INR, Hn|apply count_lt_le]).
  split; [|split].
  - set (x := (1 + sqrt (1 / 2)) ^ 2). assert (NoiseShare (1 / 2) x 1) as NS by (left; split; [lra|]; split; [unfold x; pose proof (sqrt_pos (1 / 2)); cbn [pow]; nra|apply density_total; lra]).
    destruct (C162_law any_solver zeros any_solver_ok (fun j => (j + 2)%nat) (fun j => (2 * (j + 2))%nat) (1 / 2) ltac:(intro; cbv beta; lia) L1 L2 ltac:(lra) x 1 NS (1 / 100) ltac:(lra)) as (J & H).
    exists J. intros j Hj. destruct (H j Hj) as (H1 & H2). rewrite Nat.min_l in H1, H2 by lia. replace (99 / 100) with (1 - 1 / 100) by field. replace (101 / 100) with (1 + 1 / 100) by field. apply H2; [intros; apply clip_range|].
    intros l Hm. destruct (H1 l Hm) as (ts & E & Hl). rewrite E. cbn [of_object]. rewrite clip_id; [split; [apply LE; lia|lra]|]. apply (count_share _ _ _ Hl); [lia|apply G1].
  - assert (NoiseShare 1 2 (1 / 2 + 1 / PI)) as NS by (right; left; split; [reflexivity|]; split; [lra|apply one_areas]).
    destruct (C162_law any_solver zeros any_solver_ok (fun j => (j + 2)%nat) (fun j => (j + 2)%nat) 1 ltac:(intro; cbv beta; lia) L1 R1 ltac:(lra) 2 (1 / 2 + 1 / PI) NS (1 / 100) ltac:(lra)) as (J & H).
    exists J. intros j Hj. destruct (H j Hj) as (H1 & H2). rewrite Nat.min_id in H1, H2. apply H2; [intros; apply clip_range|].
    intros l Hm. destruct (H1 l Hm) as (ts & E & Hl). rewrite E. cbn [of_object]. rewrite clip_id; [split; [lra|apply LE; lia]|]. apply (count_share _ _ _ Hl); [lia|apply G2].
  - destruct (C162_trim any_solver zeros any_solver_ok (fun j => (j + 2)%nat) (fun j => (j + 2)%nat) 1 ltac:(intro; cbv beta; lia) L1 R1 ltac:(lra) true (1 / 100) ltac:(lra)) as (J & H).
    exists J. intros j Hj. destruct (H j Hj) as (_ & H2). rewrite Nat.min_id in H2. apply H2; [intros; apply clip_range|].
    intros l Hm. apply clip_id. unfold corr_trim. destruct (corr_spectrum any_solver (j + 2) (j + 2) zeros l (any_solver_ok _) ltac:(lia) ltac:(lia) Hm) as (ts & -> & Sp & Ha & E1 & E2). cbn [bind]. rewrite E1, E2.
    pose proof (proj1 Sp) as Hl. rewrite Nat.min_id in Hl. destruct (arr_max_exists (ts_vals ts) ltac:(intro X; rewrite X in Hl; cbn [length] in Hl; lia)) as (mx & Hmx & _). rewrite (mp_value (ts_vals ts) (Z.of_nat (j + 2)) (Z.of_nat (j + 2)) mx) by (auto; lia). cbn [kept_share].
    rewrite filter_count. apply (count_share _ _ _ Hl); [lia|]. intro v. match goal with |- context [if ?b then _ else _] => destruct b end; lra.
Qed.
(** Data without a constant series. *)
Example C162_data : Moving 2 3 [1; 2; 3; 4; 5; 7] /\ exists ts, corr_object any_solver 2 3 ZNegative [1; 2; 3; 4; 5; 7] = Ok ts /\ length (ts_vals ts) = 2%nat.
Proof.
  assert (Moving 2 3 [1; 2; 3; 4; 5; 7]) as H.
  { intros i Hi. exists 0%nat, 1%nat. split; [lia|]. split; [lia|]. destruct i as [|[|i]]; [| |lia]; unfold data_at; cbn; lra. }
  split; [exact H|]. destruct (corr_spectrum any_solver 2 3 ZNegative _ (any_solver_ok _) ltac:(lia) ltac:(lia) H) as (ts & E & Sp & _). exists ts. split; [exact E|apply Sp].
Qed.
