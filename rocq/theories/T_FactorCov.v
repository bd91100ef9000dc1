(** Property C164: what trim_marchenko_pastur reports as signal in covariances, for all data: the criterion, the eigenvalues' sum, when the
    default construction fails, and the shift reporting everything once the variances are large. *)
From Coq Require Import List ZArith Bool Arith Lia Reals Lra Sorting.Permutation.
From Coquelicot Require Import Coquelicot.
From Verif Require Import Base S_Order S_Generate S_Normal S_Rotate S_Series S_Cov S_Factor M_EigVals M_Series M_Cov P_Order P_EigVals P_Series P_TrimStat P_Cov P_Generate P_Rotate T_Rotate P_Wishart T_Units T_Wishart P_LawUnfold T_Law T_MP T_MPDefault T_MPWide P_Spectral4 P_Close P_Steady T_MPCorr P_Factor T_Factor.
Import ListNotations.
Local Open Scope R_scope.
Local Notation length := List.length.
Local Notation total := S_Rotate.total.

Section Data.
Variables (n t : nat) (z : list R) (lam : list R).
Hypotheses (Hn : (2 <= n)%nat) (Ht : (2 <= t)%nat).
Hypothesis SP : Spectrum (Nat.min n t) (handed true n t (data_at t z)) lam.
Local Notation Z := (plain t z).
Lemma cov_plain i j : SampleCov (data_at t z) t i j = SumTo t (fun k => Z i k * Z j k).
Proof. now rewrite plain_products. Qed.
Lemma cov_cases : ((n <= t)%nat /\ Spectrum n (fun i j => SumTo t (fun k => Z i k * Z j k)) lam) \/ ((t < n)%nat /\ Spectrum t (fun k l => SumTo n (fun i => Z i k * Z i l)) lam).
Proof.
  destruct (root_d t Ht) as [R1 R2]. pose proof SP as S'. unfold handed in S'. destruct (Nat.leb_spec n t) as [L|L]; [left|right]; (split; [lia|]).
  - rewrite Nat.min_l in S' by exact L. refine (spectrum_ext _ _ _ _ _ S'). intros i j _ _. apply cov_plain.
  - rewrite Nat.min_r in S' by lia. refine (spectrum_ext _ _ _ _ _ S'). intros i j _ _. rewrite Sum_SumTo. transitivity (/ (INR t - 1) * SumTo n (fun s => Dev (data_at t z) t s i * Dev (data_at t z) t s j)); [unfold Rdiv; ring|]. rewrite <- SumTo_scale. apply SumTo_ext. intros s _. unfold plain. set (r := sqrt (INR t - 1)) in *. clearbody r. rewrite <- R2. field. lra.
Qed.
Lemma spread_eq w : Spread (data_at t z) n t w = SumTo t (fun k => mix n Z w k * mix n Z w k).
Proof. unfold Spread. rewrite mix_form. rewrite Sum_SumTo. apply SumTo_ext. intros i _. rewrite Sum_SumTo. apply SumTo_ext. intros j _. now rewrite cov_plain. Qed.
Lemma spread_bound b w : 0 <= b -> (forall v, In v lam -> v <= b) -> Spread (data_at t z) n t w <= b * Weight n w.
Proof.
  intros Hb0 Hb. rewrite spread_eq. unfold Weight. rewrite Sum_SumTo. destruct cov_cases as [[_ S']|[_ S']].
  - exact (rayleigh n t Z lam S' b w Hb).
  - exact (rayleigh_back t n (fun k i => Z i k) lam S' b w Hb0 Hb).
Qed.
Lemma spread_attained v : In v lam -> 0 < v -> exists w, 0 < Weight n w /\ Spread (data_at t z) n t w = v * Weight n w.
Proof.
  intros Hv Hp. destruct cov_cases as [[_ S']|[_ S']].
  - destruct (gram_attained n t Z lam S' v Hv) as (w & W & F). exists w. rewrite spread_eq, F. unfold Weight. rewrite Sum_SumTo, W. split; [lra|ring].
  - destruct (back_attained t n (fun k i => Z i k) lam S' v Hv Hp) as (w & W & F). exists w. rewrite spread_eq. unfold Weight. rewrite Sum_SumTo. split; [rewrite W; exact Hp|exact F].
Qed.
Lemma cov_nonneg v : In v lam -> 0 <= v.
Proof. destruct cov_cases as [[_ S']|[_ S']]; [exact (gram_nonneg n t Z lam S' v)|exact (gram_nonneg t n (fun k i => Z i k) lam S' v)]. Qed.
Lemma cov_total : total lam = AllVariance (data_at t z) n t.
Proof.
  unfold AllVariance. rewrite Sum_SumTo. rewrite (SumTo_ext n _ (fun i => SumTo t (fun k => Z i k * Z i k))) by (intros; apply cov_plain).
  destruct cov_cases as [[_ S']|[_ S']]; [now rewrite (gram_total n t Z lam S')|]. rewrite (gram_total t n (fun k i => Z i k) lam S'). now rewrite SumTo_swap.
Qed.
Lemma cov_null : (t <= n)%nat -> In 0 lam.
Proof.
  intro Htn. destruct (root_d t Ht) as [R1 R2]. assert (forall i, SumTo t (Z i) = 0) as Z0.
  { intro i. rewrite (SumTo_ext t _ (fun k => / sqrt (INR t - 1) * Dev (data_at t z) t i k)) by (intros; unfold plain, Rdiv; ring). rewrite SumTo_scale. rewrite dev_zero by lia. ring. }
  destruct cov_cases as [[L S']|[L S']].
  - assert (n = t) as Ent by lia. clear - S' Ent Z0 Ht. subst t. apply (gram_null n (plain n z) _ ltac:(lia) S'). intros; apply Z0.
  - apply (null_value t _ _ ltac:(lia) S'). intros k Hk. rewrite SumTo_swap. apply SumTo_0. intros i Hi. rewrite SumTo_scale. change (SumTo t (fun l => Z i l)) with (SumTo t (Z i)). rewrite Z0. ring.
Qed.
End Data.

Lemma positives_total (l : list R) : (forall v, In v l -> 0 <= v) -> total (filter (fun v : R => nlt 0%R v) l) = total l.
Proof.
  intro P. induction l as [|y l IH]; [reflexivity|]. specialize (IH (fun v Hv => P v (or_intror Hv))). pose proof (P y (or_introl eq_refl)) as Py. cbn [filter]. change (total (y :: l)) with (y + total l).
  destruct (nlt 0 y) eqn:Ey; [change (total (y :: filter (fun v : R => nlt 0%R v) l)) with (y + total (filter (fun v : R => nlt 0%R v) l)); now rewrite IH|]. apply nlt_R_false in Ey. rewrite IH. lra.
Qed.
Lemma positives_fewer (l : list R) : (length (filter (fun v : R => nlt 0%R v) l) <= length l)%nat /\ (In 0 l -> (length (filter (fun v : R => nlt 0%R v) l) < length l)%nat).
Proof.
  induction l as [|y l [I1 I2]]; cbn [filter length]; [split; [lia|intros []]|]. destruct (nlt 0 y) eqn:Ey; cbn [length]; (split; [lia|]); intros [->|Hy]; try (specialize (I2 Hy)); try lia. apply nlt_R in Ey. lra.
Qed.
Lemma total_nonneg (l : list R) : (forall v, In v l -> 0 <= v) -> 0 <= total l.
Proof. induction l as [|y l IH]; intro H; [cbn; lra|]. change (total (y :: l)) with (y + total l). pose proof (H y (or_introl eq_refl)). specialize (IH (fun v Hv => H v (or_intror Hv))). lra. Qed.
Lemma variance_nonneg x t i : (2 <= t)%nat -> 0 <= SampleCov x t i i.
Proof.
  intro Ht. unfold SampleCov. assert (2 <= INR t) by (change 2 with (INR 2); now apply le_INR). apply Rmult_le_pos; [|apply Rlt_le, Rinv_0_lt_compat; lra]. rewrite Sum_SumTo. apply SumTo_pos. intros; apply square_pos.
Qed.

Lemma all_constant x n t : (2 <= t)%nat -> AllVariance x n t = 0 <-> forall i k l, (i < n)%nat -> (k < t)%nat -> (l < t)%nat -> x i k = x i l.
Proof.
  intro Ht. unfold AllVariance. rewrite Sum_SumTo. split.
  - intros H i k l Hi Hk Hl. pose proof (nonneg_zero n _ (fun j _ => variance_nonneg x t j Ht) H i Hi) as Z0. cbv beta in Z0. destruct (Req_dec (x i k) (x i l)) as [|N]; [assumption|exfalso].
    pose proof (cov_pos x t i ltac:(lia) ltac:(exists k, l; auto)). lra.
  - intro H. apply SumTo_0. intros i Hi. unfold SampleCov. assert (2 <= INR t) as H2 by (change 2 with (INR 2); now apply le_INR).
    assert (Mean x t i = x i O) as EM. { unfold Mean. rewrite Sum_SumTo, (SumTo_ext t _ (fun _ => x i O)), SumTo_const; [field; lra|]. intros k Hk. apply H; lia. }
    rewrite Sum_SumTo, (SumTo_0 t); [unfold Rdiv; ring|]. intros k Hk. unfold Dev. rewrite EM, (H i k O) by lia. ring.
Qed.

(** C164. All data, covariances, any eigensolver: trim_marchenko_pastur(largest=True) returns something exactly if some weighted sum of the
    series has a variance above the bar, and then the largest eigenvalue is among it. *)
Theorem C164_found : forall ev n t zeros data shifted, Diagonalises (Nat.min n t) ev -> (2 <= n)%nat -> (2 <= t)%nat ->
  exists ts kept bounds emax, noise_object ev n t zeros data = Ok ts /\ Largest (ts_vals ts) emax /\ noise_trim ev n t zeros true shifted data = Ok (kept, bounds) /\
    (kept <> [] <-> exists w, Bar shifted n t * Weight n w < Spread (data_at t data) n t w) /\ (kept <> [] -> In emax kept).
Proof.
  intros ev n t zeros z shifted He Hn Ht. destruct (noise_spectrum ev n t zeros z He Hn Ht) as (ts & E & Sp & Ha & E1 & E2). pose proof (proj1 Sp) as Hl.
  assert (0 < INR n) as Pn by (apply lt_0_INR; lia). pose proof (upper_pos n t) as Pu. pose proof (cov_nonneg n t z (ts_vals ts) Hn Ht Sp) as NN.
  destruct (arr_max_exists (ts_vals ts) ltac:(intro X; rewrite X in Hl; cbn [length] in Hl; lia)) as (emax & Hx & _). pose proof (NN emax (proj1 Hx)) as Pe.
  set (s := mp_scale shifted emax (Z.of_nat n)). assert (s = if shifted then 1 - emax / INR n else 1) as Es by (unfold s, mp_scale; now rewrite <- INR_IZR_INZ).
  assert (noise_trim ev n t zeros true shifted z = Ok (filter (fun v => nlt (s * UpperEnd n t) v) (ts_vals ts), (MPLower s (Z.of_nat n) (Z.of_nat t), MPUpper s (Z.of_nat n) (Z.of_nat t)))) as Et.
  { unfold noise_trim. rewrite E. cbn [bind]. rewrite E1, E2. rewrite (mp_value (ts_vals ts) (Z.of_nat n) (Z.of_nat t) emax) by (auto; lia). fold s. rewrite upper_end by lia. reflexivity. }
  assert (s * UpperEnd n t < emax <-> Bar shifted n t < emax) as EB.
  { rewrite Es. unfold Bar. destruct shifted; [|rewrite Rmult_1_l; reflexivity]. set (u := UpperEnd n t) in *. set (N := INR n) in *.
    replace ((1 - emax / N) * u) with (u * (N - emax) / N) by (field; lra). split; intro H.
    - apply (Rmult_lt_reg_r (N + u)); [lra|]. replace (N * u / (N + u) * (N + u)) with (N * u) by (field; lra). apply (Rmult_lt_compat_r N) in H; [|exact Pn]. replace (u * (N - emax) / N * N) with (u * (N - emax)) in H by (field; lra). lra.
    - apply (Rmult_lt_reg_r N); [exact Pn|]. replace (u * (N - emax) / N * N) with (u * (N - emax)) by (field; lra). apply (Rmult_lt_compat_r (N + u)) in H; [|lra]. replace (N * u / (N + u) * (N + u)) with (N * u) in H by (field; lra). lra. }
  assert (0 < Bar shifted n t) as PB by (unfold Bar; destruct shifted; [apply Rdiv_lt_0_compat; [apply Rmult_lt_0_compat|]; lra|lra]).
  eexists ts, _, _, emax. split; [exact E|]. split; [exact Hx|]. split; [exact Et|].
  assert (filter (fun v => nlt (s * UpperEnd n t) v) (ts_vals ts) <> [] -> s * UpperEnd n t < emax) as F1.
  { intro H. destruct (filter _ (ts_vals ts)) as [|y l] eqn:Ef; [congruence|]. assert (In y (y :: l)) as Hy by now left. rewrite <- Ef in Hy. apply filter_In in Hy. destruct Hy as [H1 H2]. apply nlt_R in H2. pose proof (proj2 Hx y H1). lra. }
  assert (s * UpperEnd n t < emax -> In emax (filter (fun v => nlt (s * UpperEnd n t) v) (ts_vals ts))) as F2 by (intro H; apply filter_In; split; [apply Hx|now apply nlt_R]).
  split; [|intro H; now apply F2, F1]. split.
  - intro H. apply F1, EB in H. destruct (spread_attained n t z (ts_vals ts) Hn Ht Sp emax (proj1 Hx) ltac:(lra)) as (w & W & P). exists w. rewrite P. now apply Rmult_lt_compat_r.
  - intros (w & W). assert (Bar shifted n t < emax) as H.
    { destruct (Rlt_dec (Bar shifted n t) emax) as [|N]; [assumption|exfalso]. pose proof (spread_bound n t z (ts_vals ts) Hn Ht Sp emax w Pe (proj2 Hx)) as P.
      assert (0 <= Weight n w) as PW by (unfold Weight; rewrite Sum_SumTo; apply SumTo_pos; intros; apply square_pos). assert (emax * Weight n w <= Bar shifted n t * Weight n w) by (apply Rmult_le_compat_r; lra). lra. }
    apply EB, F2 in H. intro X. rewrite X in H. destruct H.
Qed.
Print Assumptions C164_found.

(** C164. The eigenvalues are not negative and sum to the sum of the variances, zero is among them as soon as t <= n; the default construction
    fails exactly if all series are constant, and otherwise leaves at most t - 1 values with the same sum. *)
Theorem C164_sum : forall ev n t zeros data, Diagonalises (Nat.min n t) ev -> (2 <= n)%nat -> (2 <= t)%nat -> let v := AllVariance (data_at t data) n t in
  (exists ts, noise_object ev n t zeros data = Ok ts /\ length (ts_vals ts) = Nat.min n t /\ total (ts_vals ts) = v /\ List.Forall (fun x => 0 <= x) (ts_vals ts) /\ ((t <= n)%nat -> In 0 (ts_vals ts))) /\
  ((exists x, default_object ev n t data = Raise x) <-> forall i k l, (i < n)%nat -> (k < t)%nat -> (l < t)%nat -> data_at t data i k = data_at t data i l) /\
  forall ts, default_object ev n t data = Ok ts -> (1 <= length (ts_vals ts) <= Nat.min n (t - 1))%nat /\ total (ts_vals ts) = v /\ List.Forall (fun x => 0 < x) (ts_vals ts).
Proof.
  intros ev n t zeros z He Hn Ht v.
  assert (forall zr, exists ts, noise_object ev n t zr z = Ok ts /\ length (ts_vals ts) = Nat.min n t /\ total (ts_vals ts) = v /\ List.Forall (fun x => 0 <= x) (ts_vals ts) /\ ((t <= n)%nat -> In 0 (ts_vals ts))) as A.
  { intro zr. destruct (noise_spectrum ev n t zr z He Hn Ht) as (ts & E & Sp & _). exists ts. split; [exact E|]. split; [apply Sp|]. split; [exact (cov_total n t z _ Hn Ht Sp)|]. split; [apply Forall_forall; exact (cov_nonneg n t z _ Hn Ht Sp)|exact (cov_null n t z _ Hn Ht Sp)]. }
  split; [apply A|]. rewrite <- all_constant by exact Ht. fold v. destruct (A ZNegative) as (ts & E & L & To & Fo & N0). rewrite Forall_forall in Fo. pose proof (positives_total _ Fo) as PT.
  destruct (default_values ev n t z He Hn Ht) as (ts0 & E0 & D). rewrite E in E0. assert (ts0 = ts) as -> by congruence. clear E0. destruct D as [[D (x & Ex)]|(D & ts1 & D1 & D2 & _)].
  - split; [|intros ts' X; congruence]. split; [|intros _; now exists x]. intros _. rewrite <- To, <- PT, D. reflexivity.
  - split.
    + split; [intros (x & Ex); congruence|]. intro V0. exfalso. rewrite To, V0 in PT. destruct (filter (fun x : R => nlt 0%R x) (ts_vals ts)) as [|y l] eqn:Ef; [now apply D|]. change (total (y :: l)) with (y + total l) in PT.
      assert (forall x, In x (y :: l) -> 0 < x) as P by (intros x Hx; rewrite <- Ef in Hx; apply filter_In in Hx; now apply nlt_R). pose proof (P y (or_introl eq_refl)). pose proof (total_nonneg l (fun x Hx => Rlt_le _ _ (P x (or_intror Hx)))). lra.
    + intros ts' X. assert (ts' = ts1) as -> by congruence. rewrite D2. split; [|split].
      * destruct (positives_fewer (ts_vals ts)) as [F1 F2]. destruct (filter (fun x : R => nlt 0%R x) (ts_vals ts)) as [|y l] eqn:Ef; [now destruct D|]. cbn [length] in *. destruct (le_lt_dec t n) as [H|H]; [specialize (F2 (N0 H)); lia|lia].
      * now rewrite PT.
      * apply Forall_forall. intros y Hy. apply filter_In in Hy. now apply nlt_R.
Qed.
Print Assumptions C164_sum.

(** C164. FALSE of the code: that only the eigenvalues beyond noise are reported with the shift.  As soon as one series has a sample variance
    above n, the shift is negative and every eigenvalue is reported as signal and none as noise. *)
Theorem C164_shift_refuted : forall ev n t zeros data i, Diagonalises (Nat.min n t) ev -> (2 <= n)%nat -> (2 <= t)%nat -> (i < n)%nat -> INR n < SampleCov (data_at t data) t i i ->
  exists ts b, noise_object ev n t zeros data = Ok ts /\ noise_trim ev n t zeros true true data = Ok (ts_vals ts, b) /\ noise_trim ev n t zeros false true data = Ok ([], b).
Proof.
  intros ev n t zeros z i He Hn Ht Hi Hv. destruct (noise_spectrum ev n t zeros z He Hn Ht) as (ts & E & Sp & Ha & E1 & E2). pose proof (proj1 Sp) as Hl.
  assert (0 < INR n) as Pn by (apply lt_0_INR; lia). pose proof (upper_pos n t) as Pu. pose proof (cov_nonneg n t z (ts_vals ts) Hn Ht Sp) as NN.
  destruct (arr_max_exists (ts_vals ts) ltac:(intro X; rewrite X in Hl; cbn [length] in Hl; lia)) as (emax & Hx & _). pose proof (NN emax (proj1 Hx)) as Pe.
  assert (INR n < emax) as Big.
  { pose (w := fun j => if Nat.eqb j i then 1 else 0). pose proof (spread_bound n t z (ts_vals ts) Hn Ht Sp emax w Pe (proj2 Hx)) as B.
    assert (Weight n w = 1) as W. { unfold Weight. rewrite Sum_SumTo. rewrite (SumTo_ext n _ (fun j => if Nat.eqb j i then 1 else 0)) by (intros j _; unfold w; destruct (Nat.eqb j i); ring). exact (SumTo_delta n i (fun _ => 1) Hi). }
    assert (Spread (data_at t z) n t w = SampleCov (data_at t z) t i i) as S0.
    { unfold Spread. rewrite Sum_SumTo. rewrite (SumTo_ext n _ (fun j => if Nat.eqb j i then SampleCov (data_at t z) t j i else 0)); [exact (SumTo_delta n i (fun j => SampleCov (data_at t z) t j i) Hi)|]. intros j _. rewrite Sum_SumTo. rewrite (SumTo_ext n _ (fun k => if Nat.eqb k i then w j * SampleCov (data_at t z) t j k else 0)) by (intros k _; unfold w; destruct (Nat.eqb k i); ring).
      rewrite (SumTo_delta n i (fun k => w j * SampleCov (data_at t z) t j k) Hi). unfold w. destruct (Nat.eqb j i); ring. }
    rewrite W, S0 in B. lra. }
  assert (mp_scale true emax (Z.of_nat n) < 0) as Ps. { unfold mp_scale. rewrite <- INR_IZR_INZ. assert (1 < emax / INR n); [|lra]. apply (Rmult_lt_reg_r (INR n)); [exact Pn|]. replace (emax / INR n * INR n) with emax by (field; lra). lra. }
  set (s := mp_scale true emax (Z.of_nat n)) in *. assert (s * UpperEnd n t < 0) as Pb by (pose proof (Rmult_lt_compat_r (UpperEnd n t) s 0 ltac:(lra) Ps); lra).
  exists ts. eexists. split; [exact E|]. unfold noise_trim. rewrite E. cbn [bind]. rewrite E1, E2. rewrite !(mp_value (ts_vals ts) (Z.of_nat n) (Z.of_nat t) emax) by (auto; lia). fold s. rewrite upper_end by lia. split; do 2 f_equal.
  - clear - NN Pb. induction (ts_vals ts) as [|y l IH]; [reflexivity|]. cbn [filter]. destruct (nlt (s * UpperEnd n t) y) eqn:Ey; [f_equal; apply IH; intros v Hv; apply NN; now right|]. apply nlt_R_false in Ey. pose proof (NN y (or_introl eq_refl)). lra.
  - clear - NN Pb. induction (ts_vals ts) as [|y l IH]; [reflexivity|]. cbn [filter]. rewrite IH by (intros v Hv; apply NN; now right). destruct (nlt y (s * UpperEnd n t)) eqn:Ey; [apply nlt_R in Ey; pose proof (NN y (or_introl eq_refl)); lra|]. now rewrite andb_false_r.
Qed.
Print Assumptions C164_shift_refuted.

(** Two series of two values, 0, 4 and 1, 1: variances 8 and 0.  The default construction leaves the single eigenvalue 8; with the shift both
    eigenvalues, also the 0, are reported. *)
Lemma pair_cov i : (i < 2)%nat -> SampleCov (data_at 2 [0; 4; 1; 1]) 2 i i = if Nat.eqb i 0 then 8 else 0.
Proof. intro Hi. destruct i as [|[|i]]; [| |lia]; unfold SampleCov, Dev, Mean, data_at; cbn; lra. Qed.
Example C164_sum_ex : forall ts, default_object any_solver 2 2 [0; 4; 1; 1] = Ok ts -> ts_vals ts = [8].
Proof.
  intros ts E. destruct (C164_sum any_solver 2 2 ZNegative [0; 4; 1; 1] (any_solver_ok _) ltac:(lia) ltac:(lia)) as (_ & _ & H). destruct (H ts E) as (L & T & _). clear H. unfold AllVariance in T. cbn [Sum] in T. rewrite !pair_cov in T by lia. cbn [Nat.eqb] in T. cbn [Nat.min Nat.sub] in L.
  destruct (ts_vals ts) as [|x [|y l]]; cbn [length] in L; try lia. cbn in T. f_equal. lra.
Qed.
Example C164_default_ex : exists ts, default_object any_solver 2 2 [0; 4; 1; 1] = Ok ts.
Proof.
  destruct (C164_sum any_solver 2 2 ZNegative [0; 4; 1; 1] (any_solver_ok _) ltac:(lia) ltac:(lia)) as (_ & H & _). destruct (default_object any_solver 2 2 [0; 4; 1; 1]) as [ts|x] eqn:E; [now exists ts|exfalso].
  assert (AllVariance (data_at 2 [0; 4; 1; 1]) 2 2 = 0) as V by (apply all_constant; [lia|]; apply H; now exists x). unfold AllVariance in V. cbn [Sum] in V. rewrite !pair_cov in V by lia. cbn [Nat.eqb] in V. lra.
Qed.
Example C164_shift_ex : exists ts b, noise_object any_solver 2 2 ZNegative [0; 4; 1; 1] = Ok ts /\ In 0 (ts_vals ts) /\ noise_trim any_solver 2 2 ZNegative true true [0; 4; 1; 1] = Ok (ts_vals ts, b).
Proof.
  destruct (C164_shift_refuted any_solver 2 2 ZNegative [0; 4; 1; 1] 0 (any_solver_ok _) ltac:(lia) ltac:(lia) ltac:(lia) ltac:(rewrite pair_cov by lia; cbn; lra)) as (ts & b & E & K & _).
  destruct (C164_sum any_solver 2 2 ZNegative [0; 4; 1; 1] (any_solver_ok _) ltac:(lia) ltac:(lia)) as ((ts' & E' & _ & _ & _ & N0) & _). exists ts, b. split; [exact E|]. split; [|exact K]. assert (ts' = ts) as -> by congruence. apply N0. lia.
Qed.
(** The upper end for two series of two values is 4, and the first series alone has variance 8: it is found without the shift. *)
Example C164_found_ex : exists kept b, noise_trim any_solver 2 2 ZNegative true false [0; 4; 1; 1] = Ok (kept, b) /\ kept <> [].
Proof.
  destruct (C164_found any_solver 2 2 ZNegative [0; 4; 1; 1] false (any_solver_ok _) ltac:(lia) ltac:(lia)) as (ts & kept & b & emax & _ & _ & K & H & _). exists kept, b. split; [exact K|]. apply H.
  exists (fun i => if Nat.eqb i 0 then 1 else 0). unfold Bar, UpperEnd, Weight, Spread. cbn [Sum Nat.eqb]. rewrite pair_cov by lia. replace (INR 2 / INR 2) with 1 by (cbn [INR]; field). rewrite sqrt_1. cbn [Nat.eqb]. lra.
Qed.
