(** Property C163: which correlations trim_marchenko_pastur reports as signal, how many it can report at most, and that zero trimming is
    harmless, for all data without a constant series. *)
From Coq Require Import List ZArith Bool Arith Lia Reals Lra Sorting.Permutation.
From Coquelicot Require Import Coquelicot.
From Verif Require Import Base S_Order S_Generate S_Normal S_Rotate S_Series S_Cov S_Factor M_EigVals M_Series M_Cov P_Order P_EigVals P_Series P_TrimStat P_Cov P_Generate P_Rotate T_Rotate P_Wishart T_Units T_Wishart P_LawUnfold T_Law T_MP T_MPDefault T_MPWide P_Spectral4 P_Close P_Steady T_MPCorr T_MPCorrDefault P_Factor.
Import ListNotations.
Local Open Scope R_scope.
Local Notation length := List.length.
Local Notation total := S_Rotate.total.

Section Data.
Variables (n t : nat) (z : list R) (lam : list R).
Hypotheses (Hn : (2 <= n)%nat) (Ht : (2 <= t)%nat) (Hm : Moving n t z).
Hypothesis SP : Spectrum (Nat.min n t) (handed false n t (data_at t z)) lam.
Local Notation Z := (unit_row t z).
Lemma pearson_unit i j : Pearson (data_at t z) t i j = SumTo t (fun k => Z i k * Z j k).
Proof. rewrite unit_products by exact Ht. unfold Pearson, Rdiv. rewrite Rinv_mult. fold (variance t z i). fold (variance t z j). ring. Qed.
Lemma pearson_self i : (i < n)%nat -> Pearson (data_at t z) t i i = 1.
Proof. intro Hi. pose proof (cov_pos (data_at t z) t i ltac:(lia) (Hm i Hi)) as P. unfold Pearson. rewrite sqrt_sqrt by lra. field. lra. Qed.
Lemma handed_cases : ((n <= t)%nat /\ Spectrum n (fun i j => SumTo t (fun k => Z i k * Z j k)) lam) \/ ((t < n)%nat /\ Spectrum t (fun k l => SumTo n (fun i => Z i k * Z i l)) lam).
Proof.
  destruct (root_d t Ht) as [R1 R2]. pose proof SP as S'. unfold handed in S'. destruct (Nat.leb_spec n t) as [L|L]; [left|right]; (split; [lia|]).
  - rewrite Nat.min_l in S' by exact L. refine (spectrum_ext _ _ _ _ _ S'). intros i j _ _. apply pearson_unit.
  - rewrite Nat.min_r in S' by lia. refine (spectrum_ext _ _ _ _ _ S'). intros i j _ _. rewrite Sum_SumTo. transitivity (/ (INR t - 1) * SumTo n (fun s => Standard (data_at t z) t s i * Standard (data_at t z) t s j)); [unfold Rdiv; ring|]. rewrite <- SumTo_scale. apply SumTo_ext. intros s _. unfold unit_row. set (r := sqrt (INR t - 1)) in *. clearbody r. rewrite <- R2. field. lra.
Qed.
Lemma pooled_eq w : Pooled (data_at t z) n t w = SumTo t (fun k => mix n Z w k * mix n Z w k).
Proof. unfold Pooled. rewrite mix_form. rewrite Sum_SumTo. apply SumTo_ext. intros i _. rewrite Sum_SumTo. apply SumTo_ext. intros j _. now rewrite pearson_unit. Qed.
Lemma pooled_bound b w : 0 <= b -> (forall v, In v lam -> v <= b) -> Pooled (data_at t z) n t w <= b * Weight n w.
Proof.
  intros Hb0 Hb. rewrite pooled_eq. unfold Weight. rewrite Sum_SumTo. destruct handed_cases as [[_ S']|[_ S']].
  - exact (rayleigh n t Z lam S' b w Hb).
  - exact (rayleigh_back t n (fun k i => Z i k) lam S' b w Hb0 Hb).
Qed.
Lemma pooled_attained v : In v lam -> 0 < v -> exists w, 0 < Weight n w /\ Pooled (data_at t z) n t w = v * Weight n w.
Proof.
  intros Hv Hp. destruct handed_cases as [[_ S']|[_ S']].
  - destruct (gram_attained n t Z lam S' v Hv) as (w & W & F). exists w. rewrite pooled_eq, F. unfold Weight. rewrite Sum_SumTo, W. split; [lra|ring].
  - destruct (back_attained t n (fun k i => Z i k) lam S' v Hv Hp) as (w & W & F). exists w. rewrite pooled_eq. unfold Weight. rewrite Sum_SumTo. split; [rewrite W; exact Hp|exact F].
Qed.
Lemma corr_nonneg v : In v lam -> 0 <= v.
Proof. destruct handed_cases as [[_ S']|[_ S']]; [exact (gram_nonneg n t Z lam S' v)|exact (gram_nonneg t n (fun k i => Z i k) lam S' v)]. Qed.
Lemma corr_total : total lam = INR n.
Proof.
  assert (SumTo n (fun i => SumTo t (fun k => Z i k * Z i k)) = INR n) as E by (rewrite (SumTo_ext n _ (fun _ => 1)); [rewrite SumTo_const; ring|]; intros i Hi; rewrite <- pearson_unit; now apply pearson_self).
  destruct handed_cases as [[_ S']|[_ S']]; [now rewrite (gram_total n t Z lam S')|]. rewrite (gram_total t n (fun k i => Z i k) lam S'). now rewrite SumTo_swap.
Qed.
End Data.

Lemma upper_end n t s : (0 < t)%nat -> MPUpper s (Z.of_nat n) (Z.of_nat t) = s * UpperEnd n t.
Proof. intro H. unfold MPUpper, UpperEnd. rewrite <- !INR_IZR_INZ. ring. Qed.
Lemma upper_pos n t : 1 <= UpperEnd n t.
Proof. unfold UpperEnd. pose proof (sqrt_pos (INR n / INR t)). cbn [pow]. nra. Qed.

(** All that follows from the spectrum. *)
Lemma factor_facts ev n t zeros z shifted : Diagonalises (Nat.min n t) ev -> (2 <= n)%nat -> (2 <= t)%nat -> Moving n t z ->
  exists ts emax, corr_object ev n t zeros z = Ok ts /\ Spectrum (Nat.min n t) (handed false n t (data_at t z)) (ts_vals ts) /\ Ascending (ts_vals ts) /\ Largest (ts_vals ts) emax /\ 0 < emax <= INR n /\
    ts_N ts = n /\ ts_T ts = t /\
    let s := mp_scale shifted emax (Z.of_nat n) in 0 <= s <= 1 /\ corr_trim ev n t zeros true shifted z = Ok (filter (fun v => nlt (s * UpperEnd n t) v) (ts_vals ts), (MPLower s (Z.of_nat n) (Z.of_nat t), MPUpper s (Z.of_nat n) (Z.of_nat t))) /\
    (s * UpperEnd n t < emax <-> Bar shifted n t < emax).
Proof.
  intros He Hn Ht Hm. destruct (corr_spectrum ev n t zeros z He Hn Ht Hm) as (ts & E & Sp & Ha & E1 & E2). pose proof (proj1 Sp) as Hl. set (lam := ts_vals ts) in *.
  assert (0 < INR n) as Pn by (apply lt_0_INR; lia). pose proof (upper_pos n t) as Pu. pose proof (corr_total n t z lam Hn Ht Hm Sp) as Tot. pose proof (corr_nonneg n t z lam Hn Ht Sp) as NN.
  destruct (arr_max_exists lam ltac:(intro X; rewrite X in Hl; cbn [length] in Hl; lia)) as (emax & Hx & _).
  assert (forall l, (forall v, In v l -> 0 <= v <= emax) -> total l <= INR (length l) * emax /\ forall v, In v l -> v <= total l) as B.
  { induction l as [|x l IH]; intro H; [cbn; split; [lra|now intros v []]|]. destruct (IH (fun v Hv => H v (or_intror Hv))) as [I1 I2]. pose proof (H x (or_introl eq_refl)) as Hx0. change (total (x :: l)) with (x + total l). cbn [length]. rewrite S_INR. split; [lra|].
    assert (0 <= total l) as P by (clear - H; assert (forall v, In v l -> 0 <= v) as H' by (intros v Hv; apply (H v); now right); clear H; induction l as [|y l IH]; [cbn; lra|]; change (total (y :: l)) with (y + total l); pose proof (H' y (or_introl eq_refl)); specialize (IH (fun v Hv => H' v (or_intror Hv))); lra).
    intros v [<-|Hv]; [lra|]. specialize (I2 v Hv). lra. }
  destruct (B lam) as [B1 B2]; [intros v Hv; split; [now apply NN|now apply Hx]|]. specialize (B2 emax (proj1 Hx)). rewrite Tot in B1, B2. rewrite Hl in B1.
  assert (0 < emax) as Pe. { pose proof (NN emax (proj1 Hx)). destruct (Rle_lt_or_eq_dec 0 emax H) as [|Z0]; [assumption|]. rewrite <- Z0 in B1. lra. }
  exists ts, emax. fold lam. split; [exact E|]. split; [exact Sp|]. split; [exact Ha|]. split; [exact Hx|]. split; [lra|]. split; [exact E1|]. split; [exact E2|]. intro s.
  assert (s = if shifted then 1 - emax / INR n else 1) as Es by (unfold s, mp_scale; now rewrite <- INR_IZR_INZ).
  assert (0 < emax / INR n <= 1) as Q. { split; [now apply Rdiv_lt_0_compat|]. apply (Rmult_le_reg_r (INR n)); [exact Pn|]. replace (emax / INR n * INR n) with emax by (field; lra). lra. }
  split; [rewrite Es; destruct shifted; lra|]. split.
  - unfold corr_trim. rewrite E. cbn [bind]. rewrite E1, E2. fold lam. rewrite (mp_value lam (Z.of_nat n) (Z.of_nat t) emax) by (auto; lia). fold s. rewrite upper_end by lia. reflexivity.
  - rewrite Es. unfold Bar. destruct shifted; [|rewrite Rmult_1_l; reflexivity]. set (u := UpperEnd n t) in *. set (N := INR n) in *.
    replace ((1 - emax / N) * u) with (u * (N - emax) / N) by (field; lra). split; intro H.
    + apply (Rmult_lt_reg_r (N + u)); [lra|]. replace (N * u / (N + u) * (N + u)) with (N * u) by (field; lra). apply (Rmult_lt_compat_r N) in H; [|exact Pn]. replace (u * (N - emax) / N * N) with (u * (N - emax)) in H by (field; lra). lra.
    + apply (Rmult_lt_reg_r N); [exact Pn|]. replace (u * (N - emax) / N * N) with (u * (N - emax)) by (field; lra). apply (Rmult_lt_compat_r (N + u)) in H; [|lra]. replace (N * u / (N + u) * (N + u)) with (N * u) in H by (field; lra). lra.
Qed.

(** C163. For all data without a constant series, correlations, any eigensolver: trim_marchenko_pastur(largest=True) returns something
    exactly if some weighted sum of the standardised series has a variance above the bar, and then the largest eigenvalue is among it. *)
Theorem C163_found : forall ev n t zeros draws shifted, Diagonalises (Nat.min n t) ev -> (2 <= n)%nat -> (2 <= t)%nat -> Moving n t draws ->
  exists ts kept bounds emax, corr_object ev n t zeros draws = Ok ts /\ Largest (ts_vals ts) emax /\ corr_trim ev n t zeros true shifted draws = Ok (kept, bounds) /\
    (kept <> [] <-> exists w, Bar shifted n t * Weight n w < Pooled (data_at t draws) n t w) /\ (kept <> [] -> In emax kept).
Proof.
  intros ev n t zeros z shifted He Hn Ht Hm. destruct (factor_facts ev n t zeros z shifted He Hn Ht Hm) as (ts & emax & E & Sp & Ha & Hx & Re & E1 & E2 & Rs & Et & EB).
  set (s := mp_scale shifted emax (Z.of_nat n)) in *. eexists ts, _, _, emax. split; [exact E|]. split; [exact Hx|]. split; [exact Et|].
  assert (filter (fun v => nlt (s * UpperEnd n t) v) (ts_vals ts) <> [] -> s * UpperEnd n t < emax) as F1.
  { intro H. destruct (filter _ (ts_vals ts)) as [|y l] eqn:Ef; [congruence|]. assert (In y (y :: l)) as Hy by now left. rewrite <- Ef in Hy. apply filter_In in Hy. destruct Hy as [H1 H2]. apply nlt_R in H2. pose proof (proj2 Hx y H1). lra. }
  assert (s * UpperEnd n t < emax -> In emax (filter (fun v => nlt (s * UpperEnd n t) v) (ts_vals ts))) as F2 by (intro H; apply filter_In; split; [apply Hx|now apply nlt_R]).
  split; [|intro H; now apply F2, F1]. split.
  - intro H. apply F1, EB in H. destruct (pooled_attained n t z (ts_vals ts) Hn Ht Sp emax (proj1 Hx) ltac:(lra)) as (w & W & P). exists w. rewrite P. now apply Rmult_lt_compat_r.
  - intros (w & W). assert (Bar shifted n t < emax) as H.
    { destruct (Rlt_dec (Bar shifted n t) emax) as [|N]; [assumption|exfalso]. pose proof (pooled_bound n t z (ts_vals ts) Hn Ht Sp emax w ltac:(lra) (proj2 Hx)) as P.
      assert (0 <= Weight n w) as PW by (unfold Weight; rewrite Sum_SumTo; apply SumTo_pos; intros; apply square_pos). assert (emax * Weight n w <= Bar shifted n t * Weight n w) by (apply Rmult_le_compat_r; lra). lra. }
    apply EB, F2 in H. intro X. rewrite X in H. destruct H.
Qed.
Print Assumptions C163_found.

(** C163. In particular a group of at least g series with pairwise correlations at least r is found as soon as 1 + (g - 1) r exceeds the bar. *)
Theorem C163_group : forall ev n t zeros draws shifted (group : nat -> bool) r, Diagonalises (Nat.min n t) ev -> (2 <= n)%nat -> (2 <= t)%nat -> Moving n t draws ->
  (forall i j, (i < n)%nat -> (j < n)%nat -> i <> j -> group i = true -> group j = true -> r <= Pearson (data_at t draws) t i j) ->
  let g := INR (length (filter group (seq 0 n))) in 0 < g -> Bar shifted n t < 1 + (g - 1) * r ->
  exists kept bounds, corr_trim ev n t zeros true shifted draws = Ok (kept, bounds) /\ kept <> [].
Proof.
  intros ev n t zeros z shifted G r He Hn Ht Hm Hr g Hg HB. destruct (C163_found ev n t zeros z shifted He Hn Ht Hm) as (ts & kept & bounds & emax & _ & _ & Et & (_ & Ex) & _).
  exists kept, bounds. split; [exact Et|]. apply Ex. pose (w := fun i => if G i then 1 else 0). exists w.
  assert (SumTo n w = g) as Sg. { unfold g, w. clear. rewrite SumTo_list. generalize (seq 0 n). intro l. induction l as [|x l IH]; [reflexivity|]. cbn [map filter]. change (total ((if G x then 1 else 0) :: map (fun i => if G i then 1 else 0) l)) with ((if G x then 1 else 0) + total (map (fun i => if G i then 1 else 0) l)). rewrite IH. destruct (G x); cbn [length]; [rewrite S_INR|]; ring. }
  assert (Weight n w = g) as ->. { unfold Weight. rewrite Sum_SumTo, <- Sg. apply SumTo_ext. intros i _. unfold w. destruct (G i); ring. }
  apply (Rlt_le_trans _ ((1 + (g - 1) * r) * g)); [now apply Rmult_lt_compat_r|]. unfold Pooled. rewrite Sum_SumTo.
  rewrite <- Sg at 2. rewrite <- SumTo_scale. apply SumTo_le. intros i Hi. rewrite Sum_SumTo. unfold w at 1 2. destruct (G i) eqn:Gi.
  - apply (Rle_trans _ (SumTo n (fun j => r * w j + (if Nat.eqb j i then (1 - r) * w j else 0)))).
    + rewrite SumTo_add, SumTo_scale, Sg. rewrite (SumTo_delta n i (fun j => (1 - r) * w j) Hi). unfold w. rewrite Gi. apply Req_le. ring.
    + apply SumTo_le. intros j Hj. unfold w. destruct (Nat.eqb_spec j i) as [->|Nj]; [rewrite Gi, (pearson_self n t z Hn Ht Hm i Hi); apply Req_le; ring|]. destruct (G j) eqn:Gj; [|lra]. specialize (Hr i j Hi Hj ltac:(congruence) Gi Gj). lra.
  - rewrite (SumTo_0 n); [lra|]. intros; ring.
Qed.
Print Assumptions C163_group.

(** C163. However the data look, fewer than n / b values are reported without the shift and fewer than 1 + n / b with it, b being the upper end. *)
Theorem C163_few : forall ev n t zeros draws shifted kept bounds, Diagonalises (Nat.min n t) ev -> (2 <= n)%nat -> (2 <= t)%nat -> Moving n t draws ->
  corr_trim ev n t zeros true shifted draws = Ok (kept, bounds) -> (INR (length kept) - if shifted then 1 else 0) * UpperEnd n t < INR n.
Proof.
  intros ev n t zeros z shifted kept bounds He Hn Ht Hm Ek. destruct (factor_facts ev n t zeros z shifted He Hn Ht Hm) as (ts & emax & E & Sp & Ha & Hx & Re & E1 & E2 & Rs & Et & EB).
  rewrite Ek in Et. assert (kept = filter (fun v => nlt (mp_scale shifted emax (Z.of_nat n) * UpperEnd n t) v) (ts_vals ts)) as -> by congruence. clear Et Ek. set (s := mp_scale shifted emax (Z.of_nat n)) in *. set (u := UpperEnd n t) in *. pose proof (upper_pos n t) as Pu. fold u in Pu.
  pose proof (corr_total n t z (ts_vals ts) Hn Ht Hm Sp) as Tot. pose proof (corr_nonneg n t z (ts_vals ts) Hn Ht Sp) as NN. assert (0 < INR n) as Pn by (apply lt_0_INR; lia).
  assert (s = if shifted then 1 - emax / INR n else 1) as Es by (unfold s, mp_scale; now rewrite <- INR_IZR_INZ).
  destruct shifted.
  - destruct (in_split emax (ts_vals ts) (proj1 Hx)) as (l1 & l2 & El). pose proof (Permutation_middle l1 l2 emax) as PM. rewrite <- El in PM. set (rest := l1 ++ l2) in *.
    assert (total rest = INR n - emax) as Tr. { rewrite <- Tot. rewrite <- (T_Wishart.total_perm _ _ PM). change (total (emax :: rest)) with (emax + total rest). ring. }
    destruct (count_large (s * u) rest) as [C1 C2]; [apply Rmult_le_pos; lra|intros v Hv; apply NN; rewrite <- PM; now right|]. set (k := INR (length (filter (fun v => nlt (s * u) v) rest))) in *.
    assert (INR (length (filter (fun v => nlt (s * u) v) (ts_vals ts))) <= k + 1) as K.
    { rewrite <- (Permutation_length (filter_perm (fun v => nlt (s * u) v) _ _ PM)). cbn [filter]. fold k. destruct (nlt (s * u) emax); cbn [length]; [rewrite S_INR|]; fold k; lra. }
    rewrite Tr in C1, C2. assert (INR n - emax = s * INR n) as En by (rewrite Es; field; lra). rewrite En in C2. pose proof (pos_INR (length (filter (fun v => nlt (s * u) v) rest))) as Pk. fold k in Pk.
    assert (k * u < INR n) as F. { destruct (Rle_lt_or_eq_dec 0 k Pk) as [Hk|Hk]; [|rewrite <- Hk; lra]. specialize (C2 Hk). assert (0 < s) as Ps by (destruct (Rle_lt_or_eq_dec 0 s (proj1 Rs)) as [|Z0]; [assumption|rewrite <- Z0 in C2; lra]). apply (Rmult_lt_reg_l s); [exact Ps|]. lra. }
    apply (Rle_lt_trans _ (k * u)); [|exact F]. apply Rmult_le_compat_r; lra.
  - rewrite Es, Rmult_1_l. destruct (count_large u (ts_vals ts)) as [C1 C2]; [lra|exact NN|]. set (k := INR (length (filter (fun v => nlt u v) (ts_vals ts)))) in *. rewrite Tot in C2. pose proof (pos_INR (length (filter (fun v => nlt u v) (ts_vals ts)))) as Pk. fold k in Pk.
    destruct (Rle_lt_or_eq_dec 0 k Pk) as [Hk|Hk]; [specialize (C2 Hk); lra|rewrite <- Hk; lra].
Qed.
Print Assumptions C163_few.

(** C163. The default zero trimming always leaves something and does not change what is reported. *)
Theorem C163_zero_trimming : forall ev n t draws shifted, Diagonalises (Nat.min n t) ev -> (2 <= n)%nat -> (2 <= t)%nat -> Moving n t draws ->
  exists ts kept bounds, corr_default ev n t draws = Ok ts /\ ts_vals ts <> [] /\ corr_trim ev n t ZNegative true shifted draws = Ok (kept, bounds) /\ corr_default_trim ev n t true shifted draws = Ok (kept, bounds).
Proof.
  intros ev n t z shifted He Hn Ht Hm. destruct (factor_facts ev n t ZNegative z shifted He Hn Ht Hm) as (ts & emax & E & Sp & Ha & Hx & Re & E1 & E2 & Rs & Et & EB).
  destruct (corr_default_values ev n t z He Hn Ht Hm) as (ts0 & E0 & D). rewrite E in E0. injection E0 as <-.
  assert (In emax (filter (fun v => nlt 0 v) (ts_vals ts))) as Hin by (apply filter_In; split; [apply Hx|apply nlt_R; lra]).
  destruct D as [[D _]|(_ & ts' & D1 & D2 & D3 & D4)]; [rewrite D in Hin; destruct Hin|]. eexists ts', _, _. split; [exact D1|]. split; [rewrite D2; intro X; rewrite X in Hin; destruct Hin|]. split; [exact Et|].
  unfold corr_default_trim. rewrite D1. cbn [bind]. rewrite D2, D3, D4.
  rewrite (mp_value (filter (fun v => nlt 0 v) (ts_vals ts)) (Z.of_nat n) (Z.of_nat t) emax); [|apply SS_filter; exact Ha| |lia|reflexivity|reflexivity].
  - rewrite upper_end by lia. do 2 f_equal. set (b := mp_scale shifted emax (Z.of_nat n) * UpperEnd n t). assert (0 <= b) as Pb by (apply Rmult_le_pos; [apply Rs|]; pose proof (upper_pos n t); lra).
    generalize (ts_vals ts). intro l. induction l as [|v l IH]; [reflexivity|]. cbn [filter]. destruct (nlt 0 v) eqn:V; cbn [filter]; rewrite IH; [reflexivity|]. apply nlt_R_false in V. destruct (nlt b v) eqn:W; [apply nlt_R in W; lra|reflexivity].
  - split; [exact Hin|]. intros v Hv. apply filter_In in Hv. apply Hx, Hv.
Qed.
Print Assumptions C163_zero_trimming.

(** C163. The eigenvalues handed out, for all such data: none negative, sum n; zero is among them as soon as t <= n, so that the default zero
    trimming leaves at most t - 1 values, and these still have sum n. *)
Theorem C163_sum : forall ev n t zeros draws, Diagonalises (Nat.min n t) ev -> (2 <= n)%nat -> (2 <= t)%nat -> Moving n t draws ->
  (exists ts, corr_object ev n t zeros draws = Ok ts /\ length (ts_vals ts) = Nat.min n t /\ total (ts_vals ts) = INR n /\ List.Forall (fun v => 0 <= v <= INR n) (ts_vals ts) /\ ((t <= n)%nat -> In 0 (ts_vals ts))) /\
  exists ts, corr_default ev n t draws = Ok ts /\ (length (ts_vals ts) <= Nat.min n (t - 1))%nat /\ total (ts_vals ts) = INR n /\ List.Forall (fun v => 0 < v <= INR n) (ts_vals ts).
Proof.
  intros ev n t zeros z He Hn Ht Hm.
  assert (forall zr, exists ts, corr_object ev n t zr z = Ok ts /\ length (ts_vals ts) = Nat.min n t /\ total (ts_vals ts) = INR n /\ List.Forall (fun v => 0 <= v <= INR n) (ts_vals ts) /\ ((t <= n)%nat -> In 0 (ts_vals ts))) as A.
  { intro zr. destruct (factor_facts ev n t zr z false He Hn Ht Hm) as (ts & emax & E & Sp & Ha & Hx & Re & _). exists ts. split; [exact E|]. split; [apply Sp|]. split; [exact (corr_total n t z _ Hn Ht Hm Sp)|]. split.
    - apply Forall_forall. intros v Hv. split; [exact (corr_nonneg n t z _ Hn Ht Sp v Hv)|]. pose proof (proj2 Hx v Hv). lra.
    - intro Htn. assert (forall i, SumTo t (unit_row t z i) = 0) as Z0.
      { intro i. rewrite (SumTo_ext t _ (fun k => / sqrt (INR t - 1) * / sqrt (SampleCov (data_at t z) t i i) * Dev (data_at t z) t i k)) by (intros; unfold unit_row, Standard, Rdiv; ring). rewrite SumTo_scale. change (SumTo t (fun k => Dev (data_at t z) t i k)) with (SumTo t (Dev (data_at t z) t i)). rewrite dev_zero by lia. ring. }
      destruct (handed_cases n t z (ts_vals ts) Hn Ht Sp) as [[L S']|[L S']].
      + assert (n = t) as Ent by lia. clear - S' Ent Z0 Ht. subst t. apply (gram_null n (unit_row n z) _ ltac:(lia) S'). intros; apply Z0.
      + apply (null_value t _ _ ltac:(lia) S'). intros k Hk. rewrite SumTo_swap. apply SumTo_0. intros i Hi. rewrite SumTo_scale. change (SumTo t (fun l => unit_row t z i l)) with (SumTo t (unit_row t z i)). rewrite Z0. ring. }
  split; [apply A|]. destruct (A ZNegative) as (ts & E & L & To & Fo & N0). destruct (C163_zero_trimming ev n t z false He Hn Ht Hm) as (ts' & _ & _ & E' & _).
  destruct (corr_default_values ev n t z He Hn Ht Hm) as (ts0 & E0 & [[_ (x & Ex)]|(_ & ts1 & D1 & D2 & _)]); [congruence|]. rewrite E in E0. injection E0 as <-. exists ts1. split; [exact D1|]. rewrite D2. rewrite Forall_forall in Fo.
  assert (forall l : list R, (length (filter (fun v : R => nlt 0%R v) l) <= length l)%nat /\ (In 0 l -> (length (filter (fun v : R => nlt 0%R v) l) < length l)%nat)) as F.
  { induction l as [|y l [I1 I2]]; cbn [filter length]; [split; [lia|intros []]|]. destruct (nlt 0 y) eqn:Ey; cbn [length]; (split; [lia|]); intros [->|Hy]; try (specialize (I2 Hy)); try lia. apply nlt_R in Ey. lra. }
  split; [|split].
  - destruct (F (ts_vals ts)) as [F1 F2]. destruct (le_lt_dec t n) as [H|H]; [specialize (F2 (N0 H)); lia|lia].
  - rewrite <- To. assert (forall v, In v (ts_vals ts) -> 0 <= v) as P by (intros v Hv; now apply Fo). clear - P. induction (ts_vals ts) as [|y l IH]; [reflexivity|]. specialize (IH (fun v Hv => P v (or_intror Hv))). pose proof (P y (or_introl eq_refl)) as Py. cbn [filter]. change (total (y :: l)) with (y + total l).
    destruct (nlt 0 y) eqn:Ey; [change (total (y :: filter (fun v : R => nlt 0%R v) l)) with (y + total (filter (fun v : R => nlt 0%R v) l)); now rewrite IH|]. apply nlt_R_false in Ey. rewrite IH. lra.
  - apply Forall_forall. intros v Hv. apply filter_In in Hv. destruct Hv as [H1 H2]. apply nlt_R in H2. specialize (Fo v H1). lra.
Qed.
Print Assumptions C163_sum.

(** Eighteen rising series of two values: the upper end is (1 + 3)^2 = 16, and all correlations are 1. *)
Definition rising : list R := flat_map (fun _ => [0; 1]) (seq 0 18).
Lemma rising_at i k : (i < 18)%nat -> (k < 2)%nat -> data_at 2 rising i k = INR k.
Proof. intros Hi Hk. do 18 (destruct i as [|i]; [destruct k as [|[|k]]; [reflexivity|reflexivity|lia]|]). lia. Qed.
Lemma rising_moving : Moving 18 2 rising.
Proof. intros i Hi. exists 0%nat, 1%nat. split; [lia|]. split; [lia|]. rewrite !rising_at by lia. cbn. lra. Qed.
Lemma rising_cov i j : (i < 18)%nat -> (j < 18)%nat -> SampleCov (data_at 2 rising) 2 i j = 1 / 2.
Proof. intros Hi Hj. unfold SampleCov, Dev, Mean. cbn [Sum]. rewrite !rising_at by lia. cbn [INR]. field. Qed.
Lemma rising_corr i j : (i < 18)%nat -> (j < 18)%nat -> Pearson (data_at 2 rising) 2 i j = 1.
Proof. intros Hi Hj. unfold Pearson. rewrite !rising_cov by lia. rewrite sqrt_sqrt by lra. field. Qed.
Lemma rising_bar : UpperEnd 18 2 = 16.
Proof. unfold UpperEnd. replace (INR 18 / INR 2) with (3 * 3) by (cbn [INR]; field). rewrite sqrt_square by lra. ring. Qed.
Example C163_ex : forall zeros, exists kept bounds, corr_trim any_solver 18 2 zeros true false rising = Ok (kept, bounds) /\ length kept = 1%nat.
Proof.
  intro zeros. destruct (C163_group any_solver 18 2 zeros rising false (fun _ => true) 1 (any_solver_ok _) ltac:(lia) ltac:(lia) rising_moving) as (kept & bounds & E & K).
  - intros i j Hi Hj _ _ _. rewrite rising_corr by assumption. lra.
  - cbn [seq filter length]. apply lt_0_INR. lia.
  - cbn [seq filter length]. unfold Bar. rewrite rising_bar. cbn [INR]. lra.
  - exists kept, bounds. split; [exact E|]. pose proof (C163_few any_solver 18 2 zeros rising false kept bounds (any_solver_ok _) ltac:(lia) ltac:(lia) rising_moving E) as F. rewrite rising_bar in F.
    assert (INR (length kept) < 2) as L by (cbn [INR] in F; lra). change 2 with (INR 2) in L. apply INR_lt in L. destruct kept as [|x [|y kept]]; [congruence|reflexivity|cbn [length] in L; lia].
Qed.
(** With the shift two series are enough. *)
Example C163_shift_ex : exists w, Bar true 2 2 * Weight 2 w < Pooled (data_at 2 [0; 1; 0; 2]) 2 2 w.
Proof.
  exists (fun _ => 1). assert (forall i j, (i < 2)%nat -> (j < 2)%nat -> SampleCov (data_at 2 [0; 1; 0; 2]) 2 i j = (INR i + 1) * (INR j + 1) / 2) as C.
  { intros i j Hi Hj. unfold SampleCov, Dev, Mean, data_at. destruct i as [|[|i]]; [| |lia]; (destruct j as [|[|j]]; [| |lia]); cbn; field. }
  assert (forall i j, (i < 2)%nat -> (j < 2)%nat -> Pearson (data_at 2 [0; 1; 0; 2]) 2 i j = 1) as P.
  { intros i j Hi Hj. unfold Pearson. rewrite !C by lia. pose proof (pos_INR i). pose proof (pos_INR j). assert (0 < (INR i + 1) * (INR j + 1)) by (apply Rmult_lt_0_compat; lra). rewrite <- sqrt_mult by (apply Rmult_le_pos; [nra|lra]).
    replace ((INR i + 1) * (INR i + 1) / 2 * ((INR j + 1) * (INR j + 1) / 2)) with ((INR i + 1) * (INR j + 1) / 2 * ((INR i + 1) * (INR j + 1) / 2)) by field. rewrite sqrt_square by lra. field. lra. }
  unfold Pooled, Weight, Bar, UpperEnd. cbn [Sum]. rewrite !P by lia. replace (INR 2 / INR 2) with 1 by (cbn [INR]; field). rewrite sqrt_1. cbn [INR]. lra.
Qed.

(** The eighteen rising series again: one value is left, and it is 18. *)
Example C163_sum_ex : exists ts, corr_default any_solver 18 2 rising = Ok ts /\ ts_vals ts = [18].
Proof.
  destruct (C163_sum any_solver 18 2 ZNegative rising (any_solver_ok _) ltac:(lia) ltac:(lia) rising_moving) as (_ & ts & E & L & To & _). exists ts. split; [exact E|]. cbn [Nat.min Nat.sub] in L.
  destruct (ts_vals ts) as [|x [|y l]]; [cbn in To; lra| |cbn [length] in L; lia]. cbn in To. f_equal. lra.
Qed.
