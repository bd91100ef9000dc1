(** Property C160: more series than time points.  The t computed eigenvalues follow the Marchenko-Pastur law of ratio c > 1 (its part away
    from zero), and trim_marchenko_pastur again keeps almost none of them as signal. *)
From Coq Require Import List ZArith Bool Arith Lia Reals Lra Sorting.Permutation.
From Coquelicot Require Import Coquelicot.
From Verif Require Import Base S_Order S_Generate S_Normal S_Rotate S_CCharPoly S_Moments S_Law S_MP S_Series S_Cov M_EigVals M_Series M_Cov P_Order P_EigVals P_Series P_TrimStat P_Cov P_Generate P_Surmise P_Rotate T_Rotate P_Moments P_Wishart P_Tridiag T_Units T_Wishart T_Tridiag P_Semi P_Law P_LawUnfold T_Law P_MPLoop P_MP P_MPLaw T_MP T_MPDefault.
From Verif Require P_Wick.
Import ListNotations.
Local Open Scope R_scope.
Local Notation length := List.length.
Local Notation total := S_Rotate.total.

(** ** Ratio c and ratio 1/c *)
Lemma root_dual c : 0 < c -> sqrt c = c * sqrt (/ c).
Proof.
  intro Hc. rewrite <- (sqrt_square c) at 2 by lra. rewrite <- sqrt_mult by (try apply Rmult_le_pos; try (apply Rlt_le, Rinv_0_lt_compat); lra). f_equal. field. lra.
Qed.
Lemma ymom_dual c k : 0 < c -> ymom (1 + c) (sqrt c) k = c ^ k * ymom (1 + / c) (sqrt (/ c)) k.
Proof.
  intro Hc. rewrite <- (is_RInt_unique (V := R_CompleteNormedModule) _ _ _ _ (ymom_int (1 + c) (sqrt c) k)). apply (is_RInt_unique (V := R_CompleteNormedModule)).
  refine (is_RInt_ext _ _ _ _ _ _ (is_RInt_scal (V := R_NormedModule) _ _ _ (c ^ k) _ (ymom_int (1 + / c) (sqrt (/ c)) k))). intros s _. match goal with |- _ = ?b => change (@eq R (c ^ k * ((1 + / c + sqrt (/ c) * s) ^ k * semicircle s)) b) end.
  rewrite <- Rmult_assoc, <- Rpow_mult_distr. do 2 f_equal. rewrite (root_dual c Hc). field. lra.
Qed.
Lemma moment_dual c k : 0 < c -> (/ c) ^ S k * (c * mp_moment c (S k)) = mp_moment (/ c) (S k).
Proof. intro Hc. cbn [mp_moment]. rewrite ymom_dual by exact Hc. cbn [pow]. rewrite pow_inv. pose proof (pow_lt c k Hc). field. lra. Qed.
(** The powers other than zero. *)
Definition nonzero (ks : list nat) : list nat := filter (fun k => negb (Nat.eqb k 0)) ks.
Definition zeros_of (ks : list nat) : nat := length (filter (fun k => Nat.eqb k 0) ks).
Lemma nonzero_pos ks : List.Forall (fun k => 0 < k)%nat (nonzero ks).
Proof. apply Forall_forall. intros k H. apply filter_In in H. destruct H as [_ H]. destruct k; [discriminate|lia]. Qed.
Lemma split_powers ks l : power_sums ks l = INR (length l) ^ zeros_of ks * power_sums (nonzero ks) l.
Proof.
  unfold power_sums, zeros_of, nonzero. induction ks as [|[|k] ks IH]; [cbn; ring| |].
  - cbn [map fold_right filter Nat.eqb negb length pow]. rewrite IH. replace (power_sum 0 l) with (INR (length l)); [ring|]. symmetry. exact (total_one l).
  - cbn [map fold_right filter Nat.eqb negb]. rewrite IH. ring.
Qed.
Lemma split_length ks : length ks = (zeros_of ks + length (nonzero ks))%nat.
Proof. unfold zeros_of, nonzero. induction ks as [|[|k] ks IH]; [reflexivity| |]; cbn [length filter Nat.eqb negb]; rewrite IH; lia. Qed.
Lemma dual_product c ks : 0 < c -> (/ c) ^ fold_right Nat.add O ks * (c ^ length (nonzero ks) * fold_right Rmult 1 (map (mp_moment c) (nonzero ks))) = fold_right Rmult 1 (map (mp_moment (/ c)) ks).
Proof.
  intro Hc. unfold nonzero. induction ks as [|[|k] ks IH]; [cbn; ring| |].
  - cbn [map fold_right filter Nat.eqb negb Nat.add]. rewrite <- IH. cbn [mp_moment]. ring.
  - cbn [map fold_right filter Nat.eqb negb length]. rewrite <- IH, <- (moment_dual c k Hc), pow_add. cbn [pow]. ring.
Qed.
Lemma count_scale g x l : 0 < g -> count_le x (map (fun v => g * v) l) = count_le (x / g) l /\ count_lt x (map (fun v => g * v) l) = count_lt (x / g) l.
Proof.
  intro Hg. assert (forall v, g * (v - x / g) = g * v - x) as E by (intro; field; lra). unfold count_le, count_lt, total. split; induction l as [|v l IH]; [reflexivity| |reflexivity|]; cbn [map fold_right]; rewrite IH; f_equal; specialize (E v).
  - destruct (Rle_dec (g * v) x); destruct (Rle_dec v (x / g)); nra.
  - destruct (Rlt_dec (g * v) x); destruct (Rlt_dec v (x / g)); nra.
Qed.

Section Wide.
Variables (ev : ndarray R -> result (list R)) (zeros : zeros_arg R) (N T : nat -> nat) (c : R).
Hypothesis diag : forall m, Diagonalises m ev.
Hypothesis sizes : forall j, (2 <= T j <= N j)%nat.
Hypothesis grow : is_lim_seq (fun j => INR (T j)) p_infty.
Hypothesis ratio : is_lim_seq (fun j => INR (N j) / INR (T j)) c.
Hypothesis c_range : 1 < c.
Local Notation K j := (N j * T j)%nat.
Local Notation lam j l := (vals_of (noise_object ev (N j) (T j) zeros l)).
Lemma g_range : 0 < / c < 1.
Proof. split; [apply Rinv_0_lt_compat; lra|]. rewrite <- Rinv_1. apply Rinv_lt_contravar; lra. Qed.
Lemma wide_T j : 2 <= INR (T j).
Proof. change 2 with (INR 2). apply le_INR, sizes. Qed.
Lemma wide_N j : INR (T j) <= INR (N j).
Proof. apply le_INR, sizes. Qed.
Lemma wide_inv_T : is_lim_seq (fun j => / INR (T j)) 0.
Proof. exact (inv_N T grow). Qed.
Lemma wide_inv_N : is_lim_seq (fun j => / INR (N j)) 0.
Proof.
  apply (is_lim_seq_le_le (fun _ => 0) _ (fun j => / INR (T j))); [|apply is_lim_seq_const|exact wide_inv_T].
  intro j. pose proof (wide_T j). pose proof (wide_N j). split; [apply Rlt_le, Rinv_0_lt_compat; lra|apply Rinv_le_contravar; lra].
Qed.
Lemma wide_inv_d : is_lim_seq (fun j => / (INR (T j) - 1)) 0.
Proof.
  apply (is_lim_seq_le_le (fun _ => 0) _ (fun j => 2 * / INR (T j))).
  - intro j. pose proof (wide_T j). split; [apply Rlt_le, Rinv_0_lt_compat; lra|]. replace (2 * / INR (T j)) with (/ (INR (T j) / 2)) by (field; lra). apply Rinv_le_contravar; lra.
  - apply is_lim_seq_const.
  - replace (Finite 0) with (Finite (2 * 0)) by (f_equal; ring). apply (is_lim_seq_scal_l _ 2 0). exact wide_inv_T.
Qed.
Lemma wide_ratio : is_lim_seq (fun j => INR (N j) / (INR (T j) - 1)) c.
Proof.
  apply (is_lim_seq_ext (fun j => INR (N j) / INR (T j) * (1 + / (INR (T j) - 1)))).
  - intro j. pose proof (wide_T j). field. lra.
  - replace c with (c * (1 + 0)) by ring. apply is_lim_seq_mult'; [exact ratio|]. apply is_lim_seq_plus'; [apply is_lim_seq_const|exact wide_inv_d].
Qed.
Lemma wide_facts j l : exists ts, noise_object ev (N j) (T j) zeros l = Ok ts /\ Ascending (ts_vals ts) /\ length (ts_vals ts) = T j /\ ts_N ts = N j /\ ts_T ts = T j.
Proof.
  pose proof (sizes j) as S. destruct (noise_spectrum ev (N j) (T j) zeros l (diag _) ltac:(lia) ltac:(lia)) as (ts & E & Hs & Ha & E1 & E2). exists ts. split; [exact E|]. split; [exact Ha|]. split; [|auto].
  rewrite Nat.min_r in Hs by lia. apply Hs.
Qed.
Lemma wide_averages ks j : NormalAverage (K j) (fun l => power_sums ks (map (fun v => / c * v) (lam j l))) ((/ c) ^ fold_right Nat.add O ks * INR (T j) ^ zeros_of ks * covariance_average (N j) (T j) (nonzero ks)).
Proof.
  pose proof (sizes j) as S. destruct (C159_averages ev (N j) (T j) zeros (nonzero ks) (diag _) ltac:(lia) ltac:(lia) (or_intror (nonzero_pos ks))) as (_ & H).
  refine (navg_ext _ _ _ _ _ (navg_scale _ _ _ ((/ c) ^ fold_right Nat.add O ks * INR (T j) ^ zeros_of ks) H)).
  intros l _. destruct (wide_facts j l) as (ts & -> & _ & Hl & _). cbn [of_object vals_of]. rewrite power_sums_scale, (split_powers ks), Hl. ring.
Qed.
Lemma wide_sums ks : is_lim_seq (fun j => covariance_average (N j) (T j) ks / INR (N j) ^ length ks) (fold_right Rmult 1 (map (mp_moment c) ks)).
Proof.
  assert (forall j, 0 < INR (N j)) as HN by (intro j; pose proof (wide_T j); pose proof (wide_N j); lra). assert (forall j, 0 < INR (T j) - 1) as HT by (intro j; pose proof (wide_T j); lra).
  refine (is_lim_seq_ext _ _ _ _ (noise_limit c ltac:(lra) (fun j => INR (N j)) (fun j => INR (T j) - 1) HN HT wide_inv_N wide_inv_d wide_ratio (S (burden ks)) ks ltac:(lia))). intro j. unfold covariance_average, degree.
  pose proof (pow_lt _ (length ks) (HN j)). pose proof (pow_lt _ (fold_right Nat.add O ks) (HT j)). cbv beta. field. split; lra.
Qed.
Lemma lim_pow (u : nat -> R) (l : R) k : is_lim_seq u l -> is_lim_seq (fun j => u j ^ k) (l ^ k).
Proof. intro H. induction k as [|k IH]; cbn [pow]; [apply is_lim_seq_const|]. now apply is_lim_seq_mult'. Qed.
Lemma wide_limits ks : is_lim_seq (fun j => (/ c) ^ fold_right Nat.add O ks * INR (T j) ^ zeros_of ks * covariance_average (N j) (T j) (nonzero ks) / INR (T j) ^ length ks) (fold_right Rmult 1 (map (mp_moment (/ c)) ks)).
Proof.
  rewrite <- (dual_product c ks) by lra. refine (is_lim_seq_ext _ _ _ _ (is_lim_seq_scal_l _ ((/ c) ^ fold_right Nat.add O ks) _ (is_lim_seq_mult' _ _ _ _ (lim_pow _ _ (length (nonzero ks)) ratio) (wide_sums (nonzero ks))))).
  intro j. cbv beta. pose proof (wide_T j) as HT. pose proof (wide_N j) as HN. assert (INR (T j) <> 0) by lra. assert (INR (N j) <> 0) by lra. rewrite (split_length ks), pow_add. change (INR (N j) / INR (T j)) with (INR (N j) * / INR (T j)). rewrite (Rpow_mult_distr (INR (N j)) (/ INR (T j))), (pow_inv (INR (T j))).
  assert (forall k, INR (T j) ^ k <> 0) by (intro; now apply pow_nonzero). assert (forall k, INR (N j) ^ k <> 0) by (intro; now apply pow_nonzero). field. repeat split; auto.
Qed.
Lemma spot t : (1 + / c + sqrt (/ c) * t) / / c = 1 + c + sqrt c * t.
Proof. rewrite (root_dual c) by lra. field. lra. Qed.
Lemma wide_count t e : -2 <= t <= 2 -> 0 < e -> let x := 1 + c + sqrt c * t in exists J, forall j, (J <= j)%nat ->
  AverageWithin (K j) (fun l => count_le x (lam j l) / INR (T j)) (area (/ c) t - e) (area (/ c) t + e) /\
  AverageWithin (K j) (fun l => count_lt x (lam j l) / INR (T j)) (area (/ c) t - e) (area (/ c) t + e) /\
  exists h w, (forall l, length l = K j -> (count_le x (lam j l) / INR (T j) - area (/ c) t) ^ 2 <= h l) /\ NormalAverage (K j) h w /\ w <= e.
Proof.
  intros Ht He x. assert (forall j, 0 < INR (T j)) as HT by (intro j; pose proof (wide_T j); lra). pose proof g_range as G. destruct G as [G0 G1].
  pose proof (fun e He => sides_mp (/ c) (conj G0 G1) t e Ht He) as SD. set (y := 1 + / c + sqrt (/ c) * t) in *. set (mu := fun j l => map (fun v => / c * v) (lam j l)).
  assert (forall j l, count_le y (mu j l) = count_le x (lam j l) /\ count_lt y (mu j l) = count_lt x (lam j l)) as E.
  { intros j l. unfold mu. destruct (count_scale (/ c) y (lam j l) G0) as [-> ->]. unfold y. rewrite spot. fold x. auto. }
  pose (v := fun ks j => (/ c) ^ fold_right Nat.add O ks * INR (T j) ^ zeros_of ks * covariance_average (N j) (T j) (nonzero ks)).
  destruct (part_mean (fun j => K j) T mu v (mp_moment (/ c)) HT wide_averages wide_limits y (area (/ c) t) SD (fun j l => count_le x (lam j l)) ltac:(intros j l _; destruct (E j l) as [-> ->]; split; [apply count_lt_le|lra]) e He) as (J1 & H1).
  destruct (part_mean (fun j => K j) T mu v (mp_moment (/ c)) HT wide_averages wide_limits y (area (/ c) t) SD (fun j l => count_lt x (lam j l)) ltac:(intros j l _; destruct (E j l) as [-> ->]; split; [lra|apply count_lt_le]) e He) as (J2 & H2).
  destruct (part_spread (fun j => K j) T mu v (mp_moment (/ c)) HT wide_averages wide_limits y (area (/ c) t) SD (fun j l => count_le x (lam j l)) ltac:(intros j l _; destruct (E j l) as [-> ->]; split; [apply count_lt_le|lra]) e He) as (J3 & H3).
  exists (J1 + J2 + J3)%nat. intros j Hj. split; [apply H1; lia|]. split; [apply H2; lia|apply H3; lia].
Qed.
End Wide.
(** The area under the Marchenko-Pastur density of a ratio above one. *)
Lemma wide_q c : 1 < c -> 1 < sqrt c /\ sqrt c * sqrt c = c.
Proof. intro H. split; [rewrite <- sqrt_1; apply sqrt_lt_1; lra|apply sqrt_sqrt; lra]. Qed.
Lemma wide_density c x p : 1 < c -> let lo := (1 - sqrt c) ^ 2 in let hi := (1 + sqrt c) ^ 2 in lo <= x <= hi -> is_RInt (MPDensity c lo hi) lo x p ->
  exists t, -2 <= t <= 2 /\ x = 1 + c + sqrt c * t /\ area (/ c) t = c * p.
Proof.
  intros Hc lo hi Hx Hp. destruct (wide_q c Hc) as [Hq Eq]. pose proof (root_dual c ltac:(lra)) as RD. pose proof (g_range c Hc) as Hg. set (q := sqrt c) in *. pose proof PI_RGT_0 as HPI.
  assert (lo = 1 + c - 2 * q) as El by (unfold lo; rewrite <- Eq; ring). assert (hi = 1 + c + 2 * q) as Eh by (unfold hi; rewrite <- Eq; ring).
  exists ((x - (1 + c)) / q). assert (q * ((x - (1 + c)) / q) = x - (1 + c)) as E by (field; lra). set (t := (x - (1 + c)) / q) in *.
  assert (-2 <= t <= 2) as Ht by (split; apply (Rmult_le_reg_l q); lra). split; [exact Ht|]. split; [lra|]. unfold area. apply (is_RInt_unique (V := R_CompleteNormedModule)).
  assert (is_RInt (MPDensity c lo hi) (q * (-2) + (1 + c)) (q * t + (1 + c)) p) as Hp'.
  { replace (q * (-2) + (1 + c)) with lo by (rewrite El; ring). replace (q * t + (1 + c)) with x by lra. exact Hp. }
  apply (is_RInt_comp_lin (V := R_NormedModule)) in Hp'. apply (is_RInt_scal (V := R_NormedModule) _ _ _ c) in Hp'. refine (is_RInt_ext _ _ _ _ _ _ Hp'). intros s Hs. rewrite Rmin_left, Rmax_right in Hs by lra. match goal with |- _ = ?b => change (@eq R (c * (q * MPDensity c lo hi (q * s + (1 + c)))) b) end. clearbody lo hi.
  pose proof (below (/ c) Hg s ltac:(lra)) as B. pose proof (gap_pos (/ c) Hg) as G. unfold MPDensity, P_MP.dens, semicircle. set (r := sqrt (/ c)) in *.
  assert (0 < 1 + / c + r * s) as P1 by lra. assert (c * (1 + / c + r * s) = q * s + (1 + c)) as P2 by (rewrite RD; field; lra). assert (0 < q * s + (1 + c)) as P3 by (rewrite <- P2; apply Rmult_lt_0_compat; lra).
  replace ((hi - (q * s + (1 + c))) * (q * s + (1 + c) - lo)) with (q * q * (4 - s * s)) by (rewrite El, Eh; ring). rewrite (sqrt_mult (q * q) (4 - s * s)) by nra. rewrite (sqrt_square q) by lra.
  transitivity (c * (q * q) * sqrt (4 - s * s) / (2 * PI * c * (q * s + (1 + c)))); [field; repeat split; lra|]. rewrite Eq. replace (1 + / c + r * s) with ((q * s + (1 + c)) / c) by (rewrite <- P2; field; lra). field. repeat split; lra.
Qed.

(** C160. n_j series of t_j <= n_j values, t_j growing and n_j / t_j tending to c > 1: the average share of the t_j computed eigenvalues up
    to x tends to c times the area of the Marchenko-Pastur density of ratio c below x, and the mean square distance tends to zero. *)
Theorem C160_law : forall ev zeros, (forall m, Diagonalises m ev) -> forall N T (c : R), (forall j, 2 <= T j <= N j)%nat ->
  is_lim_seq (fun j => INR (T j)) p_infty -> is_lim_seq (fun j => INR (N j) / INR (T j)) c -> 1 < c ->
  let lo := (1 - sqrt c) ^ 2 in let hi := (1 + sqrt c) ^ 2 in forall x p, lo <= x <= hi -> is_RInt (MPDensity c lo hi) lo x p -> forall e, 0 < e -> exists J, forall j, (J <= j)%nat ->
  AverageWithin (N j * T j) (fun draws => of_object (count_le x) (noise_object ev (N j) (T j) zeros draws) / INR (T j)) (c * p - e) (c * p + e) /\
  AverageWithin (N j * T j) (fun draws => of_object (count_lt x) (noise_object ev (N j) (T j) zeros draws) / INR (T j)) (c * p - e) (c * p + e) /\
  exists h w, (forall draws, length draws = (N j * T j)%nat -> (of_object (count_le x) (noise_object ev (N j) (T j) zeros draws) / INR (T j) - c * p) ^ 2 <= h draws) /\ NormalAverage (N j * T j) h w /\ w <= e.
Proof.
  intros ev zeros He N T c Hs Hg Hr Hc lo hi x p Hx Hp e Hpos. destruct (wide_density c x p Hc Hx Hp) as (t & Ht & -> & <-).
  destruct (wide_count ev zeros N T c He Hs Hg Hr Hc t e Ht Hpos) as (J & H). exists J. intros j Hj. destruct (H j Hj) as (H1 & H2 & h & w & H3 & H4 & H5).
  assert (forall f l, f (vals_of (noise_object ev (N j) (T j) zeros l)) = of_object f (noise_object ev (N j) (T j) zeros l)) as EQ.
  { intros f l. destruct (wide_facts ev zeros N T He Hs j l) as (ts & -> & _). reflexivity. }
  split; [refine (within_ext _ _ _ _ _ _ H1); intros l _; cbv beta; now rewrite EQ|]. split; [refine (within_ext _ _ _ _ _ _ H2); intros l _; cbv beta; now rewrite EQ|].
  exists h, w. split; [|auto]. intros l Hl. rewrite <- EQ. now apply H3.
Qed.
Print Assumptions C160_law.

(** C160. trim_marchenko_pastur: a vanishing share of the computed eigenvalues is kept as the largest ones, almost all as noise. *)
Theorem C160_trim : forall ev zeros, (forall m, Diagonalises m ev) -> forall N T (c : R), (forall j, 2 <= T j <= N j)%nat ->
  is_lim_seq (fun j => INR (T j)) p_infty -> is_lim_seq (fun j => INR (N j) / INR (T j)) c -> 1 < c -> forall shifted e, 0 < e -> exists J, forall j, (J <= j)%nat ->
  (forall largest draws, exists r, noise_trim ev (N j) (T j) zeros largest shifted draws = Ok r) /\
  AverageWithin (N j * T j) (fun draws => kept_share (T j) (noise_trim ev (N j) (T j) zeros true shifted draws)) 0 e /\
  AverageWithin (N j * T j) (fun draws => kept_share (T j) (noise_trim ev (N j) (T j) zeros false shifted draws)) (1 - e) 1.
Proof.
  intros ev zeros He N T c Hs Hg Hr Hc shifted e Hpos. destruct (wide_q c Hc) as [Hq Eq]. pose proof (g_range c Hc) as Hgr. pose proof (gap_pos (/ c) Hgr) as G. set (gap := (1 - sqrt (/ c)) * (1 - sqrt (/ c))) in *. set (q := sqrt c) in *.
  set (d := Rmin (/ q) (e / 8 * gap)). assert (0 < / q) as Hqi by (apply Rinv_0_lt_compat; lra). assert (0 < d) as Hd by (unfold d; apply Rmin_case; [lra|apply Rmult_lt_0_compat; lra]). assert (d <= / q /\ d <= e / 8 * gap) as [D1 D2] by (unfold d; split; [apply Rmin_l|apply Rmin_r]).
  assert (q * d <= 1) as Hqd1 by (apply (Rmult_le_compat_l q) in D1; [rewrite Rinv_r in D1 by lra; exact D1|lra]). assert (d <= 1) as D3 by nra.
  set (x0 := 1 + c + q * (-2 + d)). set (x1 := 1 + c + q * (2 - d)). set (lo := 1 + c - 2 * q). set (hi := 1 + c + 2 * q).
  assert (0 < lo) as Hlo by (replace lo with ((q - 1) * (q - 1)) by (unfold lo; rewrite <- Eq; ring); apply Rmult_lt_0_compat; lra). assert (0 < q * d) as Hqd by (apply Rmult_lt_0_compat; lra).
  assert (1 < hi) as Hhi by (unfold hi; lra).
  set (eta := q * d / (2 * hi)). assert (0 < eta < 1) as Heta. { unfold eta. split; [apply Rdiv_lt_0_compat; lra|]. apply (Rmult_lt_reg_r (2 * hi)); [lra|]. unfold Rdiv. rewrite Rmult_assoc, Rinv_l, Rmult_1_r by lra. lra. }
  assert (eta * hi = q * d / 2) as Ee by (unfold eta; field; lra).
  assert (is_lim_seq (fun j => sqrt (INR (N j) / INR (T j))) q) as LQ by (apply (is_lim_seq_continuous sqrt _ c); [apply continuity_pt_sqrt; lra|exact Hr]).
  assert (is_lim_seq (fun j => MPLower 1 (Z.of_nat (N j)) (Z.of_nat (T j))) lo) as LL.
  { replace lo with ((1 - q) * (1 - q)) by (unfold lo; rewrite <- Eq; ring). apply (is_lim_seq_ext (fun j => (1 - sqrt (INR (N j) / INR (T j))) * (1 - sqrt (INR (N j) / INR (T j))))); [intro j; unfold MPLower; rewrite <- !INR_IZR_INZ; ring|].
    apply is_lim_seq_mult'; apply is_lim_seq_minus'; try apply is_lim_seq_const; exact LQ. }
  assert (is_lim_seq (fun j => MPUpper 1 (Z.of_nat (N j)) (Z.of_nat (T j))) hi) as LH.
  { replace hi with ((1 + q) * (1 + q)) by (unfold hi; rewrite <- Eq; ring). apply (is_lim_seq_ext (fun j => (1 + sqrt (INR (N j) / INR (T j))) * (1 + sqrt (INR (N j) / INR (T j))))); [intro j; unfold MPUpper; rewrite <- !INR_IZR_INZ; ring|].
    apply is_lim_seq_mult'; apply is_lim_seq_plus'; try apply is_lim_seq_const; exact LQ. }
  pose proof (wide_sums N T c Hs Hg Hr Hc [2%nat]) as L2. cbn [length map fold_right] in L2. pose proof (wide_inv_N N T Hs Hg) as IN.
  assert (is_lim_seq (fun j => / (eta * INR (N j) * (eta * INR (N j))) * covariance_average (N j) (T j) [2%nat]) 0) as LP.
  { apply (is_lim_seq_ext (fun j => / (eta * eta) * (covariance_average (N j) (T j) [2%nat] / INR (N j) ^ 1 * / INR (N j)))).
    - intro j. pose proof (wide_T N T Hs j). pose proof (wide_N N T Hs j). field. lra.
    - replace (Finite 0) with (Finite (/ (eta * eta) * (mp_moment c 2 * 1 * 0))) by (f_equal; ring). apply (is_lim_seq_scal_l _ (/ (eta * eta)) (mp_moment c 2 * 1 * 0)). now apply is_lim_seq_mult'. }
  destruct (wide_count ev zeros N T c He Hs Hg Hr Hc (-2 + d) (e / 8) ltac:(lra) ltac:(lra)) as (J0 & C0). destruct (wide_count ev zeros N T c He Hs Hg Hr Hc (2 - d) (e / 8) ltac:(lra) ltac:(lra)) as (J1 & C1). cbv zeta in C0, C1. fold q in C0, C1. fold x0 in C0. fold x1 in C1.
  destruct (area_ends (/ c) Hgr) as [A0 A2]. pose proof (area_step (/ c) Hgr (-2) (-2 + d) ltac:(lra) ltac:(lra)) as [_ AL]. pose proof (area_step (/ c) Hgr (2 - d) 2 ltac:(lra) ltac:(lra)) as [_ AH]. fold gap in AL, AH. rewrite A0 in AL. rewrite A2 in AH.
  replace (-2 + d - -2) with d in AL by ring. replace (2 - (2 - d)) with d in AH by ring.
  assert (d / gap <= e / 8) as DG by (apply (Rmult_le_reg_r gap); [exact G|]; unfold Rdiv; rewrite Rmult_assoc, Rinv_l, Rmult_1_r by lra; unfold Rdiv in D2; lra).
  apply is_lim_seq_spec in LL. apply is_lim_seq_spec in LH. apply is_lim_seq_spec in LP.
  assert (0 < q * d / 8) as Hqd8 by lra.
  destruct (LL (mkposreal (q * d / 8) Hqd8)) as (J2 & HL). destruct (LH (mkposreal (q * d / 8) Hqd8)) as (J3 & HH). destruct (LP (mkposreal (e / 8) ltac:(lra))) as (J4 & HP). cbn [pos] in HL, HH, HP.
  exists (J0 + J1 + J2 + J3 + J4)%nat. intros j Hj. specialize (HL j ltac:(lia)). specialize (HH j ltac:(lia)). specialize (HP j ltac:(lia)). apply Rabs_def2 in HL. apply Rabs_def2 in HH. apply Rabs_def2 in HP.
  destruct (C0 j ltac:(lia)) as ((g0 & h0 & a0 & b0 & G0 & _ & K0 & _ & B0) & _). destruct (C1 j ltac:(lia)) as ((g1 & h1 & a1 & b1 & G1 & K1 & _ & B1 & _) & _).
  assert (forall l, let vals := vals_of (noise_object ev (N j) (T j) zeros l) in (forall largest, exists r, noise_trim ev (N j) (T j) zeros largest shifted l = Ok r) /\
    let rest := 1 - count_le x1 vals / INR (T j) + power_sum 2 vals / (eta * INR (N j) * (eta * INR (N j))) in
    0 <= kept_share (T j) (noise_trim ev (N j) (T j) zeros true shifted l) <= rest /\ 1 - (count_le x0 vals / INR (T j) + rest) <= kept_share (T j) (noise_trim ev (N j) (T j) zeros false shifted l) <= 1) as Q.
  { intros l. pose proof (Hs j) as S. unfold noise_trim. destruct (wide_facts ev zeros N T He Hs j l) as (ts & -> & Ha & Hl & E1 & E2). cbn [vals_of bind]. rewrite E1, E2.
    apply (trim_bounds (ts_vals ts) (T j) (N j) (T j) shifted eta x0 x1 Ha Hl ltac:(lia) ltac:(lia) ltac:(lia) Heta).
    - unfold x1, hi in *. nra.
    - unfold x0, lo, hi in *. nra. }
  destruct (C159_averages ev (N j) (T j) zeros [2%nat] (He _) ltac:(pose proof (Hs j); lia) ltac:(pose proof (Hs j); lia) ltac:(right; repeat constructor)) as (_ & AV).
  assert (forall l, of_object (power_sums [2%nat]) (noise_object ev (N j) (T j) zeros l) = power_sum 2 (vals_of (noise_object ev (N j) (T j) zeros l))) as EP.
  { intro l. destruct (wide_facts ev zeros N T He Hs j l) as (ts & -> & _). cbn [of_object vals_of]. unfold power_sums. cbn [map fold_right]. ring. }
  pose proof (navg_lin _ _ _ _ _ 1 (/ (eta * INR (N j) * (eta * INR (N j)))) (navg_lin _ _ _ _ _ 1 (-1) (navg_const (N j * T j) 1) K1) AV) as R1.
  pose proof (navg_lin _ _ _ _ _ 1 (-1) (navg_lin _ _ _ _ _ 1 (-1) (navg_const (N j * T j) 1) K0) R1) as R2.
  split; [intros largest l; apply (Q l)|]. split.
  - eexists (fun _ => 0), _, 0, _. split; [|split; [apply (navg_const _ 0)|split; [exact R1|]]].
    + intros l Hl. cbv beta. destruct (Q l) as (_ & Q1 & _). specialize (G1 l Hl). rewrite EP. unfold Rdiv in *. lra.
    + cbv beta. lra.
  - eexists _, (fun _ => 1), _, 1. split; [|split; [exact R2|split; [apply (navg_const _ 1)|]]].
    + intros l Hl. cbv beta. destruct (Q l) as (_ & _ & Q2). specialize (G1 l Hl). specialize (G0 l Hl). rewrite EP. unfold Rdiv in *. lra.
    + cbv beta. lra.
Qed.
Print Assumptions C160_trim.

(** C160. The default call (trim_zeros=True, zeros="negative") with more series than time points. *)
Theorem C160_default : forall ev, (forall m, Diagonalises m ev) -> forall N T (c : R), (forall j, 2 <= T j <= N j)%nat ->
  is_lim_seq (fun j => INR (T j)) p_infty -> is_lim_seq (fun j => INR (N j) / INR (T j)) c -> 1 < c ->
  let lo := (1 - sqrt c) ^ 2 in let hi := (1 + sqrt c) ^ 2 in forall x p, lo <= x <= hi -> is_RInt (MPDensity c lo hi) lo x p -> forall shifted e, 0 < e -> exists J, forall j, (J <= j)%nat ->
  AverageWithin (N j * T j) (fun draws => failed (default_object ev (N j) (T j) draws)) 0 e /\
  AverageWithin (N j * T j) (fun draws => of_object (count_le x) (default_object ev (N j) (T j) draws) / INR (T j)) (c * p - e) (c * p + e) /\
  (forall largest draws ts, default_object ev (N j) (T j) draws = Ok ts -> exists r, default_trim ev (N j) (T j) largest shifted draws = Ok r) /\
  AverageWithin (N j * T j) (fun draws => kept_share (T j) (default_trim ev (N j) (T j) true shifted draws)) 0 e /\
  AverageWithin (N j * T j) (fun draws => kept_share (T j) (default_trim ev (N j) (T j) false shifted draws)) (1 - e) 1.
Proof.
  intros ev He N T c Hs Hg Hr Hc lo hi x p Hx Hp shifted e Hpos. destruct (wide_q c Hc) as [Hq Eq]. assert (0 < lo) as Hlo by (replace lo with ((sqrt c - 1) * (sqrt c - 1)) by (unfold lo; ring); apply Rmult_lt_0_compat; lra).
  assert (lo <= lo <= hi) as Hll by lra. assert (is_RInt (MPDensity c lo hi) lo lo 0) as H0 by apply (is_RInt_point (V := R_NormedModule)).
  destruct (C160_law ev ZNegative He N T c Hs Hg Hr Hc x p Hx Hp (e / 2) ltac:(lra)) as (J1 & L1). destruct (C160_law ev ZNegative He N T c Hs Hg Hr Hc lo 0 Hll H0 (e / 2) ltac:(lra)) as (J2 & L2).
  destruct (C160_trim ev ZNegative He N T c Hs Hg Hr Hc shifted (e / 2) ltac:(lra)) as (J3 & L3). exists (J1 + J2 + J3)%nat. intros j Hj. pose proof (Hs j) as S.
  destruct (L1 j ltac:(lia)) as ((gx & hx & ax & bx & B1 & B2 & B3 & B4 & B5) & _). destruct (L2 j ltac:(lia)) as ((g0 & h0 & a0 & b0 & D1 & _ & D3 & _ & D5) & _). destruct (L3 j ltac:(lia)) as (_ & (gs & hs & as_ & bs & S1 & _ & S3 & _ & S5) & (gn & hn & an & bn & M1 & M2 & _ & M4 & _)).
  pose proof (fun z => default_bounds ev (N j) (T j) (T j) shifted z (He _) ltac:(lia) ltac:(lia) ltac:(lia)) as Q. cbv zeta in Q.
  assert (0 < INR (T j)) as Hn by (apply lt_0_INR; lia). pose proof (Rinv_0_lt_compat _ Hn) as Hi.
  assert (forall f l, f (vals_of (noise_object ev (N j) (T j) ZNegative l)) = of_object f (noise_object ev (N j) (T j) ZNegative l)) as EQ.
  { intros f l. destruct (wide_facts ev ZNegative N T He Hs j l) as (ts & -> & _). reflexivity. }
  assert (forall l, length l = (N j * T j)%nat -> 0 <= count_le 0 (vals_of (noise_object ev (N j) (T j) ZNegative l)) / INR (T j) <= h0 l) as DR.
  { intros l Hl. split; [unfold Rdiv; apply Rmult_le_pos; [apply count_le_range|lra]|]. refine (Rle_trans _ _ _ _ (proj2 (D1 l Hl))). rewrite <- EQ. unfold Rdiv. apply Rmult_le_compat_r; [lra|].
    unfold count_le. apply total_le. intro v. destruct (Rle_dec v 0); destruct (Rle_dec v lo); lra. }
  split; [|split; [|split; [|split]]].
  - exists (fun _ => 0), h0, 0, b0. split; [|split; [apply (navg_const _ 0)|split; [exact D3|lra]]]. intros l Hl. destruct (Q l) as (Q1 & _). specialize (DR l Hl). split; [destruct (default_object _ _ _ _); cbn; lra|lra].
  - eexists _, hx, _, bx. split; [|split; [exact (navg_lin _ _ _ _ _ 1 (-1) B2 D3)|split; [exact B3|lra]]]. intros l Hl. cbv beta. destruct (Q l) as (_ & Q2 & _). rewrite (Q2 x ltac:(lra)), (EQ (count_le x)). specialize (B1 l Hl). specialize (DR l Hl). lra.
  - intros largest l ts E. destruct (Q l) as (_ & _ & Q3 & _). exact (Q3 ts largest E).
  - exists (fun _ => 0), hs, 0, bs. split; [|split; [apply (navg_const _ 0)|split; [exact S3|lra]]]. intros l Hl. destruct (Q l) as (_ & _ & _ & Q4). specialize (Q4 true). specialize (S1 l Hl). lra.
  - eexists _, (fun _ => 1), _, 1. split; [|split; [exact (navg_lin _ _ _ _ _ 1 (-1) M2 D3)|split; [apply (navg_const _ 1)|lra]]]. intros l Hl. cbv beta. destruct (Q l) as (_ & _ & _ & Q4). specialize (Q4 false). specialize (M1 l Hl). specialize (DR l Hl). split; [lra|].
    destruct Q4 as (_ & _ & Q5). apply (Rle_trans _ _ _ Q5). destruct (wide_facts ev ZNegative N T He Hs j l) as (ts & E & Ha & Hl' & E1 & E2). unfold noise_trim. rewrite E. cbn [bind]. rewrite E1, E2.
    destruct (trim_marchenko_pastur _ _ _ _ _ _ _ _) as [[k b]|] eqn:Et; [|cbn; lra]. cbn [kept_share].
    destruct (arr_max_exists (ts_vals ts) ltac:(intro H; rewrite H in Hl'; cbn in Hl'; lia)) as (m & Hm & _). rewrite (mp_value (ts_vals ts) (Z.of_nat (N j)) (Z.of_nat (T j)) m) in Et by (auto; lia). injection Et as <- _.
    assert (forall f : R -> bool, INR (length (filter f (ts_vals ts))) / INR (T j) <= 1) as F.
    { intro f. rewrite filter_count. apply (Rmult_le_reg_r (INR (T j))); [exact Hn|]. unfold Rdiv. rewrite Rmult_assoc, Rinv_l, Rmult_1_r, Rmult_1_l by lra. rewrite <- Hl'. apply total_range. intro v. destruct (f v); lra. }
    apply F.
Qed.
Print Assumptions C160_default.

(** ** The eigenvalue lost to centring *)
Lemma sumto_nonneg n (f : nat -> R) : (forall i, 0 <= f i) -> 0 <= SumTo n f.
Proof. intro Hf. induction n as [|n IH]; cbn [SumTo]; [lra|]. specialize (Hf n). lra. Qed.
Lemma nonneg_zero n (f : nat -> R) : (forall i, (i < n)%nat -> 0 <= f i) -> SumTo n f = 0 -> forall i, (i < n)%nat -> f i = 0.
Proof.
  intros Hf. assert (forall m, (m <= n)%nat -> 0 <= SumTo m f) as P by (induction m as [|m IH]; intro Hm; cbn [SumTo]; [lra|]; specialize (IH ltac:(lia)); specialize (Hf m ltac:(lia)); lra).
  induction n as [|n IH]; [lia|]. cbn [SumTo]. intros E i Hi. pose proof (P n ltac:(lia)). pose proof (Hf n ltac:(lia)). destruct (Nat.eq_dec i n) as [->|]; [lra|]. apply IH; try lra; try lia; intros; first [apply Hf|apply P]; lia.
Qed.
Lemma orthogonal_rows n q : Orthogonal n q -> forall i j, (i < n)%nat -> (j < n)%nat -> SumTo n (fun k => q i k * q j k) = kron i j.
Proof.
  intro H. assert (forall i j, turn n q kron i j = SumTo n (fun k => q i k * q j k)) as E.
  { intros i j. unfold turn. apply SumTo_ext. intros k Hk. f_equal. exact (pick n k (fun l => q j l) Hk). }
  assert (SumTo n (fun i => SumTo n (fun j => (turn n q kron i j - kron i j) * (turn n q kron i j - kron i j))) = 0) as Z.
  { assert (forall f, SumTo n (fun i => SumTo n (fun j => f i j * kron i j)) = SumTo n (fun i => f i i)) as D by (intro f; apply SumTo_ext; intros i Hi; now apply P_Wick.SumTo_kron).
    transitivity (SumTo n (fun i => SumTo n (fun j => turn n q kron i j * turn n q kron i j)) + -2 * SumTo n (fun i => SumTo n (fun j => turn n q kron i j * kron i j)) + SumTo n (fun i => SumTo n (fun j => kron i j * kron i j))).
    - rewrite <- SumTo_scale, <- !SumTo_add. apply SumTo_ext. intros i _. rewrite <- SumTo_scale, <- !SumTo_add. apply SumTo_ext. intros; ring.
    - rewrite (turn_form n q kron kron H), !D, (turn_trace n q kron H). lra. }
  intros i j Hi Hj. rewrite <- E. assert ((turn n q kron i j - kron i j) * (turn n q kron i j - kron i j) = 0) as W; [|apply Rmult_integral in W; lra].
  refine (nonneg_zero n (fun j => (turn n q kron i j - kron i j) * (turn n q kron i j - kron i j)) _ _ j Hj); [intros; apply Rle_0_sqr|].
  refine (nonneg_zero n (fun i => SumTo n (fun j => (turn n q kron i j - kron i j) * (turn n q kron i j - kron i j))) _ Z i Hi). intros a _. cbv beta. apply sumto_nonneg. intro. apply Rle_0_sqr.
Qed.
Lemma null_value n m lam : (0 < n)%nat -> Spectrum n m lam -> (forall i, (i < n)%nat -> SumTo n (m i) = 0) -> In 0 lam.
Proof.
  intros Hn (Hl & q & Hq & Hm) Hz. set (w := fun k => SumTo n (fun j => q j k)).
  assert (forall i, (i < n)%nat -> SumTo n (fun k => q i k * (nth k lam 0 * w k)) = 0) as R.
  { intros i Hi. transitivity (SumTo n (m i)); [|exact (Hz i Hi)]. rewrite (SumTo_ext n (m i) (fun j => SumTo n (fun k => q i k * (nth k lam 0 * q j k)))).
    - rewrite (SumTo_swap n n (fun j k => q i k * (nth k lam 0 * q j k))). apply SumTo_ext. intros k _. unfold w. rewrite <- (SumTo_scale n (nth k lam 0)), <- (SumTo_scale n (q i k)). apply SumTo_ext. intros; reflexivity.
    - intros j Hj. rewrite (Hm i j Hi Hj). unfold turn. apply SumTo_ext. intros k Hk. f_equal. unfold diagonal. rewrite (SumTo_ext n _ (fun l => if Nat.eqb l k then nth k lam 0 * q j l else 0)); [now rewrite (SumTo_delta n k (fun l => nth k lam 0 * q j l) Hk)|].
      intros l _. rewrite (Nat.eqb_sym l k). destruct (Nat.eqb k l); ring. }
  assert (forall l, (l < n)%nat -> nth l lam 0 * w l = 0) as V.
  { intros l Hlt. transitivity (SumTo n (fun i => q i l * SumTo n (fun k => q i k * (nth k lam 0 * w k)))); [|apply SumTo_0; intros i Hi; rewrite R by exact Hi; ring].
    rewrite (SumTo_ext n _ (fun i => SumTo n (fun k => nth k lam 0 * w k * (q i k * q i l)))) by (intros; rewrite <- SumTo_scale; apply SumTo_ext; intros; ring). rewrite SumTo_swap.
    rewrite (SumTo_ext n _ (fun k => if Nat.eqb k l then nth k lam 0 * w k else 0)); [now rewrite (SumTo_delta n l (fun k => nth k lam 0 * w k) Hlt)|].
    intros k Hk. rewrite SumTo_scale, (Hq k l Hk Hlt). destruct (Nat.eqb k l); ring. }
  destruct (in_dec Req_EM_T 0 lam) as [I|I]; [exact I|]. exfalso.
  assert (forall l, (l < n)%nat -> w l = 0) as W by (intros l Hlt; destruct (Rmult_integral _ _ (V l Hlt)) as [X|X]; [|exact X]; exfalso; apply I; rewrite <- X; apply nth_In; lia).
  assert (SumTo n (fun j => SumTo n (fun k => q O k * q j k)) = 0) as A by (rewrite SumTo_swap; apply SumTo_0; intros k Hk; rewrite SumTo_scale; fold (w k); rewrite W by exact Hk; ring).
  rewrite (SumTo_ext n _ (fun j => if Nat.eqb j O then 1 else 0)) in A by (intros j Hj; rewrite (orthogonal_rows n q Hq O j Hn Hj); unfold kron; now rewrite Nat.eqb_sym). rewrite (SumTo_delta n O (fun _ => 1) Hn) in A. lra.
Qed.
(** C160. Whatever the numbers: when n > t the t computed eigenvalues always include zero, so the default call returns at most t - 1. *)
Theorem C160_null : forall ev n t zeros, Diagonalises t ev -> (2 <= t < n)%nat -> forall data,
  (exists ts, noise_object ev n t zeros data = Ok ts /\ length (ts_vals ts) = t /\ In 0 (ts_vals ts)) /\
  forall ts, default_object ev n t data = Ok ts -> (length (ts_vals ts) < t)%nat /\ List.Forall (fun v => 0 < v) (ts_vals ts).
Proof.
  intros ev n t zeros He Hnt z. assert (Diagonalises (Nat.min n t) ev) as He' by (rewrite Nat.min_r by lia; exact He). assert (0 < INR t - 1) as Hp by (assert (2 <= INR t) by (change 2 with (INR 2); apply le_INR; lia); lra).
  assert (forall zr, exists ts, noise_object ev n t zr z = Ok ts /\ length (ts_vals ts) = t /\ In 0 (ts_vals ts)) as A.
  { intro zr. destruct (noise_spectrum ev n t zr z He' ltac:(lia) ltac:(lia)) as (ts & E & Hs & _). rewrite Nat.min_r in Hs by lia. exists ts. split; [exact E|]. split; [apply Hs|]. apply (null_value t _ _ ltac:(lia) Hs). intros i Hi.
    set (D := Dev (data_at t z) t). rewrite (SumTo_ext t _ (fun j => / (INR t - 1) * SumTo n (fun s => D s i * D s j))).
    - rewrite SumTo_scale, SumTo_swap. rewrite (SumTo_0 n); [ring|]. intros s _. rewrite SumTo_scale. unfold D. rewrite dev_zero by lia. ring.
    - intros j _. unfold handed. destruct (Nat.leb_spec n t); [lia|]. rewrite Sum_SumTo. unfold Rdiv, D. ring. }
  split; [apply A|]. intros ts Ed. destruct (A ZNegative) as (ts0 & E0 & L0 & I0). destruct (default_values ev n t z He' ltac:(lia) ltac:(lia)) as (ts1 & E1 & [[_ (x & Ex)]|(_ & ts2 & E2 & V & _)]); [congruence|]. rewrite E0 in E1. injection E1 as <-. rewrite Ed in E2. injection E2 as <-. rewrite V. split.
  - rewrite <- L0. clear -I0. induction (ts_vals ts0) as [|v l IH]; [destruct I0|]. cbn [filter length]. destruct I0 as [->|I].
    + destruct (nlt 0 0) eqn:E; [apply nlt_R in E; lra|]. assert (forall m : list R, (length (filter (fun v : R => nlt 0%R v) m) <= length m)%nat) as F by (induction m as [|y m IHm]; cbn [filter length]; [lia|destruct (nlt 0%R y); cbn [length]; lia]). specialize (F l). lia.
    + specialize (IH I). destruct (nlt 0 v); cbn [length]; lia.
  - apply Forall_forall. intros v Hv. apply filter_In in Hv. now apply nlt_R.
Qed.
Print Assumptions C160_null.

(** The density of a ratio above one has area 1/c. *)
Lemma wide_total c : 1 < c -> is_RInt (MPDensity c ((1 - sqrt c) ^ 2) ((1 + sqrt c) ^ 2)) ((1 - sqrt c) ^ 2) ((1 + sqrt c) ^ 2) (/ c).
Proof.
  intro Hc. destruct (wide_q c Hc) as [Hq Eq]. pose proof PI_RGT_0. set (lo := (1 - sqrt c) ^ 2) in *. set (hi := (1 + sqrt c) ^ 2) in *. set (q := sqrt c) in *.
  assert (lo = 1 + c - 2 * q) as El by (unfold lo; rewrite <- Eq; ring). assert (hi = 1 + c + 2 * q) as Eh by (unfold hi; rewrite <- Eq; ring). assert (0 < lo) as Hlo by (replace lo with ((q - 1) * (q - 1)) by (unfold lo; ring); apply Rmult_lt_0_compat; lra).
  assert (ex_RInt (MPDensity c lo hi) lo hi) as (p & Hp).
  { apply (ex_RInt_continuous (V := R_CompleteNormedModule)). intros x Hx. rewrite Rmin_left, Rmax_right in Hx by lra. unfold MPDensity.
    apply (continuous_mult (K := R_AbsRing) (fun x => sqrt ((hi - x) * (x - lo))) (fun x => / (2 * PI * c * x))).
    - apply (continuous_comp (fun x => (hi - x) * (x - lo)) sqrt); [|apply continuous_sqrt]. apply (ex_derive_continuous (V := R_NormedModule)). auto_derive. exact I.
    - apply (ex_derive_continuous (V := R_NormedModule)). auto_derive. apply Rgt_not_eq. apply Rmult_lt_0_compat; [apply Rmult_lt_0_compat; [apply Rmult_lt_0_compat; lra|lra]|lra]. }
  destruct (wide_density c hi p Hc ltac:(change (lo <= hi <= hi); lra) Hp) as (t & Ht & E & A). fold q in E.
  assert (q * t = q * 2) as E2 by lra. apply Rmult_eq_reg_l in E2; [|lra]. subst t. rewrite (proj2 (area_ends (/ c) (g_range c Hc))) in A. replace (/ c) with p; [exact Hp|]. apply (Rmult_eq_reg_l c); [|lra]. rewrite <- A. field. lra.
Qed.
(** The hypotheses are met: n_j = 2 t_j series of t_j = j + 2 values. *)
Example C160_ex : forall zeros,
  (exists J, forall j, (J <= j)%nat -> AverageWithin (2 * (j + 2) * (j + 2)) (fun draws => of_object (count_le ((1 + sqrt 2) ^ 2)) (noise_object any_solver (2 * (j + 2)) (j + 2) zeros draws) / INR (j + 2)) (99 / 100) (101 / 100)) /\
  (exists J, forall j, (J <= j)%nat -> AverageWithin (2 * (j + 2) * (j + 2)) (fun draws => kept_share (j + 2) (noise_trim any_solver (2 * (j + 2)) (j + 2) zeros true true draws)) 0 (1 / 100)) /\
  (exists J, forall j, (J <= j)%nat -> AverageWithin (2 * (j + 2) * (j + 2)) (fun draws => kept_share (j + 2) (default_trim any_solver (2 * (j + 2)) (j + 2) false false draws)) (99 / 100) 1) /\
  (exists ts, noise_object any_solver 3 2 zeros [1; 2; 3; 4; 5; 7] = Ok ts /\ length (ts_vals ts) = 2%nat /\ In 0 (ts_vals ts)).
Proof.
  intro zeros. assert (forall j, 2 <= j + 2 <= 2 * (j + 2))%nat as S by (intro; lia). destruct twice_lim as [L1 _].
  assert (is_lim_seq (fun j => INR (2 * (j + 2)) / INR (j + 2)) 2) as L2.
  { apply (is_lim_seq_ext (fun _ => 2)); [|apply is_lim_seq_const]. intro j. rewrite mult_INR. assert (0 < INR (j + 2)) by (apply lt_0_INR; lia). change (INR 2) with 2. field. lra. }
  pose proof (sqrt_pos 2) as SP. assert ((1 - sqrt 2) ^ 2 <= (1 + sqrt 2) ^ 2 <= (1 + sqrt 2) ^ 2) as HR by (split; [cbn [pow]; nra|lra]).
  split; [|split; [|split]].
  - destruct (C160_law any_solver zeros any_solver_ok (fun j => (2 * (j + 2))%nat) (fun j => (j + 2)%nat) 2 S L1 L2 ltac:(lra) ((1 + sqrt 2) ^ 2) (/ 2) HR (wide_total 2 ltac:(lra)) (1 / 100) ltac:(lra)) as (J & H).
    exists J. intros j Hj. destruct (H j Hj) as (H1 & _). replace (99 / 100) with (2 * / 2 - 1 / 100) by field. replace (101 / 100) with (2 * / 2 + 1 / 100) by field. exact H1.
  - destruct (C160_trim any_solver zeros any_solver_ok (fun j => (2 * (j + 2))%nat) (fun j => (j + 2)%nat) 2 S L1 L2 ltac:(lra) true (1 / 100) ltac:(lra)) as (J & H). exists J. intros j Hj. apply (H j Hj).
  - destruct (C160_default any_solver any_solver_ok (fun j => (2 * (j + 2))%nat) (fun j => (j + 2)%nat) 2 S L1 L2 ltac:(lra) ((1 + sqrt 2) ^ 2) (/ 2) HR (wide_total 2 ltac:(lra)) false (1 / 100) ltac:(lra)) as (J & H).
    exists J. intros j Hj. replace (99 / 100) with (1 - 1 / 100) by field. apply (H j Hj).
  - apply (C160_null any_solver 3 2 zeros (any_solver_ok 2) ltac:(lia)).
Qed.
