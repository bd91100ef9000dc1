(** Sample variances of pure noise, and how far standardised series are from the series themselves. *)
From Coq Require Import List ZArith Bool Arith Lia Reals Lra.
From Coquelicot Require Import Coquelicot.
From Verif Require Import Base S_Generate S_Normal S_Rotate S_CCharPoly S_Moments S_Law S_MP S_Series S_Cov M_Cov P_Cov P_Generate P_Surmise P_Rotate T_Rotate P_Moments P_Wishart P_Fourth P_CDet P_CCharPoly P_Stein P_Loop P_Wick P_House P_Tridiag T_Units T_Wishart P_MPLoop T_MP T_MPWide P_Close.
Import ListNotations.
Local Open Scope R_scope.
Local Notation length := List.length.
Local Notation total := S_Rotate.total.
Local Notation lin := P_Wick.lin.

(** ** Averages of the powers of a sample variance *)
Lemma row_traces n t i ks : (i < n)%nat -> (2 <= t)%nat -> NormalAverage (n * t) (fun l => trs (n * t) 1 t (fun _ => coef t i) l ks) (noise_average (S (burden ks)) (INR 1) (INR t - 1) ks).
Proof.
  intros Hi Ht. apply (noise_traces (n * t) 1 t (fun _ => coef t i) (centre t) (INR t - 1)).
  - intros a b k l Ha Hb Hk Hl. assert (a = O) as -> by lia. assert (b = O) as -> by lia. rewrite kron_refl. rewrite <- (kron_refl i). exact (coef_dot n t i i k l Hi Hi Hk Hl).
  - intros l _ k Hl _ Hk. rewrite row_lin by assumption. rewrite (SumTo_ext t _ (fun q => kron k q * Dev (data_at t l) t i q + - / INR t * Dev (data_at t l) t i q)).
    + rewrite SumTo_add, SumTo_scale, dev_zero by lia. rewrite (pick t k (fun q => Dev (data_at t l) t i q)) by exact Hk. ring.
    + intros q Hq. rewrite row_lin by assumption. unfold centre. ring.
  - apply centre_trace. lia.
  - lia.
Qed.
Definition variance (t : nat) (z : list R) (i : nat) : R := SampleCov (data_at t z) t i i.
Lemma row_power n t z i k : (i < n)%nat -> (2 <= t)%nat -> trs (n * t) 1 t (fun _ => coef t i) z (repeat 1%nat k) = (INR t - 1) ^ k * variance t z i ^ k.
Proof.
  intros Hi Ht. assert (0 < INR t - 1) as Hp by (assert (2 <= INR t) by (change 2 with (INR 2); now apply le_INR); lra).
  assert (trp (n * t) 1 t (fun _ => coef t i) z 1 = (INR t - 1) * variance t z i) as E.
  { unfold trp. cbn [SumTo rpow]. rewrite kron_refl. unfold P_MPLoop.prods. rewrite (SumTo_ext t _ (fun q => Dev (data_at t z) t i q * Dev (data_at t z) t i q)) by (intros; now rewrite row_lin).
    unfold variance, SampleCov. rewrite Sum_SumTo. field. lra. }
  unfold trs. induction k as [|k IH]; [cbn; ring|]. cbn [repeat map fold_right]. rewrite IH, E. cbn [pow]. ring.
Qed.
Lemma variance_power n t i k : (i < n)%nat -> (2 <= t)%nat -> NormalAverage (n * t) (fun z => variance t z i ^ k) (noise_average (S (burden (repeat 1%nat k))) (INR 1) (INR t - 1) (repeat 1%nat k) / (INR t - 1) ^ k).
Proof.
  intros Hi Ht. assert (0 < INR t - 1) as Hp by (assert (2 <= INR t) by (change 2 with (INR 2); now apply le_INR); lra). pose proof (pow_lt _ k Hp) as Hk.
  refine (navg_ext _ _ _ _ _ (navg_value _ _ _ _ _ (navg_scale _ _ _ (/ (INR t - 1) ^ k) (row_traces n t i (repeat 1%nat k) Hi Ht)))); [|unfold Rdiv; ring].
  intros z _. cbv beta. rewrite row_power by assumption. field. lra.
Qed.
Definition off (t : nat) (z : list R) (i : nat) : R := 1 - variance t z i.
Lemma off_average n t i : (i < n)%nat -> (2 <= t)%nat -> let d := INR t - 1 in NormalAverage (n * t) (fun z => off t z i ^ 2) (2 / d) /\ NormalAverage (n * t) (fun z => off t z i ^ 4) (12 / d ^ 2 + 48 / d ^ 3).
Proof.
  intros Hi Ht d. assert (0 < d) as Hp by (unfold d; assert (2 <= INR t) by (change 2 with (INR 2); now apply le_INR); lra).
  pose proof (variance_power n t i 1 Hi Ht) as V1. pose proof (variance_power n t i 2 Hi Ht) as V2. pose proof (variance_power n t i 3 Hi Ht) as V3. pose proof (variance_power n t i 4 Hi Ht) as V4. fold d in V1, V2, V3, V4. clearbody d.
  pose proof (navg_lin _ _ _ _ _ 1 (-2) (navg_const (n * t) 1) V1) as W1. pose proof (navg_lin _ _ _ _ _ 1 1 W1 V2) as W2. split.
  - refine (navg_ext _ _ _ _ _ (navg_value _ _ _ _ _ W2)); [intros z _; unfold off; ring|]. unfold burden. cbn. field. lra.
  - pose proof (navg_lin _ _ _ _ _ 1 5 (navg_lin _ _ _ _ _ 1 (-2) W2 V1) V2) as W3. pose proof (navg_lin _ _ _ _ _ 1 1 (navg_lin _ _ _ _ _ 1 (-4) W3 V3) V4) as W4.
    refine (navg_ext _ _ _ _ _ (navg_value _ _ _ _ _ W4)); [intros z _; unfold off; ring|]. unfold burden. cbn. field. lra.
Qed.
(** The sums over the series. *)
Definition offs (k n t : nat) (z : list R) : R := SumTo n (fun i => off t z i ^ k).
Lemma offs_average n t : (2 <= t)%nat -> let d := INR t - 1 in NormalAverage (n * t) (offs 2 n t) (INR n * (2 / d)) /\ NormalAverage (n * t) (offs 4 n t) (INR n * (12 / d ^ 2 + 48 / d ^ 3)).
Proof.
  intros Ht d. split.
  - refine (navg_value _ _ _ _ _ (navg_SumTo (n * t) n (fun i z => off t z i ^ 2) (fun _ => 2 / d) _)); [apply SumTo_const|intros i Hi; now apply off_average].
  - refine (navg_value _ _ _ _ _ (navg_SumTo (n * t) n (fun i z => off t z i ^ 4) (fun _ => 12 / d ^ 2 + 48 / d ^ 3) _)); [apply SumTo_const|intros i Hi; now apply off_average].
Qed.

(** ** Standardised series *)
(** No sample variance is below 1/4. *)
Definition Steady (n t : nat) (z : list R) : Prop := forall i, (i < n)%nat -> 1 / 4 <= variance t z i.
Lemma steady_dec n t z : {Steady n t z} + {exists i, (i < n)%nat /\ variance t z i < 1 / 4}.
Proof.
  induction n as [|n [IH|IH]].
  - left. intros i Hi. lia.
  - destruct (Rlt_dec (variance t z n) (1 / 4)) as [H|H]; [right; exists n; split; [lia|exact H]|]. left. intros i Hi. destruct (Nat.eq_dec i n) as [->|]; [lra|]. apply IH. lia.
  - right. destruct IH as (i & Hi & H). exists i. split; [lia|exact H].
Qed.
Definition unsteady (n t : nat) (z : list R) : R := 4 * offs 4 n t z.
Lemma fourth_pos x : 0 <= x ^ 4.
Proof. replace (x ^ 4) with ((x * x) * (x * x)) by ring. apply square_pos. Qed.
Lemma SumTo_member n (f : nat -> R) i : (i < n)%nat -> (forall i, 0 <= f i) -> f i <= SumTo n f.
Proof.
  intros Hi Hf. induction n as [|n IH]; [lia|]. cbn [SumTo]. destruct (Nat.eq_dec i n) as [->|]; [pose proof (sumto_nonneg n f Hf); lra|]. specialize (IH ltac:(lia)). specialize (Hf n). lra.
Qed.
Lemma unsteady_one n t z : 0 <= unsteady n t z /\ ((exists i, (i < n)%nat /\ variance t z i < 1 / 4) -> 1 <= unsteady n t z).
Proof.
  unfold unsteady, offs. split; [assert (0 <= SumTo n (fun i => off t z i ^ 4)); [apply sumto_nonneg; intro; apply fourth_pos|lra]|].
  intros (i & Hi & H). pose proof (SumTo_member n (fun i => off t z i ^ 4) i Hi ltac:(intro; apply fourth_pos)) as M. cbv beta in M. assert (3 / 4 < off t z i) as Ho by (unfold off; lra). set (y := off t z i) in *. clearbody y.
  assert (9 / 16 <= y * y) by nra. assert (81 / 256 <= (y * y) * (y * y)) by nra. replace (y ^ 4) with ((y * y) * (y * y)) in M by ring. lra.
Qed.
Lemma steady_varies n t z : (2 <= t)%nat -> Steady n t z -> forall i, (i < n)%nat -> Varies (data_at t z) t i.
Proof.
  intros Ht H i Hi. specialize (H i Hi). set (x := data_at t z).
  assert (forall s, (s <= t)%nat -> {k | (k < s)%nat /\ x i k <> x i O} + {forall k, (k < s)%nat -> x i k = x i O}) as F.
  { induction s as [|s IH]; intro Hs; [right; intros; lia|]. destruct (IH ltac:(lia)) as [(k & Hk & E)|E]; [left; exists k; split; [lia|exact E]|].
    destruct (Req_EM_T (x i s) (x i O)) as [G|G]; [right|left; exists s; split; [lia|exact G]]. intros k Hk. destruct (Nat.eq_dec k s) as [->|]; [exact G|]. apply E. lia. }
  destruct (F t ltac:(lia)) as [(k & Hk & E)|E]; [exists k, O; split; [exact Hk|split; [lia|exact E]]|]. exfalso.
  assert (2 <= INR t) as H2 by (change 2 with (INR 2); now apply le_INR).
  assert (Mean x t i = x i O) as EM. { unfold Mean. rewrite Sum_SumTo, (SumTo_ext t _ (fun _ => x i O) E), SumTo_const. field. lra. }
  unfold variance, SampleCov in H. rewrite Sum_SumTo in H. fold x in H. rewrite (SumTo_0 t) in H; [unfold Rdiv in H; lra|]. intros k Hk. unfold Dev. rewrite EM, (E k Hk). ring.
Qed.
Section Rows.
Variables (n t : nat) (z : list R).
Hypothesis Ht : (2 <= t)%nat.
Local Notation d := (INR t - 1).
Definition plain (i k : nat) : R := Dev (data_at t z) t i k / sqrt (INR t - 1).
Definition unit_row (i k : nat) : R := Standard (data_at t z) t i k / sqrt (INR t - 1).
Lemma d_pos : 0 < d.
Proof. assert (2 <= INR t) by (change 2 with (INR 2); now apply le_INR). lra. Qed.
Lemma root_d : 0 < sqrt d /\ sqrt d * sqrt d = d.
Proof. pose proof d_pos. split; [now apply sqrt_lt_R0|apply sqrt_sqrt; lra]. Qed.
Lemma unit_plain i k : unit_row i k = plain i k / sqrt (variance t z i).
Proof. unfold unit_row, plain, Standard, variance, Rdiv. ring. Qed.
Lemma plain_products i j : SumTo t (fun k => plain i k * plain j k) = SampleCov (data_at t z) t i j.
Proof.
  destruct root_d as [R1 R2]. pose proof d_pos. unfold SampleCov. rewrite Sum_SumTo. rewrite (SumTo_ext t _ (fun k => / d * (Dev (data_at t z) t i k * Dev (data_at t z) t j k))); [rewrite SumTo_scale; unfold Rdiv; ring|].
  intros k _. unfold plain. set (s := sqrt d) in *. clearbody s. rewrite <- R2. field. lra.
Qed.
Lemma unit_products i j : SumTo t (fun k => unit_row i k * unit_row j k) = SampleCov (data_at t z) t i j * / sqrt (variance t z i) * / sqrt (variance t z j).
Proof.
  rewrite <- plain_products. rewrite (SumTo_ext t _ (fun k => / sqrt (variance t z i) * / sqrt (variance t z j) * (plain i k * plain j k))) by (intros; rewrite !unit_plain; unfold Rdiv; ring). rewrite SumTo_scale. ring.
Qed.
Hypothesis St : Steady n t z.
Lemma dev_root i : (i < n)%nat -> 1 / 2 <= sqrt (variance t z i) /\ sqrt (variance t z i) * sqrt (variance t z i) = variance t z i.
Proof.
  intro Hi. specialize (St i Hi). split; [|apply sqrt_sqrt; lra]. replace (1 / 2) with (sqrt (1 / 2 * (1 / 2))) by (rewrite sqrt_square; lra). apply sqrt_le_1; lra.
Qed.
Lemma row_distance i : (i < n)%nat -> SumTo t (fun k => (plain i k - unit_row i k) * (plain i k - unit_row i k)) <= off t z i ^ 2.
Proof.
  intro Hi. destruct (dev_root i Hi) as [Hs Es]. pose proof (plain_products i i) as P. fold (variance t z i) in P.
  rewrite (SumTo_ext t _ (fun k => (1 - / sqrt (variance t z i)) * (1 - / sqrt (variance t z i)) * (plain i k * plain i k))) by (intros; rewrite unit_plain; unfold Rdiv; ring). rewrite SumTo_scale, P. unfold off. set (s := sqrt (variance t z i)) in *. clearbody s. rewrite <- Es.
  replace ((1 - / s) * (1 - / s) * (s * s)) with ((s - 1) * (s - 1)) by (field; lra). replace ((1 - s * s) ^ 2) with ((s - 1) * (s - 1) * ((s + 1) * (s + 1))) by ring. pose proof (square_pos (s - 1)). rewrite <- (Rmult_1_r ((s - 1) * (s - 1))) at 1. apply Rmult_le_compat_l; [assumption|nra].
Qed.
Lemma rows_distance : SumTo n (fun i => SumTo t (fun k => (plain i k - unit_row i k) * (plain i k - unit_row i k))) <= offs 2 n t z.
Proof. unfold offs. apply SumTo_le. intros i Hi. now apply row_distance. Qed.
Lemma entry_bound i j : (i < n)%nat -> (j < n)%nat -> let c := SumTo t (fun k => unit_row i k * unit_row j k) in let p := SumTo t (fun k => plain i k * plain j k) in c * c <= 16 * (p * p).
Proof.
  intros Hi Hj c p. unfold c, p. rewrite unit_products, plain_products. destruct (dev_root i Hi) as [Hs _]. destruct (dev_root j Hj) as [Hr _]. set (s := sqrt (variance t z i)) in *. set (r := sqrt (variance t z j)) in *. set (C := SampleCov _ _ _ _). clearbody s r C.
  assert (0 < / s <= 2) as H1 by (split; [apply Rinv_0_lt_compat; lra|]; replace 2 with (/ (1 / 2)) by field; apply Rinv_le_contravar; lra).
  assert (0 < / r <= 2) as H2 by (split; [apply Rinv_0_lt_compat; lra|]; replace 2 with (/ (1 / 2)) by field; apply Rinv_le_contravar; lra).
  set (u := / s) in *. set (v := / r) in *. clearbody u v. assert (0 <= u * v <= 4) as H3 by nra. assert (u * v * (u * v) <= 16) as H4 by nra. replace (C * u * v * (C * u * v)) with (u * v * (u * v) * (C * C)) by ring. apply Rmult_le_compat_r; [apply square_pos|exact H4].
Qed.
End Rows.
(** The sum of the squares of the entries of D D^T and D^T D. *)
Lemma two_squares n t (D : nat -> nat -> R) : SumTo t (fun x => SumTo t (fun y => SumTo n (fun s => D s x * D s y) * SumTo n (fun s => D s x * D s y))) = SumTo n (fun i => SumTo n (fun j => SumTo t (fun q => D i q * D j q) * SumTo t (fun q => D i q * D j q))).
Proof.
  pose proof (two_traces n t D 1) as H. cbn [rpow] in H.
  assert (forall m (M : nat -> nat -> R), (forall i j, (i < m)%nat -> (j < m)%nat -> M i j = M j i) -> SumTo m (fun x => SumTo m (fun h => M x h * SumTo m (fun h0 => M h h0 * kron h0 x))) = SumTo m (fun x => SumTo m (fun y => M x y * M x y))) as E.
  { intros m M Hs. apply SumTo_ext. intros x Hx. apply SumTo_ext. intros y Hy. f_equal. rewrite (SumTo_ext m _ (fun h => kron x h * M y h)) by (intros; rewrite kron_sym; ring). rewrite (pick m x (fun h => M y h) Hx). now apply Hs. }
  rewrite (E t (fun x y => SumTo n (fun s => D s x * D s y))) in H by (intros; apply SumTo_ext; intros; ring). rewrite (E n (fun i j => SumTo t (fun q => D i q * D j q))) in H by (intros; apply SumTo_ext; intros; ring). exact H.
Qed.
Lemma squares_spectrum m M lam : (forall i j, (i < m)%nat -> (j < m)%nat -> M i j = M j i) -> Spectrum m M lam -> power_sum 2 lam = SumTo m (fun i => SumTo m (fun j => M i j * M i j)).
Proof.
  intros Hs H. pose proof (rtraces_spectrum m [2%nat] M lam H) as E. unfold rtraces, power_sums in E. cbn [map fold_right rpow] in E. rewrite !Rmult_1_r in E. rewrite <- E. apply SumTo_ext. intros x Hx. apply SumTo_ext. intros y Hy. f_equal.
  rewrite (SumTo_ext m _ (fun h => kron x h * M y h)) by (intros; rewrite kron_sym; ring). rewrite (pick m x (fun h => M y h) Hx). now apply Hs.
Qed.
