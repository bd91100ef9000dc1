(** Property C157: the tridiagonal generator replaces the full one, divided by sqrt 2: exactly the same averages of all products of power sums
    of the eigenvalues, hence the semicircle law of the band of unfold_goe and asymptotically uniform unfolded values. *)
From Coq Require Import List ZArith Bool Arith Lia Reals Lra Sorting.Permutation.
From Coquelicot Require Import Coquelicot.
From Verif Require Import Base M_Generate M_Analytic S_Generate S_Normal S_Rotate S_Moments S_Law P_Generate P_Analytic P_Surmise P_Rotate T_Rotate P_Moments P_Fourth2 P_Loop P_Semi P_SemiBand T_Moments P_Law P_LawUnfold P_Spectral3 P_Spectral4 T_Law P_Wick P_House P_Tridiag.
Import ListNotations.
Local Open Scope R_scope.
Local Notation length := List.length.

Lemma power_sum_scale k c l : power_sum k (map (fun x => c * x) l) = c ^ k * power_sum k l.
Proof. unfold power_sum, total. induction l as [|x l IH]; cbn [map fold_right]; [ring|]. rewrite IH, Rpow_mult_distr. ring. Qed.
Lemma power_sums_scale ks c l : power_sums ks (map (fun x => c * x) l) = c ^ fold_right Nat.add O ks * power_sums ks l.
Proof. unfold power_sums. induction ks as [|k ks IH]; cbn [map fold_right pow]; [ring|]. rewrite IH, power_sum_scale, pow_add. ring. Qed.
Lemma root2_pos : 0 < sqrt 2. Proof. apply sqrt_lt_R0. lra. Qed.

(** C157. The average over the normal numbers behind the tridiagonal generator of any product of power sums of its eigenvalues. *)
Theorem C157_averages : forall n (eig : (nat -> nat -> R) -> list R), (forall m, Symmetric n m -> Spectrum n m (eig m)) ->
  forall ks, NormalAverage (n + n * (n - 1) / 2) (fun z => power_sums ks (eig (tri_draws n z))) (gaussian_average 1 n ks / sqrt 2 ^ fold_right Nat.add O ks).
Proof.
  intros n eig He ks. refine (navg_ext _ _ _ _ _ (tri_draws_average n ks)). intros z _. apply rtraces_spectrum, He, tri_draws_symmetric.
Qed.
Print Assumptions C157_averages.

(** C157. It is the average over the full generator for the levels divided by sqrt 2: one exists, with a given value, exactly when the other does. *)
Theorem C157_same : forall n (eig : (nat -> nat -> R) -> list R), (forall m, Symmetric n m -> Spectrum n m (eig m)) ->
  forall ks v, NormalAverage (n * n) (fun draws => power_sums ks (map (fun x => x / sqrt 2) (eig (goe_matrix sqrt n draws)))) v <->
               NormalAverage (n + n * (n - 1) / 2) (fun z => power_sums ks (eig (tri_draws n z))) v.
Proof.
  intros n eig He ks v. set (w := gaussian_average 1 n ks / sqrt 2 ^ fold_right Nat.add O ks).
  assert (NormalAverage (n * n) (fun draws => power_sums ks (map (fun x => x / sqrt 2) (eig (goe_matrix sqrt n draws)))) w) as A.
  { unfold w, Rdiv at 2. rewrite Rmult_comm, <- pow_inv. apply (navg_ext _ (fun draws => (/ sqrt 2) ^ fold_right Nat.add O ks * power_sums ks (eig (goe_matrix sqrt n draws)))).
    - intros l _. rewrite <- power_sums_scale. f_equal. apply map_ext. intro x. unfold Rdiv. ring.
    - apply navg_scale. now apply C153_full. }
  pose proof (C157_averages n eig He ks) as B. fold w in B. split; intro H.
  - rewrite (navg_unique _ _ _ _ H A). exact B.
  - rewrite (navg_unique _ _ _ _ H B). exact A.
Qed.
Print Assumptions C157_same.

(** The eigenvalues of the tridiagonal matrix of order n. *)
Definition tri_levels (eig : nat -> (nat -> nat -> R) -> list R) (n : nat) (z : list R) : list R := eig n (tri_draws n z).
Definition wide (eig : nat -> (nat -> nat -> R) -> list R) (n : nat) (z : list R) : list R := map (fun x => sqrt 2 * x) (tri_levels eig n z).
Lemma wide_length eig : (forall n m, Symmetric n m -> Spectrum n m (eig n m)) -> forall n l, length (wide eig n l) = n.
Proof. intros H n l. unfold wide. rewrite map_length. apply (H n _ (tri_draws_symmetric n l)). Qed.
Lemma wide_average eig : (forall n m, Symmetric n m -> Spectrum n m (eig n m)) -> forall ks n, NormalAverage (n + n * (n - 1) / 2) (fun l => power_sums ks (wide eig n l)) (gaussian_average 1 n ks).
Proof.
  intros He ks n. pose proof root2_pos as P. pose proof (pow_lt _ (fold_right Nat.add O ks) P) as Q.
  apply (navg_value _ _ (sqrt 2 ^ fold_right Nat.add O ks * (gaussian_average 1 n ks / sqrt 2 ^ fold_right Nat.add O ks))); [field; lra|].
  apply (navg_ext _ (fun z => sqrt 2 ^ fold_right Nat.add O ks * power_sums ks (eig n (tri_draws n z)))); [intros l _; unfold wide; now rewrite power_sums_scale|].
  apply navg_scale, C157_averages. auto.
Qed.
Lemma wide_back eig n l : map (fun x => x / sqrt 2) (wide eig n l) = tri_levels eig n l.
Proof. unfold wide. rewrite map_map. rewrite <- (map_id (tri_levels eig n l)) at 2. apply map_ext. intro x. field. pose proof root2_pos. lra. Qed.
Lemma wide_count_le eig n l t : count_le (t * sqrt (INR n)) (wide eig n l) = count_le (t / 2 * sqrt (2 * INR n)) (tri_levels eig n l).
Proof.
  unfold count_le, wide. rewrite map_map. f_equal. apply map_ext. intro x. rewrite root_edge. pose proof root2_pos as P. pose proof P_Generate.sqrt2_sq as S2.
  assert (t / 2 * (sqrt 2 * sqrt (INR n)) = t * sqrt (INR n) / sqrt 2) as ->.
  { replace (t / 2) with (t / (sqrt 2 * sqrt 2)) by (now rewrite S2). field. lra. }
  destruct (Rle_dec (sqrt 2 * x) (t * sqrt (INR n))) as [H|H], (Rle_dec x (t * sqrt (INR n) / sqrt 2)) as [G|G]; try reflexivity; exfalso.
  - apply G. apply (Rmult_le_reg_l (sqrt 2)); [exact P|]. replace (sqrt 2 * (t * sqrt (INR n) / sqrt 2)) with (t * sqrt (INR n)) by (field; lra). exact H.
  - apply H. apply (Rmult_le_compat_l (sqrt 2)) in G; [|lra]. replace (sqrt 2 * (t * sqrt (INR n) / sqrt 2)) with (t * sqrt (INR n)) in G by (field; lra). exact G.
Qed.

(** C157. The share of the levels below the fraction t/2 of the edge sqrt (2n) of the band of unfold_goe tends to the area s of the semicircle of
    radius two below t, on average and in mean square. *)
Theorem C157_law : forall (eig : nat -> (nat -> nat -> R) -> list R), (forall n m, Symmetric n m -> Spectrum n m (eig n m)) ->
  forall t s, is_RInt semicircle (-2) t s -> forall e, 0 < e -> exists N, forall n, (N <= n)%nat ->
  AverageWithin (n + n * (n - 1) / 2) (fun z => count_le (t / 2 * sqrt (2 * INR n)) (tri_levels eig n z) / INR n) (s - e) (s + e) /\
  exists h w, (forall z, length z = (n + n * (n - 1) / 2)%nat -> (count_le (t / 2 * sqrt (2 * INR n)) (tri_levels eig n z) / INR n - s) ^ 2 <= h z) /\ NormalAverage (n + n * (n - 1) / 2) h w /\ w <= e.
Proof.
  intros eig He t s Hs e Hp. apply mass_value in Hs. subst s.
  assert (forall n z, (0 < n)%nat -> length z = (n + n * (n - 1) / 2)%nat -> count_lt (t * sqrt (INR n)) (wide eig n z) <= count_le (t / 2 * sqrt (2 * INR n)) (tri_levels eig n z) <= count_le (t * sqrt (INR n)) (wide eig n z)) as C.
  { intros n z _ _. rewrite <- wide_count_le. split; [apply count_lt_le|lra]. }
  destruct (count_mean (fun n => n + n * (n - 1) / 2)%nat (wide eig) (fun ks n => gaussian_average 1 n ks) (wide_average eig He) (law_limit 1) t (fun n l => count_le (t / 2 * sqrt (2 * INR n)) (tri_levels eig n l)) C e Hp) as (N1 & H1).
  destruct (count_square (fun n => n + n * (n - 1) / 2)%nat (wide eig) (fun ks n => gaussian_average 1 n ks) (wide_average eig He) (law_limit 1) t (fun n l => count_le (t / 2 * sqrt (2 * INR n)) (tri_levels eig n l)) C e Hp) as (N2 & H2).
  exists (N1 + N2)%nat. intros n Hn. split; [apply H1; lia|apply H2; lia].
Qed.
Print Assumptions C157_law.

(** C157. unfold_goe of these spectra: the share of unfolded values up to y n tends to y, on average. *)
Theorem C157_unfold : forall (eig : nat -> (nat -> nat -> R) -> list R), (forall n m, Symmetric n m -> Spectrum n m (eig n m)) ->
  forall u : nat -> list R -> list R, (forall n z, (0 < n)%nat -> length z = (n + n * (n - 1) / 2)%nat -> unfold_goe (tri_levels eig n z) = Ok (u n z)) ->
  forall y, 0 <= y < 1 -> forall e, 0 < e -> exists N, forall n, (N <= n)%nat -> AverageWithin (n + n * (n - 1) / 2) (fun z => count_le (y * INR n) (u n z) / INR n) (y - e) (y + e).
Proof.
  intros eig He u Hu y Hy e Hp.
  refine (uniform (fun n => n + n * (n - 1) / 2)%nat (wide eig) (fun n l _ => wide_length eig He n l) (fun ks n => gaussian_average 1 n ks) (wide_average eig He) (law_limit 1) u y e _ Hy Hp).
  intros n l Hn Hl. rewrite wide_back. now apply Hu.
Qed.
Print Assumptions C157_unfold.

(** C157. The moments of the level density of unfold_goe are asymptotically those of the tridiagonal spectra, for every even exponent. *)
Theorem C157_density : forall (eig : nat -> (nat -> nat -> R) -> list R), (forall n m, Symmetric n m -> Spectrum n m (eig n m)) ->
  forall m (v : nat -> R), (forall n, NormalAverage (n + n * (n - 1) / 2) (fun z => power_sum (2 * m) (tri_levels eig n z)) (v n)) ->
  is_lim_seq (fun n => v n / RInt (fun x => x ^ (2 * m) * goe_R1 n x) (- sqrt (2 * INR n)) (sqrt (2 * INR n))) 1.
Proof.
  intros eig He m v Hv. pose proof (pow_lt 2 m ltac:(lra)) as P2.
  assert (forall n, NormalAverage (n * n) (fun draws => power_sum (2 * m) (eig n (goe_matrix sqrt n draws))) (2 ^ m * v n)) as Hw.
  { intro n. assert (NormalAverage (n + n * (n - 1) / 2) (fun z => power_sums [(2 * m)%nat] (eig n (tri_draws n z))) (v n)) as V by (refine (navg_ext _ _ _ _ _ (Hv n)); intros l _; unfold power_sums; cbn [map fold_right]; unfold tri_levels; ring).
    pose proof (navg_unique _ _ _ _ V (C157_averages n (eig n) (He n) [(2 * m)%nat])) as E. cbn [fold_right] in E. rewrite Nat.add_0_r, pow_mult in E.
    replace (sqrt 2 ^ 2) with 2 in E by (cbn [pow]; rewrite Rmult_1_r; symmetry; apply sqrt_sqrt; lra). rewrite E.
    apply (navg_value _ _ (gaussian_average 1 n [(2 * m)%nat])); [field; lra|]. refine (navg_ext _ _ _ _ _ (C153_full n (eig n) (He n) [(2 * m)%nat])). intros l _. unfold power_sums. cbn [map fold_right]. ring. }
  pose proof (is_lim_seq_scal_l _ (/ 2 ^ m) _ (C153_ratio_refuted eig He m _ Hw)) as L. cbn [Rbar_mult Rbar_mult'] in L. replace (/ 2 ^ m * 2 ^ m) with 1 in L by (field; lra).
  refine (is_lim_seq_ext _ _ _ _ L). intro n. unfold Rdiv. rewrite Rmult_assoc, <- (Rmult_assoc (/ 2 ^ m)). rewrite Rinv_l by lra. ring.
Qed.
Print Assumptions C157_density.

(** At order two the average sum of sixth powers is 546 / 8; for the routine of C155 half of the levels are below zero and half of the unfolded values below n/2, in the limit. *)
Definition ex_tri_unfolded (n : nat) (z : list R) : list R := match unfold_goe (tri_levels (fun n m => sorted_eigs n m (fun _ _ => 0)) n z) with Ok u => u | Raise _ => [] end.
Example C157_ex : NormalAverage 3 (fun z => power_sums [6%nat] (ex_eig (tri_draws 2 z))) (273 / 4) /\
  (exists N, forall n, (N <= n)%nat -> AverageWithin (n + n * (n - 1) / 2) (fun z => count_le (0 / 2 * sqrt (2 * INR n)) (tri_levels (fun n m => sorted_eigs n m (fun _ _ => 0)) n z) / INR n) (49 / 100) (51 / 100)) /\
  (exists N, forall n, (N <= n)%nat -> AverageWithin (n + n * (n - 1) / 2) (fun z => count_le (1 / 2 * INR n) (ex_tri_unfolded n z) / INR n) (49 / 100) (51 / 100)).
Proof.
  replace (49 / 100) with (1 / 2 - 1 / 100) by field. replace (51 / 100) with (1 / 2 + 1 / 100) by field. split; [|split].
  - apply (navg_value _ _ (gaussian_average 1 2 [6%nat] / sqrt 2 ^ 6)); [|exact (C157_averages 2 ex_eig ex_eig_ok [6%nat])].
    rewrite (proj1 (proj2 (proj2 (C153_values 2)))). replace (sqrt 2 ^ 6) with ((sqrt 2 * sqrt 2) ^ 3) by ring. rewrite sqrt_sqrt by lra. cbn. field.
  - destruct (C157_law (fun n m => sorted_eigs n m (fun _ _ => 0)) sorted_real 0 (1 / 2) half_mass (1 / 100) ltac:(lra)) as (N & H). exists N. intros n Hn. exact (proj1 (H n Hn)).
  - apply (C157_unfold (fun n m => sorted_eigs n m (fun _ _ => 0)) sorted_real); try lra. intros n l Hn Hl. unfold ex_tri_unfolded.
    assert (length (tri_levels (fun n m => sorted_eigs n m (fun _ _ => 0)) n l) = n) as L by (apply (sorted_real n _ (tri_draws_symmetric n l))). destruct (tri_levels _ n l) as [|x t]; [cbn in L; lia|]. reflexivity.
Qed.
