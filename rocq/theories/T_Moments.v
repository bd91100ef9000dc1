(** Property C153: the exact average of every product of power sums of the generated eigenvalues, the limit for large matrices, and the
    moments of the level density of unfold_goe. *)
From Coq Require Import List ZArith Bool Arith Lia Reals Lra.
From Coquelicot Require Import Coquelicot.
From Verif Require Import Base M_Generate M_Analytic S_Generate S_Normal S_Rotate S_Moments P_Generate P_Surmise P_Rotate T_Rotate P_Moments P_Fourth2 P_Loop P_Semi P_SemiBand.
Import ListNotations.
Local Open Scope R_scope.
Local Notation length := List.length.

(** C153. Full GOE matrices: over the n^2 draws, for every eigenvalue routine and every list of exponents. *)
Theorem C153_full : forall n (eig : (nat -> nat -> R) -> list R), (forall m, Symmetric n m -> Spectrum n m (eig m)) ->
  forall ks, NormalAverage (n * n) (fun draws => power_sums ks (eig (goe_matrix sqrt n draws))) (gaussian_average 1 n ks).
Proof.
  intros n eig He ks. refine (navg_ext _ _ _ _ _ (goe_traces n ks)). intros l _. destruct (He _ (goe_symmetric n l)) as (Hl & q & Hq & E).
  rewrite (traces_power n _ (eig (goe_matrix sqrt n l)) ks Hl); [reflexivity|]. exists (fun a c => RtoC (q a c)). split; [now apply real_unitary|].
  intros i j Hi Hj. now rewrite real_turn, E.
Qed.
Print Assumptions C153_full.

(** C153. GUE matrices. *)
Theorem C153_gue : forall n (eig : (nat -> nat -> R) -> (nat -> nat -> R) -> list R),
  (forall re im, Symmetric n re -> Antisymmetric n im -> CSpectrum n re im (eig re im)) ->
  forall ks, NormalAverage (2 * (n * n)) (fun draws => power_sums ks (eig (fun i j => fst (gue n draws i j)) (fun i j => snd (gue n draws i j)))) (gaussian_average 0 n ks).
Proof.
  intros n eig He ks. refine (navg_ext _ _ _ _ _ (gue_traces n ks)). intros l _. destruct (He (fun i j => fst (gue n l i j)) (fun i j => snd (gue n l i j))) as (Hl & u & Hu & E).
  - intros i j Hi Hj. rewrite (gue_conj n l j i) by assumption. reflexivity.
  - intros i j Hi Hj. rewrite (gue_conj n l j i) by assumption. reflexivity.
  - erewrite (traces_power n _ _ ks Hl); [reflexivity|]. exists u. split; [exact Hu|]. intros i j Hi Hj. rewrite <- E by assumption. apply surjective_pairing.
Qed.
Print Assumptions C153_gue.

(** C153. Odd total powers average to exactly zero; the first even ones as polynomials of the order. *)
Theorem C153_odd : forall b n ks, Nat.odd (fold_right Nat.add O ks) = true -> gaussian_average b n ks = 0.
Proof. intros b n ks H. now apply odd_average. Qed.
Print Assumptions C153_odd.
Theorem C153_values : forall n, let x := INR n in
  gaussian_average 1 n [2%nat] = x ^ 2 + x /\ gaussian_average 1 n [4%nat] = 2 * x ^ 3 + 5 * x ^ 2 + 5 * x /\
  gaussian_average 1 n [6%nat] = 5 * x ^ 4 + 22 * x ^ 3 + 52 * x ^ 2 + 41 * x /\ gaussian_average 1 n [2; 2]%nat = x ^ 4 + 2 * x ^ 3 + 5 * x ^ 2 + 4 * x /\
  gaussian_average 0 n [2%nat] = x ^ 2 /\ gaussian_average 0 n [4%nat] = 2 * x ^ 3 + x /\ gaussian_average 0 n [6%nat] = 5 * x ^ 4 + 10 * x ^ 2 /\
  gaussian_average 0 n [2; 2]%nat = x ^ 4 + 2 * x ^ 2.
Proof.
  intros n x. unfold gaussian_average. fold x. clearbody x.
  repeat split; unfold weight; cbn [fold_right List.length Nat.add]; cbn [loop_average SumTo picks map fst snd total fold_right Nat.add Nat.sub]; unfold total; cbn [map fst snd fold_right INR]; ring.
Qed.
Print Assumptions C153_values.

(** C153. Large matrices.  With the eigenvalues in units of sqrt n, the average of the mean k-th power tends to the k-th moment of the
    semicircle law of radius two: 0 for odd k, the Catalan number of k/2 for even k; and products of such means factorise. *)
Lemma limit_from b ks (v : nat -> R) : (forall n, v n = gaussian_average b n ks) ->
  is_lim_seq (fun n => v n / (sqrt (INR n) ^ fold_right Nat.add O ks * INR n ^ length ks)) (fold_right Rmult 1 (map semicircle_moment ks)).
Proof.
  intro H. apply is_lim_seq_incr_1. apply (is_lim_seq_ext (fun n => loop_average (S (weight ks)) b (INR (S n)) ks / side n ^ spread ks)).
  - intro n. rewrite H. unfold gaussian_average. f_equal. unfold spread, degree. rewrite pow_add, pow_mult. unfold side. do 2 f_equal. cbn [pow]. rewrite Rmult_1_r. apply sqrt_sqrt, pos_INR.
  - apply loop_limit. lia.
Qed.
Theorem C153_full_limit : forall (eig : nat -> (nat -> nat -> R) -> list R), (forall n m, Symmetric n m -> Spectrum n m (eig n m)) ->
  forall ks (v : nat -> R), (forall n, NormalAverage (n * n) (fun draws => power_sums ks (eig n (goe_matrix sqrt n draws))) (v n)) ->
  is_lim_seq (fun n => v n / (sqrt (INR n) ^ fold_right Nat.add O ks * INR n ^ length ks)) (fold_right Rmult 1 (map semicircle_moment ks)).
Proof. intros eig He ks v Hv. apply (limit_from 1). intro n. apply (navg_unique (n * n) (fun draws => power_sums ks (eig n (goe_matrix sqrt n draws)))); [apply Hv|]. apply C153_full. auto. Qed.
Print Assumptions C153_full_limit.
Theorem C153_gue_limit : forall (eig : nat -> (nat -> nat -> R) -> (nat -> nat -> R) -> list R),
  (forall n re im, Symmetric n re -> Antisymmetric n im -> CSpectrum n re im (eig n re im)) ->
  forall ks (v : nat -> R), (forall n, NormalAverage (2 * (n * n)) (fun draws => power_sums ks (eig n (fun i j => fst (gue n draws i j)) (fun i j => snd (gue n draws i j)))) (v n)) ->
  is_lim_seq (fun n => v n / (sqrt (INR n) ^ fold_right Nat.add O ks * INR n ^ length ks)) (fold_right Rmult 1 (map semicircle_moment ks)).
Proof.
  intros eig He ks v Hv. apply (limit_from 0). intro n. eapply (navg_unique (2 * (n * n))); [apply Hv|]. apply (C153_gue n (eig n)). auto.
Qed.
Print Assumptions C153_gue_limit.

(** C153. unfold_goe's density on its band |x| <= sqrt (2n) has the k-th moment n (sqrt (2n) / 2)^k times the same number: the
    semicircle of radius sqrt (2n).  The 2m-th power sum of the full matrices is 2^m times too large for it in the limit. *)
Theorem C153_band : forall n k, (0 < n)%nat ->
  is_RInt (fun x => x ^ k * goe_R1 n x) (- sqrt (2 * INR n)) (sqrt (2 * INR n)) (INR n * ((sqrt (2 * INR n) / 2) ^ k * semicircle_moment k)).
Proof. intros n k Hn. now apply band_moment. Qed.
Print Assumptions C153_band.
Theorem C153_ratio_refuted : forall (eig : nat -> (nat -> nat -> R) -> list R), (forall n m, Symmetric n m -> Spectrum n m (eig n m)) ->
  forall m (v : nat -> R), (forall n, NormalAverage (n * n) (fun draws => power_sum (2 * m) (eig n (goe_matrix sqrt n draws))) (v n)) ->
  is_lim_seq (fun n => v n / RInt (fun x => x ^ (2 * m) * goe_R1 n x) (- sqrt (2 * INR n)) (sqrt (2 * INR n))) (2 ^ m).
Proof.
  intros eig He m v Hv. assert (forall n, NormalAverage (n * n) (fun draws => power_sums [(2 * m)%nat] (eig n (goe_matrix sqrt n draws))) (v n)) as Hv'.
  { intro n. refine (navg_ext _ _ _ _ _ (Hv n)). intros l _. unfold power_sums. cbn [map fold_right]. ring. }
  pose proof (C153_full_limit eig He _ v Hv') as H. cbn [fold_right map length] in H. rewrite semi_even, Nat.add_0_r, Rmult_1_r in H. apply is_lim_seq_incr_1. apply is_lim_seq_incr_1 in H.
  pose proof (catalan_pos m) as Hc. pose proof (is_lim_seq_scal_l _ (2 ^ m / catalan m) _ H) as HH. cbn [Rbar_mult Rbar_mult'] in HH.
  replace (2 ^ m) with (2 ^ m / catalan m * catalan m) by (field; lra). refine (is_lim_seq_ext _ _ _ _ HH). intro n.
  rewrite (is_RInt_unique (V := R_CompleteNormedModule) _ _ _ _ (band_moment (S n) (2 * m) ltac:(lia))), semi_even. rewrite !pow_mult. unfold Rdiv at 4.
  assert (0 < INR (S n)) as Hn by (apply lt_0_INR; lia).
  assert (sqrt (INR (S n)) ^ 2 = INR (S n)) as -> by (cbn [pow]; rewrite Rmult_1_r; apply sqrt_sqrt; lra).
  assert ((sqrt (2 * INR (S n)) * / 2) ^ 2 = INR (S n) * / 2) as ->.
  { cbn [pow]. rewrite Rmult_1_r. replace (sqrt (2 * INR (S n)) * / 2 * (sqrt (2 * INR (S n)) * / 2)) with (sqrt (2 * INR (S n)) * sqrt (2 * INR (S n)) / 4) by field. rewrite sqrt_sqrt by lra. field. }
  rewrite Rpow_mult_distr, pow_inv. pose proof (pow_lt 2 m ltac:(lra)). pose proof (pow_lt _ m Hn). cbn [pow]. field. repeat split; lra.
Qed.
Print Assumptions C153_ratio_refuted.

(** At order two: the average of (sum of cubes)(sum) is 36, the average sum of sixth powers 546. *)
Example C153_ex : NormalAverage 4 (fun draws => power_sums [3; 1]%nat (ex_eig (goe_matrix sqrt 2 draws))) 36 /\ NormalAverage 4 (fun draws => power_sums [6%nat] (ex_eig (goe_matrix sqrt 2 draws))) 546.
Proof.
  split.
  - apply (navg_value _ _ (gaussian_average 1 2 [3; 1]%nat)); [|exact (C153_full 2 ex_eig ex_eig_ok [3; 1]%nat)]. unfold gaussian_average, weight. cbn. unfold total. cbn. ring.
  - apply (navg_value _ _ (gaussian_average 1 2 [6%nat])); [|exact (C153_full 2 ex_eig ex_eig_ok [6%nat])]. rewrite (proj1 (proj2 (proj2 (C153_values 2)))). cbn. ring.
Qed.
Example C153_limit_ex : is_lim_seq (fun n => gaussian_average 1 n [6%nat] / (sqrt (INR n) ^ 6 * INR n ^ 1)) 5 /\ is_lim_seq (fun n => gaussian_average 0 n [2; 2]%nat / (sqrt (INR n) ^ 4 * INR n ^ 2)) 1.
Proof.
  split.
  - pose proof (limit_from 1 [6%nat] (fun n => gaussian_average 1 n [6%nat]) (fun _ => eq_refl)) as H. cbn [fold_right map length Nat.add] in H. replace (semicircle_moment 6 * 1) with 5 in H; [exact H|]. unfold semicircle_moment, catalan. cbn. field.
  - pose proof (limit_from 0 [2; 2]%nat (fun n => gaussian_average 0 n [2; 2]%nat) (fun _ => eq_refl)) as H. cbn [fold_right map length Nat.add] in H. replace (semicircle_moment 2 * (semicircle_moment 2 * 1)) with 1 in H; [exact H|]. unfold semicircle_moment, catalan. cbn. field.
Qed.
