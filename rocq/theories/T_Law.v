(** Property C154: the eigenvalues of large generated GOE and GUE matrices follow the semicircle law of radius 2 sqrt n, and what
    unfold_goe, whose band ends at sqrt (2n), therefore does to them. *)
From Coq Require Import List ZArith Bool Arith Lia Reals Lra Sorting.Permutation.
From Coquelicot Require Import Coquelicot.
From Verif Require Import Base M_Generate M_Analytic S_Generate S_Normal S_Rotate S_Moments S_Law P_Generate P_Surmise P_Rotate T_Rotate P_Moments P_Fourth2 P_Loop P_Semi P_SemiBand T_Moments P_Law P_LawUnfold P_Spectral3 P_Spectral4.
Import ListNotations.
Local Open Scope R_scope.
Local Notation length := List.length.

(** The eigenvalues of the full GOE matrix of order n, and of the GUE matrix. *)
Definition goe_levels (eig : nat -> (nat -> nat -> R) -> list R) (n : nat) (draws : list R) : list R := eig n (goe_matrix sqrt n draws).
Definition gue_levels (eig : nat -> (nat -> nat -> R) -> (nat -> nat -> R) -> list R) (n : nat) (draws : list R) : list R :=
  eig n (fun i j => fst (gue n draws i j)) (fun i j => snd (gue n draws i j)).
Lemma goe_levels_length eig : (forall n m, Symmetric n m -> Spectrum n m (eig n m)) -> forall n l, length (goe_levels eig n l) = n.
Proof. intros H n l. apply (H n _ (goe_symmetric n l)). Qed.
Lemma gue_levels_length eig : (forall n re im, Symmetric n re -> Antisymmetric n im -> CSpectrum n re im (eig n re im)) -> forall n l, length (gue_levels eig n l) = n.
Proof.
  intros H n l. apply (H n (fun i j => fst (gue n l i j)) (fun i j => snd (gue n l i j))); intros i j Hi Hj; rewrite (gue_conj n l j i) by assumption; reflexivity.
Qed.
Lemma law_limit b ks : is_lim_seq (fun n => gaussian_average b n ks / (sqrt (INR n) ^ fold_right Nat.add O ks * INR n ^ length ks)) (fold_right Rmult 1 (map semicircle_moment ks)).
Proof. now apply (limit_from b). Qed.
Lemma mass_value t s : is_RInt semicircle (-2) t s -> mass t = s.
Proof. intro H. exact (is_RInt_unique (V := R_CompleteNormedModule) _ _ _ _ H). Qed.

(** C154. Full GOE matrices: the average share of levels below t sqrt n, with or without those at the bound, tends to the area s of the
    semicircle law below t; and the mean square distance of the share from s tends to zero. *)
Theorem C154_full : forall (eig : nat -> (nat -> nat -> R) -> list R), (forall n m, Symmetric n m -> Spectrum n m (eig n m)) ->
  forall t s, is_RInt semicircle (-2) t s -> forall e, 0 < e -> exists N, forall n, (N <= n)%nat ->
  AverageWithin (n * n) (fun draws => count_le (t * sqrt (INR n)) (goe_levels eig n draws) / INR n) (s - e) (s + e) /\
  AverageWithin (n * n) (fun draws => count_lt (t * sqrt (INR n)) (goe_levels eig n draws) / INR n) (s - e) (s + e) /\
  exists h w, (forall draws, length draws = (n * n)%nat -> (count_le (t * sqrt (INR n)) (goe_levels eig n draws) / INR n - s) ^ 2 <= h draws) /\ NormalAverage (n * n) h w /\ w <= e.
Proof.
  intros eig He t s Hs e Hp. apply mass_value in Hs. subst s.
  assert (forall ks n, NormalAverage (n * n) (fun l => power_sums ks (goe_levels eig n l)) (gaussian_average 1 n ks)) as A by (intros ks n; apply (C153_full n (eig n)); auto).
  destruct (count_mean (fun n => n * n)%nat (goe_levels eig) (fun ks n => gaussian_average 1 n ks) A (law_limit 1) t (fun n l => count_le (t * sqrt (INR n)) (goe_levels eig n l)) ltac:(intros; split; [apply count_lt_le|lra]) e Hp) as (N1 & H1).
  destruct (count_mean (fun n => n * n)%nat (goe_levels eig) (fun ks n => gaussian_average 1 n ks) A (law_limit 1) t (fun n l => count_lt (t * sqrt (INR n)) (goe_levels eig n l)) ltac:(intros; split; [lra|apply count_lt_le]) e Hp) as (N2 & H2).
  destruct (count_square (fun n => n * n)%nat (goe_levels eig) (fun ks n => gaussian_average 1 n ks) A (law_limit 1) t (fun n l => count_le (t * sqrt (INR n)) (goe_levels eig n l)) ltac:(intros; split; [apply count_lt_le|lra]) e Hp) as (N3 & H3).
  exists (N1 + N2 + N3)%nat. intros n Hn. split; [apply H1; lia|]. split; [apply H2; lia|apply H3; lia].
Qed.
Print Assumptions C154_full.

(** C154. GUE matrices: the same law. *)
Theorem C154_gue : forall (eig : nat -> (nat -> nat -> R) -> (nat -> nat -> R) -> list R),
  (forall n re im, Symmetric n re -> Antisymmetric n im -> CSpectrum n re im (eig n re im)) ->
  forall t s, is_RInt semicircle (-2) t s -> forall e, 0 < e -> exists N, forall n, (N <= n)%nat ->
  AverageWithin (2 * (n * n)) (fun draws => count_le (t * sqrt (INR n)) (gue_levels eig n draws) / INR n) (s - e) (s + e) /\
  AverageWithin (2 * (n * n)) (fun draws => count_lt (t * sqrt (INR n)) (gue_levels eig n draws) / INR n) (s - e) (s + e) /\
  exists h w, (forall draws, length draws = (2 * (n * n))%nat -> (count_le (t * sqrt (INR n)) (gue_levels eig n draws) / INR n - s) ^ 2 <= h draws) /\ NormalAverage (2 * (n * n)) h w /\ w <= e.
Proof.
  intros eig He t s Hs e Hp. apply mass_value in Hs. subst s.
  assert (forall ks n, NormalAverage (2 * (n * n)) (fun l => power_sums ks (gue_levels eig n l)) (gaussian_average 0 n ks)) as A by (intros ks n; apply (C153_gue n (eig n)); auto).
  destruct (count_mean (fun n => 2 * (n * n))%nat (gue_levels eig) (fun ks n => gaussian_average 0 n ks) A (law_limit 0) t (fun n l => count_le (t * sqrt (INR n)) (gue_levels eig n l)) ltac:(intros; split; [apply count_lt_le|lra]) e Hp) as (N1 & H1).
  destruct (count_mean (fun n => 2 * (n * n))%nat (gue_levels eig) (fun ks n => gaussian_average 0 n ks) A (law_limit 0) t (fun n l => count_lt (t * sqrt (INR n)) (gue_levels eig n l)) ltac:(intros; split; [lra|apply count_lt_le]) e Hp) as (N2 & H2).
  destruct (count_square (fun n => 2 * (n * n))%nat (gue_levels eig) (fun ks n => gaussian_average 0 n ks) A (law_limit 0) t (fun n l => count_le (t * sqrt (INR n)) (gue_levels eig n l)) ltac:(intros; split; [apply count_lt_le|lra]) e Hp) as (N3 & H3).
  exists (N1 + N2 + N3)%nat. intros n Hn. split; [apply H1; lia|]. split; [apply H2; lia|apply H3; lia].
Qed.
Print Assumptions C154_gue.

(** C154 (refuted). unfold_goe of such spectra: the share of unfolded values equal to 0 exactly, and of those equal to n exactly, both tend
    to 1/4 - 1/(2 pi), about one level in eleven each: these levels are no longer distinguished.  *)
Theorem C154_unfold_refuted : forall (eig : nat -> (nat -> nat -> R) -> list R), (forall n m, Symmetric n m -> Spectrum n m (eig n m)) ->
  forall u : nat -> list R -> list R, (forall n draws, (0 < n)%nat -> length draws = (n * n)%nat -> unfold_goe (goe_levels eig n draws) = Ok (u n draws)) ->
  forall e, 0 < e -> exists N, forall n, (N <= n)%nat ->
  AverageWithin (n * n) (fun draws => count_eq 0 (u n draws) / INR n) (1 / 4 - 1 / (2 * PI) - e) (1 / 4 - 1 / (2 * PI) + e) /\
  AverageWithin (n * n) (fun draws => count_eq (INR n) (u n draws) / INR n) (1 / 4 - 1 / (2 * PI) - e) (1 / 4 - 1 / (2 * PI) + e).
Proof.
  intros eig He u Hu e Hp.
  assert (forall ks n, NormalAverage (n * n) (fun l => power_sums ks (goe_levels eig n l)) (gaussian_average 1 n ks)) as A by (intros ks n; apply (C153_full n (eig n)); auto).
  destruct (collapse_low (fun n => n * n)%nat (goe_levels eig) (fun n l _ => goe_levels_length eig He n l) (fun ks n => gaussian_average 1 n ks) A (law_limit 1) u e Hu Hp) as (N1 & H1).
  destruct (collapse_high (fun n => n * n)%nat (goe_levels eig) (fun n l _ => goe_levels_length eig He n l) (fun ks n => gaussian_average 1 n ks) A (law_limit 1) u e Hu Hp) as (N2 & H2).
  exists (N1 + N2)%nat. intros n Hn. split; [apply H1; lia|apply H2; lia].
Qed.
Print Assumptions C154_unfold_refuted.
Theorem C154_gue_unfold_refuted : forall (eig : nat -> (nat -> nat -> R) -> (nat -> nat -> R) -> list R),
  (forall n re im, Symmetric n re -> Antisymmetric n im -> CSpectrum n re im (eig n re im)) ->
  forall u : nat -> list R -> list R, (forall n draws, (0 < n)%nat -> length draws = (2 * (n * n))%nat -> unfold_goe (gue_levels eig n draws) = Ok (u n draws)) ->
  forall e, 0 < e -> exists N, forall n, (N <= n)%nat ->
  AverageWithin (2 * (n * n)) (fun draws => count_eq 0 (u n draws) / INR n) (1 / 4 - 1 / (2 * PI) - e) (1 / 4 - 1 / (2 * PI) + e) /\
  AverageWithin (2 * (n * n)) (fun draws => count_eq (INR n) (u n draws) / INR n) (1 / 4 - 1 / (2 * PI) - e) (1 / 4 - 1 / (2 * PI) + e).
Proof.
  intros eig He u Hu e Hp.
  assert (forall ks n, NormalAverage (2 * (n * n)) (fun l => power_sums ks (gue_levels eig n l)) (gaussian_average 0 n ks)) as A by (intros ks n; apply (C153_gue n (eig n)); auto).
  destruct (collapse_low (fun n => 2 * (n * n))%nat (gue_levels eig) (fun n l _ => gue_levels_length eig He n l) (fun ks n => gaussian_average 0 n ks) A (law_limit 0) u e Hu Hp) as (N1 & H1).
  destruct (collapse_high (fun n => 2 * (n * n))%nat (gue_levels eig) (fun n l _ => gue_levels_length eig He n l) (fun ks n => gaussian_average 0 n ks) A (law_limit 0) u e Hu Hp) as (N2 & H2).
  exists (N1 + N2)%nat. intros n Hn. split; [apply H1; lia|apply H2; lia].
Qed.
Print Assumptions C154_gue_unfold_refuted.

(** C154. Dividing the levels of the full GOE matrix by sqrt 2 first puts them in the band: the share of unfolded values up to y n then tends to y. *)
Theorem C154_scaled : forall (eig : nat -> (nat -> nat -> R) -> list R), (forall n m, Symmetric n m -> Spectrum n m (eig n m)) ->
  forall u : nat -> list R -> list R, (forall n draws, (0 < n)%nat -> length draws = (n * n)%nat -> unfold_goe (map (fun x => x / sqrt 2) (goe_levels eig n draws)) = Ok (u n draws)) ->
  forall y, 0 <= y < 1 -> forall e, 0 < e -> exists N, forall n, (N <= n)%nat -> AverageWithin (n * n) (fun draws => count_le (y * INR n) (u n draws) / INR n) (y - e) (y + e).
Proof.
  intros eig He u Hu y Hy e Hp.
  assert (forall ks n, NormalAverage (n * n) (fun l => power_sums ks (goe_levels eig n l)) (gaussian_average 1 n ks)) as A by (intros ks n; apply (C153_full n (eig n)); auto).
  exact (uniform (fun n => n * n)%nat (goe_levels eig) (fun n l _ => goe_levels_length eig He n l) (fun ks n => gaussian_average 1 n ks) A (law_limit 1) u y e Hu Hy Hp).
Qed.
Print Assumptions C154_scaled.

(** Half of the levels of a large GOE matrix lie below zero, and more than one in twelve are unfolded to exactly zero: for the routine of C155. *)
Lemma sorted_real n m : Symmetric n m -> Spectrum n m (sorted_eigs n m (fun _ _ => 0)).
Proof. intro H. destruct (spectrum_exists n m H) as (l & Hl). rewrite (sorted_eigs_eq _ _ _ l (spectrum_cspectrum _ _ _ Hl)). exact (spectrum_perm n m l _ (P_Draw.sort_perm l) Hl). Qed.
Lemma sorted_complex n re im : Symmetric n re -> Antisymmetric n im -> CSpectrum n re im (sorted_eigs n re im).
Proof. intros S A. destruct (cspectrum_exists n re im S A) as (l & Hl). rewrite (sorted_eigs_eq _ _ _ l Hl). exact (cspectrum_perm n re im l _ (P_Draw.sort_perm l) Hl). Qed.
Lemma half_mass : is_RInt semicircle (-2) 0 (1 / 2).
Proof.
  pose proof PI_RGT_0. pose proof (RInt_correct (V := R_CompleteNormedModule) _ _ _ (semicircle_ex (-2) 0)) as H0. change (is_RInt semicircle (-2) 0 (mass 0)) in H0.
  pose proof (mass_sin 0 ltac:(lra)) as E. rewrite sin_0, Rmult_0_r in E. rewrite E in H0. replace (1 / 2) with (1 / 2 + (0 + 0 * cos 0) / PI); [exact H0|]. field. lra.
Qed.
Definition ex_unfolded (n : nat) (draws : list R) : list R := match unfold_goe (goe_levels (fun n m => sorted_eigs n m (fun _ _ => 0)) n draws) with Ok u => u | Raise _ => [] end.
Example C154_ex : (exists N, forall n, (N <= n)%nat -> AverageWithin (n * n) (fun draws => count_lt 0 (goe_levels (fun n m => sorted_eigs n m (fun _ _ => 0)) n draws) / INR n) (49 / 100) (51 / 100)) /\
  (exists N, forall n, (N <= n)%nat -> AverageWithin (2 * (n * n)) (fun draws => count_le 0 (gue_levels sorted_eigs n draws) / INR n) (49 / 100) (51 / 100)) /\
  (exists N, forall n, (N <= n)%nat -> exists s, 1 / 12 <= s /\ AverageWithin (n * n) (fun draws => count_eq 0 (ex_unfolded n draws) / INR n) s (1 / 4)).
Proof.
  split; [|split].
  - destruct (C154_full (fun n m => sorted_eigs n m (fun _ _ => 0)) sorted_real 0 (1 / 2) half_mass (1 / 100) ltac:(lra)) as (N & H). exists N. intros n Hn. destruct (H n Hn) as (_ & H2 & _). rewrite Rmult_0_l in H2.
    replace (49 / 100) with (1 / 2 - 1 / 100) by field. replace (51 / 100) with (1 / 2 + 1 / 100) by field. exact H2.
  - destruct (C154_gue sorted_eigs sorted_complex 0 (1 / 2) half_mass (1 / 100) ltac:(lra)) as (N & H). exists N. intros n Hn. destruct (H n Hn) as (H1 & _ & _). rewrite Rmult_0_l in H1.
    replace (49 / 100) with (1 / 2 - 1 / 100) by field. replace (51 / 100) with (1 / 2 + 1 / 100) by field. exact H1.
  - pose proof PI2_3_2 as HP. unfold PI2 in HP. assert (1 / 12 < 1 / 4 - 1 / (2 * PI) < 1 / 4) as [P1 P2].
    { assert (0 < / (2 * PI) < / 6) by (split; [apply Rinv_0_lt_compat; lra|apply Rinv_lt_contravar; lra]). lra. }
    assert (exists e, 0 < e /\ e <= 1 / 4 - 1 / (2 * PI) - 1 / 12 /\ e <= 1 / (2 * PI)) as (e & E0 & E1 & E2).
    { exists (Rmin (1 / 4 - 1 / (2 * PI) - 1 / 12) (1 / (2 * PI))). split; [apply Rmin_case; lra|]. split; [apply Rmin_l|apply Rmin_r]. }
    destruct (C154_unfold_refuted (fun n m => sorted_eigs n m (fun _ _ => 0)) sorted_real ex_unfolded) with (e := e) as (N & H).
    + intros n l Hn Hl. unfold ex_unfolded. pose proof (goe_levels_length _ sorted_real n l) as L. destruct (goe_levels _ n l) as [|x t]; [cbn in L; lia|]. reflexivity.
    + exact E0.
    + exists N. intros n Hn. exists (1 / 4 - 1 / (2 * PI) - e). split; [lra|]. destruct (proj1 (H n Hn)) as (g & h & a & b & G1 & G2 & G3 & G4 & G5). exists g, h, a, b. repeat split; try assumption; try apply G1; try assumption. lra.
Qed.
