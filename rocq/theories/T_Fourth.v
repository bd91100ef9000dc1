(** Property C151: the average sums of fourth powers of the generated eigenvalues, and of the level density of unfold_goe. *)
From Coq Require Import List ZArith Bool Arith Lia Reals Lra.
From Coquelicot Require Import Coquelicot.
From Verif Require Import Base M_Generate M_Analytic S_Generate S_Normal S_Rotate S_Fourth P_Generate P_Analytic P_Surmise P_Rotate T_Rotate P_Moments P_Wishart P_Fourth P_Fourth2.
Import ListNotations.
Local Open Scope R_scope.

(** C151. The full GOE matrix: over its n^2 draws and for every eigenvalue routine. *)
Theorem C151_full : forall n (eig : (nat -> nat -> R) -> list R), (forall m, Symmetric n m -> Spectrum n m (eig m)) ->
  NormalAverage (n * n) (fun draws => fourths (eig (goe_matrix sqrt n draws))) (2 * INR n ^ 3 + 5 * INR n ^ 2 + 5 * INR n).
Proof.
  intros n eig He. refine (navg_ext _ _ _ _ _ (full_fourths n)). intros l _. symmetry. apply spectrum_fourths, He, goe_symmetric.
Qed.
Print Assumptions C151_full.

(** C151. The tridiagonal matrix: exactly a quarter of that, the fourth power of the scale between the two generators. *)
Theorem C151_tridiagonal : forall n (eig : (nat -> nat -> R) -> list R), (forall m, Symmetric n m -> Spectrum n m (eig m)) ->
  NormalAverage (n + n * (n - 1) / 2) (fun z => fourths (eig (tri_draws n z))) ((2 * INR n ^ 3 + 5 * INR n ^ 2 + 5 * INR n) / 4).
Proof.
  intros n eig He. refine (navg_ext _ _ _ _ _ (tri_fourths n)). intros l _. symmetry. apply spectrum_fourths, He, tri_draws_symmetric.
Qed.
Print Assumptions C151_tridiagonal.

(** C151. The GUE matrix. *)
Theorem C151_gue : forall n (eig : (nat -> nat -> R) -> (nat -> nat -> R) -> list R),
  (forall re im, Symmetric n re -> Antisymmetric n im -> CSpectrum n re im (eig re im)) ->
  NormalAverage (2 * (n * n)) (fun draws => fourths (eig (fun i j => fst (gue n draws i j)) (fun i j => snd (gue n draws i j)))) (2 * INR n ^ 3 + INR n).
Proof.
  intros n eig He. refine (navg_ext _ _ _ _ _ (gue_fourths n)). intros l _. symmetry. cbv zeta. apply cspectrum_fourths, He.
  - intros i j Hi Hj. rewrite (gue_conj n l j i) by assumption. reflexivity.
  - intros i j Hi Hj. rewrite (gue_conj n l j i) by assumption. reflexivity.
Qed.
Print Assumptions C151_gue.

(** C151. The level density of unfold_goe: n^3/2, always below the tridiagonal average and asymptotically equal to it. *)
Lemma band_fourths n : (0 < n)%nat -> is_RInt (fun x => x ^ 4 * goe_R1 n x) (- sqrt (2 * INR n)) (sqrt (2 * INR n)) (INR n ^ 3 / 2).
Proof.
  intro Hn. set (a := sqrt (2 * INR n)). pose proof (a_sq n Hn) as Ha2. pose proof (a_pos n Hn) as Ha. fold a in Ha2, Ha. pose proof PI_RGT_0 as HPI.
  assert (forall x, continuous (fun x => x ^ 4 * goe_R1 n x) x) as HC.
  { intro x. apply (continuous_mult (K := R_AbsRing) (fun x => x ^ 4) (goe_R1 n)); [|now apply R1_continuous]. apply (ex_derive_continuous (V := R_NormedModule)). auto_derive. exact I. }
  assert (is_RInt (fun t => scal (a * cos t) ((fun x => x ^ 4 * goe_R1 n x) (a * sin t))) (- (PI / 2)) (PI / 2)
    (RInt (fun x => x ^ 4 * goe_R1 n x) (a * sin (- (PI / 2))) (a * sin (PI / 2)))) as HS.
  { apply (is_RInt_comp (V := R_CompleteNormedModule) (fun x => x ^ 4 * goe_R1 n x) (fun t => a * sin t) (fun t => a * cos t)).
    - intros t _. apply HC.
    - intros t _. split; [auto_derive; [exact I|ring]|]. apply (continuous_mult (K := R_AbsRing) (fun _ => a) cos); [apply continuous_const|apply continuous_cos]. }
  rewrite sin_neg, sin_PI2 in HS. replace (a * - (1)) with (- a) in HS by ring. rewrite Rmult_1_r in HS.
  assert (is_RInt (fun t => scal (a * cos t) ((fun x => x ^ 4 * goe_R1 n x) (a * sin t))) (- (PI / 2)) (PI / 2) (INR n ^ 3 / 2)) as HV.
  { pose (F := fun t => (a * a) ^ 3 / (16 * PI) * (t - sin t * cos t * (1 + 2 / 3 * sin t ^ 2 - 8 / 3 * sin t ^ 4))).
    apply (is_RInt_ext (fun t => (a * a) ^ 3 / PI * (sin t ^ 4 * (cos t * cos t)))).
    - intros t Ht. rewrite Rmin_left, Rmax_right in Ht by lra. unfold scal. cbn -[pow]. unfold mult. cbn -[pow]. rewrite (R1_eq n Hn).
      assert (0 <= cos t) as Hc by (apply cos_ge_0; lra). replace (2 * INR n - a * sin t * (a * sin t)) with (a * cos t * (a * cos t)).
      + rewrite sqrt_square by nra. field. lra.
      + rewrite <- Ha2. pose proof (sin2_cos2 t) as K. unfold Rsqr in K.
        replace (a * cos t * (a * cos t)) with (a * a * (cos t * cos t)) by ring. replace (cos t * cos t) with (1 - sin t * sin t) by lra. ring.
    - replace (INR n ^ 3 / 2) with (F (PI / 2) - F (- (PI / 2))).
      2:{ unfold F. rewrite sin_neg, cos_neg, sin_PI2, cos_PI2. rewrite Ha2. field. lra. }
      apply (is_RInt_derive (V := R_CompleteNormedModule) F).
      + intros t _. unfold F. auto_derive; [exact I|]. pose proof (sin2_cos2 t) as K. unfold Rsqr in K.
        assert (cos t * cos t = 1 - sin t * sin t) as K2 by lra. set (s := sin t) in *. set (c := cos t) in *.
        match goal with |- ?l = ?r => replace l with ((a * a) ^ 3 / (16 * PI) * (1 - ((c * c - s * s) * (1 + 2 / 3 * s ^ 2 - 8 / 3 * s ^ 4) + s * (c * c) * (4 / 3 * s - 32 / 3 * s ^ 3)))) by (cbn [pow]; field; lra) end.
        rewrite K2. field. lra.
      + intros t _. apply (ex_derive_continuous (V := R_NormedModule)). auto_derive. exact I. }
  pose proof (is_RInt_unique (V := R_CompleteNormedModule) _ _ _ _ HS) as E1. rewrite (is_RInt_unique (V := R_CompleteNormedModule) _ _ _ _ HV) in E1. rewrite E1.
  apply (RInt_correct (V := R_CompleteNormedModule)), (ex_RInt_continuous (V := R_CompleteNormedModule)). intros x _. apply HC.
Qed.
Theorem C151_band : forall n, (0 < n)%nat ->
  let band := RInt (fun x => x ^ 4 * goe_R1 n x) (- sqrt (2 * INR n)) (sqrt (2 * INR n)) in
  let generated := (2 * INR n ^ 3 + 5 * INR n ^ 2 + 5 * INR n) / 4 in
  band = INR n ^ 3 / 2 /\ generated = (1 + 5 * (INR n + 1) / (2 * INR n ^ 2)) * band /\ band < generated.
Proof.
  intros n Hn band generated. assert (band = INR n ^ 3 / 2) as E by (apply (is_RInt_unique (V := R_CompleteNormedModule)), band_fourths, Hn).
  assert (0 < INR n) as Hp by now apply lt_0_INR. rewrite E. unfold generated. split; [reflexivity|]. split; [field; lra|].
  pose proof (pow_lt (INR n) 2 Hp). lra.
Qed.
Print Assumptions C151_band.

(** At order two: 46 for the full matrix, 23/2 for the tridiagonal one, 4 under the density; 3 for a single GUE level. *)
Example C151_ex :
  NormalAverage 4 (fun draws => fourths (ex_eig (goe_matrix sqrt 2 draws))) 46 /\
  NormalAverage 3 (fun z => fourths (ex_eig (tri_draws 2 z))) (23 / 2) /\
  RInt (fun x => x ^ 4 * goe_R1 2 x) (- sqrt (2 * INR 2)) (sqrt (2 * INR 2)) = 4.
Proof.
  split; [|split].
  - apply (navg_value _ _ (2 * INR 2 ^ 3 + 5 * INR 2 ^ 2 + 5 * INR 2)); [cbn; ring|]. exact (C151_full 2 ex_eig ex_eig_ok).
  - apply (navg_value _ _ ((2 * INR 2 ^ 3 + 5 * INR 2 ^ 2 + 5 * INR 2) / 4)); [cbn; field|]. exact (C151_tridiagonal 2 ex_eig ex_eig_ok).
  - rewrite (proj1 (C151_band 2 ltac:(lia))). cbn. field.
Qed.
Example C151_gue_ex : NormalAverage 2 (fun draws => fourths [fst (gue 1 draws 0%nat 0%nat)]) 3.
Proof.
  apply (navg_value _ _ (2 * INR 1 ^ 3 + INR 1)); [cbn; ring|]. apply (C151_gue 1 (fun re _ => [re 0%nat 0%nat])). intros re im Hr Hi. split; [reflexivity|].
  exists (fun _ _ => RtoC 1). split.
  - intros [|k] [|l] Hk Hl; try lia. unfold CSumTo, Cplus, Cmult, Cconj, RtoC; cbn; apply f_equal2; ring.
  - intros [|k] [|l] Hk Hl; try lia. assert (im 0%nat 0%nat = 0) as -> by (pose proof (Hi 0%nat 0%nat Hk Hl); lra).
    unfold cturn, CSumTo, Cplus, Cmult, Cconj, RtoC; cbn; apply f_equal2; ring.
Qed.
