(** The moments of the level density of unfold_goe. *)
From Coq Require Import List ZArith Bool Arith Lia Reals Lra.
From Coquelicot Require Import Coquelicot.
From Verif Require Import Base M_Analytic S_Generate S_Moments P_Generate P_Analytic P_Semi.
Local Open Scope R_scope.

Lemma semi_step k : (INR k + 4) * semicircle_moment (S (S k)) = 4 * (INR k + 1) * semicircle_moment k.
Proof.
  destruct (Nat.Even_or_Odd k) as [(m & ->)|(m & E)].
  - replace (S (S (2 * m))) with (2 * S m)%nat by lia. rewrite !semi_even, mult_INR. cbn [INR]. pose proof (catalan_S m). lra.
  - replace k with (S (2 * m)) by lia. replace (S (S (S (2 * m)))) with (S (2 * S m)) by lia. rewrite !semi_odd. ring.
Qed.
Lemma sin_moment k : is_RInt (fun t => sin t ^ k * (cos t * cos t)) (- (PI / 2)) (PI / 2) (PI / 2 * (semicircle_moment k / 2 ^ k)).
Proof.
  assert (forall t, continuous sin t) as CS by (intro; apply continuous_sin). assert (forall t, continuous cos t) as CC by (intro; apply continuous_cos).
  assert (is_RInt (fun t => sin t ^ k * (cos t * cos t)) (- (PI / 2)) (PI / 2) (PI / 2 * (semicircle_moment k / 2 ^ k)) /\
    is_RInt (fun t => sin t ^ S k * (cos t * cos t)) (- (PI / 2)) (PI / 2) (PI / 2 * (semicircle_moment (S k) / 2 ^ S k))) as [H _]; [|exact H].
  induction k as [|k [I0 I1]].
  - split.
    + rewrite semi_0. pose (F := fun t => (t + sin t * cos t) / 2). replace (PI / 2 * (1 / 2 ^ 0)) with (F (PI / 2) - F (- (PI / 2))).
      * apply (is_RInt_ext (fun t => cos t * cos t)); [intros; cbn; ring|]. apply (is_RInt_derive (V := R_CompleteNormedModule) F).
        -- intros t _. unfold F. auto_derive; [exact I|]. pose proof (sin2_cos2 t) as K. unfold Rsqr in K. match goal with |- ?l = _ => replace l with (/ 2 * (1 + cos t * cos t - sin t * sin t)) by field end. replace (sin t * sin t) with (1 - cos t * cos t) by lra. field.
        -- intros t _. apply (ex_derive_continuous (V := R_NormedModule)). auto_derive. exact I.
      * unfold F. rewrite sin_neg, cos_neg, sin_PI2, cos_PI2. cbn [pow]. field.
    + replace (semicircle_moment 1) with 0 by reflexivity. pose (F := fun t => - (cos t ^ 3) / 3). replace (PI / 2 * (0 / 2 ^ 1)) with (F (PI / 2) - F (- (PI / 2))).
      * apply (is_RInt_derive (V := R_CompleteNormedModule) F).
        -- intros t _. unfold F. auto_derive; [exact I|]. cbn [pow]. field.
        -- intros t _. apply (ex_derive_continuous (V := R_NormedModule)). auto_derive. exact I.
      * unfold F. rewrite cos_neg, cos_PI2. cbn [pow]. field.
  - split; [exact I1|]. pose (F := fun t => sin t ^ S k * cos t ^ 3).
    assert (is_RInt (fun t => (cos t * cos t) * (INR (S k) * sin t ^ k - (INR k + 4) * sin t ^ S (S k))) (- (PI / 2)) (PI / 2) 0) as HF.
    { assert (0 = F (PI / 2) - F (- (PI / 2))) as ->.
      2:{
      apply (is_RInt_derive (V := R_CompleteNormedModule) F).
        + intros t _. unfold F. auto_derive; [exact I|]. pose proof (sin2_cos2 t) as K. unfold Rsqr in K. rewrite S_INR. cbn [pow pred].
          match goal with |- ?l = ?r => replace l with ((cos t * cos t) * ((INR k + 1) * sin t ^ k * (cos t * cos t) - 3 * (sin t * sin t) * sin t ^ k)) by (destruct k; cbn [INR pow]; ring) end.
          replace (cos t * cos t) with (1 - sin t * sin t) at 2 by lra. ring.
        + intros t _. apply (ex_derive_continuous (V := R_NormedModule)). auto_derive. exact I. }
      unfold F. rewrite cos_neg, cos_PI2. cbn [pow]. ring. }
    pose proof (pos_INR k) as Hk.
    pose proof (is_RInt_scal (V := R_NormedModule) _ _ _ (/ (INR k + 4)) _ (is_RInt_minus (V := R_NormedModule) _ _ _ _ _ _ (is_RInt_scal (V := R_NormedModule) _ _ _ (INR (S k)) _ I0) HF)) as H.
    match type of H with is_RInt _ _ _ ?v => replace v with (PI / 2 * (semicircle_moment (S (S k)) / 2 ^ S (S k))) in H end.
    + revert H. apply is_RInt_ext. intros t _. unfold scal, minus, plus, opp. cbn -[pow INR]. unfold mult. cbn -[pow INR]. cbn [pow]. rewrite S_INR. field. lra.
    + unfold scal, minus, plus, opp. cbn -[pow INR]. unfold mult. cbn -[pow INR]. pose proof (semi_step k) as E. rewrite S_INR.
      replace (semicircle_moment (S (S k))) with (4 * (INR k + 1) * semicircle_moment k / (INR k + 4)) by (rewrite <- E; field; lra). cbn [pow]. pose proof (pow_lt 2 k ltac:(lra)). field. split; lra.
Qed.
Lemma band_moment n k : (0 < n)%nat -> is_RInt (fun x => x ^ k * goe_R1 n x) (- sqrt (2 * INR n)) (sqrt (2 * INR n)) (INR n * ((sqrt (2 * INR n) / 2) ^ k * semicircle_moment k)).
Proof.
  intro Hn. set (a := sqrt (2 * INR n)). pose proof (a_sq n Hn) as Ha2. pose proof (a_pos n Hn) as Ha. fold a in Ha2, Ha. pose proof PI_RGT_0 as HPI.
  assert (forall x, continuous (fun x => x ^ k * goe_R1 n x) x) as HC.
  { intro x. apply (continuous_mult (K := R_AbsRing) (fun x => x ^ k) (goe_R1 n)); [|now apply R1_continuous]. apply (ex_derive_continuous (V := R_NormedModule)). auto_derive. exact I. }
  assert (is_RInt (fun t => scal (a * cos t) ((fun x => x ^ k * goe_R1 n x) (a * sin t))) (- (PI / 2)) (PI / 2)
    (RInt (fun x => x ^ k * goe_R1 n x) (a * sin (- (PI / 2))) (a * sin (PI / 2)))) as HS.
  { apply (is_RInt_comp (V := R_CompleteNormedModule) (fun x => x ^ k * goe_R1 n x) (fun t => a * sin t) (fun t => a * cos t)).
    - intros t _. apply HC.
    - intros t _. split; [auto_derive; [exact I|ring]|]. apply (continuous_mult (K := R_AbsRing) (fun _ => a) cos); [apply continuous_const|apply continuous_cos]. }
  rewrite sin_neg, sin_PI2 in HS. replace (a * - (1)) with (- a) in HS by ring. rewrite Rmult_1_r in HS.
  assert (is_RInt (fun t => scal (a * cos t) ((fun x => x ^ k * goe_R1 n x) (a * sin t))) (- (PI / 2)) (PI / 2) (INR n * ((a / 2) ^ k * semicircle_moment k))) as HV.
  { pose proof (is_RInt_scal (V := R_NormedModule) _ _ _ (a * a * a ^ k / PI) _ (sin_moment k)) as H.
    match type of H with is_RInt _ _ _ ?v => replace v with (INR n * ((a / 2) ^ k * semicircle_moment k)) in H end.
    - revert H. apply is_RInt_ext. intros t Ht. rewrite Rmin_left, Rmax_right in Ht by lra. unfold scal. cbn -[pow]. unfold mult. cbn -[pow]. rewrite (R1_eq n Hn).
      assert (0 <= cos t) as Hc by (apply cos_ge_0; lra). replace (2 * INR n - a * sin t * (a * sin t)) with (a * cos t * (a * cos t)).
      + rewrite sqrt_square by nra. rewrite Rpow_mult_distr. field. lra.
      + rewrite <- Ha2. pose proof (sin2_cos2 t) as K. unfold Rsqr in K.
        replace (a * cos t * (a * cos t)) with (a * a * (cos t * cos t)) by ring. replace (cos t * cos t) with (1 - sin t * sin t) by lra. ring.
    - unfold scal. cbn -[pow]. unfold mult. cbn -[pow]. rewrite Ha2. unfold Rdiv at 1. rewrite Rpow_mult_distr, pow_inv. pose proof (pow_lt 2 k ltac:(lra)). field. split; lra. }
  pose proof (is_RInt_unique (V := R_CompleteNormedModule) _ _ _ _ HS) as E1. rewrite (is_RInt_unique (V := R_CompleteNormedModule) _ _ _ _ HV) in E1. rewrite E1.
  apply (RInt_correct (V := R_CompleteNormedModule)), (ex_RInt_continuous (V := R_CompleteNormedModule)). intros x _. apply HC.
Qed.
