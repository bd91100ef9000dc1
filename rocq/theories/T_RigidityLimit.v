(** Property C127: the sampled rigidity tends to the exact one as the grid is refined. *)
From Coq Require Import List ZArith Bool Arith Lia QArith Reals Lra.
From Coquelicot Require Import Coquelicot.
From Verif Require Import Base S_Order S_EigVals S_Trim M_Step M_Quad S_Quad S_Rigidity P_Order P_Step P_EigVals P_TrimStat P_Quad P_Ols P_Loops P_RigidityLimit P_RigidityFit T_RigidityMean.
Import ListNotations.
Local Open Scope R_scope.
Local Notation length := List.length.

(** C127. Every window has exactly one exact rigidity, the least mean squared distance of the staircase from a line. *)
Theorem C127_exact : forall (u : list R) c L, 0 < L -> exists e, ExactRigidity u c L e /\ 0 <= e /\ forall e', ExactRigidity u c L e' -> e' = e.
Proof.
  intros u c L HL. exists (D u c L (A0 u c L) (B0 u c L)). split; [exact (exact u c L HL)|]. split; [|intros e' He; now apply exact_unique].
  apply (Rmult_le_reg_l L); [exact HL|]. rewrite Rmult_0_r. pose proof (D_dev u c L HL (A0 u c L) (B0 u c L)) as H.
  apply (is_RInt_ge_0 _ (c - L / 2) (c + L / 2) _ ltac:(lra) H). intros x _. apply pow2_ge_0.
Qed.
Print Assumptions C127_exact.

(** C127. With n >= 3 grid points the value sampled at c is within 160 N^2 / (n - 1) of the exact rigidity of that window, N being the number
    of levels in it, with either quadrature rule. *)
Theorem C127_rate : forall simpson n L (u : list R) c e0 e, 0 < L -> (3 <= n)%nat -> Ascending u -> head_opt u = Some e0 -> c + L / 2 <> e0 ->
  ExactRigidity u c L e -> exists d, d3_sample simpson n L u c = Done d /\
    Rabs (d - e) <= 160 * (IZR (CountLe u (c + L / 2) - CountLe u (c - L / 2))) ^ 2 / (INR n - 1).
Proof.
  intros simpson n L u c e0 e HL Hn Hu He0 Hne He. apply (exact_unique u c L HL) in He. subst e.
  assert (Hue : u <> []) by (intros ->; discriminate). destruct (d3_defined simpson n L u c Hue ltac:(lia)) as (d & Hd). exists d. split; [exact Hd|].
  pose proof (d3_inv simpson n L u c d Hd ltac:(lia)) as (counts & Hc & Ed).
  rewrite (step_fast_sorted u _ e0 (c + L / 2) (notnan_R _) (notnan_R _) Hu) in Hc; [|apply even_ascending; [lra|lia]|exact He0|apply even_last; lia].
  replace (neq (c + L / 2) e0) with false in Hc by (symmetry; cbn; destruct Req_EM_T; [contradiction|reflexivity]). injection Hc as <-.
  rewrite map_map in Ed. rewrite Ed, minus_IZR. exact (near_exact u c L HL n Hn simpson).
Qed.
Print Assumptions C127_rate.

(** C127. So the sampled values tend to the exact rigidity as the grid is refined. *)
Theorem C127_limit : forall simpson L (u : list R) c e0 e (d : nat -> R), 0 < L -> Ascending u -> head_opt u = Some e0 -> c + L / 2 <> e0 ->
  ExactRigidity u c L e -> (forall n, (3 <= n)%nat -> d3_sample simpson n L u c = Done (d n)) -> is_lim_seq d e.
Proof.
  intros simpson L u c e0 e d HL Hu He0 Hne He Hd. set (K := 160 * (IZR (CountLe u (c + L / 2) - CountLe u (c - L / 2))) ^ 2).
  assert (B : forall n, (3 <= n)%nat -> Rabs (d n - e) <= K * / (INR n - 1)).
  { intros n Hn. destruct (C127_rate simpson n L u c e0 e HL Hn Hu He0 Hne He) as (d' & E & B). rewrite Hd in E by exact Hn. injection E as <-. exact B. }
  assert (Z : is_lim_seq (fun n => K * / (INR n - 1)) 0).
  { replace (Finite 0) with (Rbar_mult K 0) by (cbn; f_equal; ring). apply is_lim_seq_scal_l. apply (is_lim_seq_inv _ p_infty); [|discriminate].
    apply (is_lim_seq_minus _ _ p_infty 1); [apply is_lim_seq_INR|apply is_lim_seq_const|reflexivity]. }
  apply (is_lim_seq_le_le_loc (fun n => e - K * / (INR n - 1)) d (fun n => e + K * / (INR n - 1))).
  - exists 3%nat. intros n Hn. specialize (B n Hn). apply Rabs_le_between in B. lra.
  - replace (Finite e) with (Finite (e - 0)) by (f_equal; ring). apply is_lim_seq_minus'; [apply is_lim_seq_const|exact Z].
  - replace (Finite e) with (Finite (e + 0)) by (f_equal; ring). apply is_lim_seq_plus'; [apply is_lim_seq_const|exact Z].
Qed.
Print Assumptions C127_limit.

Lemma countle_bounds (u : list R) x : (0 <= CountLe u x <= Z.of_nat (length u))%Z.
Proof. induction u as [|e u IH]; cbn [CountLe length]; [lia|]. destruct (nle e x); lia. Qed.

(** C127. The exact rigidity is an integrable function of the centre, and the average of the sampled value over all centres in the range of the levels
    (what the Monte-Carlo loop estimates) is within 160 (number of levels)^2 / (n - 1) of the average of the exact rigidity. *)
Theorem C127_average : forall simpson L (u : list R) lo hi, 0 < L -> Ascending u -> head_opt u = Some lo -> last_opt u = Some hi -> lo < hi ->
  exists E, (forall c, ExactRigidity u c L (E c)) /\ ex_RInt E lo hi /\
    forall n S, (3 <= n)%nat -> (forall c, d3_sample simpson n L u c = Done (S c)) ->
      Rabs (RInt S lo hi / (hi - lo) - RInt E lo hi / (hi - lo)) <= 160 * INR (length u) ^ 2 / (INR n - 1).
Proof.
  intros simpson L u lo hi HL Hu Hlo Hhi Hlh. set (E := fun c => D u c L (A0 u c L) (B0 u c L)).
  assert (HE : forall c, ExactRigidity u c L (E c)) by (intro c; exact (exact u c L HL)).
  assert (Hue : u <> []) by (intros ->; discriminate). set (K := 160 * INR (length u) ^ 2). assert (K0 : 0 <= K) by (unfold K; pose proof (pow2_ge_0 (INR (length u))); lra).
  assert (B : forall n S, (3 <= n)%nat -> (forall c, d3_sample simpson n L u c = Done (S c)) -> forall c, lo <= c <= hi -> Rabs (S c - E c) <= K / (INR n - 1)).
  { intros n S Hn HS c Hc. destruct (C127_rate simpson n L u c lo (E c) HL Hn Hu Hlo ltac:(lra) (HE c)) as (d & Ed & Bd). rewrite HS in Ed. injection Ed as <-.
    eapply Rle_trans; [exact Bd|]. apply le_INR in Hn. cbn in Hn. apply Rmult_le_compat_r; [left; apply Rinv_0_lt_compat; lra|]. unfold K. apply Rmult_le_compat_l; [lra|].
    pose proof (countle_bounds u (c + L / 2)) as B1. pose proof (stair_mono u (c - L / 2) (c + L / 2) ltac:(lra)) as B3. pose proof (countle_bounds u (c - L / 2)) as B2. unfold stair in B3. apply le_IZR in B3.
    apply pow_incr. split; [apply IZR_le; lia|]. rewrite INR_IZR_INZ. apply IZR_le. lia. }
  assert (XE : ex_RInt E lo hi).
  { set (trunc := fun (f : R -> R) c => if Rle_dec lo c then if Rle_dec c hi then f c else 0 else 0).
    set (S := fun n c => match d3_sample simpson (n + 3) L u c with Done d => d | _ => 0 end).
    assert (HS : forall n c, d3_sample simpson (n + 3) L u c = Done (S n c)).
    { intros n c. unfold S. destruct (d3_defined simpson (n + 3) L u c Hue ltac:(lia)) as (d & ->). reflexivity. }
    assert (IS : forall n, is_RInt (trunc (S n)) lo hi (RInt (S n) lo hi)).
    { intro n. destruct (C122_integrable simpson (n + 3) L u Hue Hu ltac:(lia) HL) as (D' & HD' & Hex). assert (ex_RInt (S n) lo hi) as X.
      { apply (ex_RInt_ext D'); [|apply Hex]. intros x _. specialize (HS n x). specialize (HD' x). congruence. }
      apply (is_RInt_ext (S n)); [|apply (RInt_correct (V := R_CompleteNormedModule)); exact X]. rewrite Rmin_left, Rmax_right by lra. intros x Hx. unfold trunc. destruct (Rle_dec lo x), (Rle_dec x hi); lra || reflexivity. }
    destruct (filterlim_RInt (V := R_CompleteNormedModule) (fun n => trunc (S n)) lo hi eventually eventually_filter (trunc E) (fun n => RInt (S n) lo hi)) as (If & _ & HIf).
    - exact IS.
    - apply filterlim_locally. intros (eps & Heps).
      destruct (archimed_cor1 (eps / (K + 1)) ltac:(apply Rdiv_lt_0_compat; lra)) as (m & Hm & Hm0). exists m. intros n Hn c.
      unfold ball; cbn; unfold AbsRing_ball; cbn. change (Rabs (trunc (S n) c - trunc E c) < eps). unfold trunc. destruct (Rle_dec lo c); [destruct (Rle_dec c hi)|]; try (rewrite Rminus_0_r, Rabs_R0; exact Heps).
      eapply Rle_lt_trans; [apply (B (n + 3)%nat (S n) ltac:(lia) (HS n) c ltac:(lra))|].
      assert (Pm : 0 < INR m) by (apply lt_0_INR; lia). assert (Q : INR m <= INR (n + 3) - 1). { rewrite plus_INR. cbn. apply le_INR in Hn. lra. }
      apply Rle_lt_trans with (K * / INR m); [apply Rmult_le_compat_l; [exact K0|apply Rinv_le_contravar; lra]|].
      apply Rle_lt_trans with ((K + 1) * / INR m); [apply Rmult_le_compat_r; [left; now apply Rinv_0_lt_compat|lra]|].
      apply (Rmult_lt_compat_l (K + 1)) in Hm; [|lra]. replace ((K + 1) * (eps / (K + 1))) with eps in Hm by (field; lra). exact Hm.
    - exists If. eapply is_RInt_ext; [|exact HIf]. rewrite Rmin_left, Rmax_right by lra. intros x Hx. unfold trunc. destruct (Rle_dec lo x), (Rle_dec x hi); lra || reflexivity. }
  exists E. split; [exact HE|]. split; [exact XE|]. intros n S Hn HS.
  assert (XS : ex_RInt S lo hi).
  { destruct (C122_integrable simpson n L u Hue Hu ltac:(lia) HL) as (D' & HD' & Hex). apply (ex_RInt_ext D'); [|apply Hex]. intros x _. specialize (HS x). specialize (HD' x). congruence. }
  pose proof (is_RInt_minus (V := R_NormedModule) S E lo hi _ _ (RInt_correct (V := R_CompleteNormedModule) S lo hi XS) (RInt_correct (V := R_CompleteNormedModule) E lo hi XE)) as J.
  pose proof (norm_RInt_le_const (V := R_NormedModule) _ lo hi _ (K / (INR n - 1)) ltac:(lra) (B n S Hn HS) J) as N.
  change (Rabs (RInt S lo hi - RInt E lo hi) <= (hi - lo) * (K / (INR n - 1))) in N. set (a := RInt S lo hi) in *. set (b := RInt E lo hi) in *.
  change (Rabs ((a : R) / (hi - lo) - (b : R) / (hi - lo)) <= K / (INR n - 1)). clearbody a b. cbn in a, b.
  replace (a / (hi - lo) - b / (hi - lo)) with ((a - b) * / (hi - lo)) by (field; lra). rewrite Rabs_mult, (Rabs_pos_eq (/ (hi - lo))) by (left; apply Rinv_0_lt_compat; lra).
  apply (Rmult_le_reg_r (hi - lo)); [lra|]. rewrite Rmult_assoc, Rinv_l, Rmult_1_r by lra. lra.
Qed.
Print Assumptions C127_average.

(** One level in the middle of a window of length 2: the exact rigidity is 1/16, and with 101 points both rules are within 1/60 of it (exact rationals). *)
Lemma one_level A B : MeanSqDev [0] 0 2 A B (1 / 16 + (A - 3 / 4) ^ 2 / 3 + (B - 1 / 2) ^ 2).
Proof.
  unfold MeanSqDev. replace (0 - 2 / 2) with (-1) by lra. replace (0 + 2 / 2) with 1 by lra.
  pose proof (int_quadratic (A * A) (2 * A * B) (B * B) (-1) 0) as J1. pose proof (int_quadratic (A * A) (2 * A * (B - 1)) ((B - 1) * (B - 1)) 0 1) as J2.
  assert (K1 : is_RInt (fun x => (IZR (CountLe [0] x) - (A * x + B)) ^ 2) (-1) 0 (A * A / 3 - A * B + B * B)).
  { match type of J1 with is_RInt _ _ _ ?v => replace v with (A * A / 3 - A * B + B * B) in J1 by field end.
    eapply is_RInt_ext; [|exact J1]. rewrite Rmin_left, Rmax_right by lra. intros x Hx. cbn [CountLe]. cbn. destruct (Rle_dec 0 x); [lra|]. change (0 + 0)%Z with 0%Z. ring. }
  assert (K2 : is_RInt (fun x => (IZR (CountLe [0] x) - (A * x + B)) ^ 2) 0 1 (A * A / 3 + A * (B - 1) + (B - 1) * (B - 1))).
  { match type of J2 with is_RInt _ _ _ ?v => replace v with (A * A / 3 + A * (B - 1) + (B - 1) * (B - 1)) in J2 by field end.
    eapply is_RInt_ext; [|exact J2]. rewrite Rmin_left, Rmax_right by lra. intros x Hx. cbn [CountLe]. cbn. destruct (Rle_dec 0 x); [|lra]. change (1 + 0)%Z with 1%Z. ring. }
  pose proof (is_RInt_Chasles (V := R_NormedModule) _ _ _ _ _ _ K1 K2) as K. match type of K with is_RInt _ _ _ ?v => replace v with (2 * (1 / 16 + (A - 3 / 4) ^ 2 / 3 + (B - 1 / 2) ^ 2)) in K end; [exact K|].
  unfold plus. cbn. field.
Qed.
Example C127_case : ExactRigidity [0] 0 2 (1 / 16) /\
  (exists d d', d3_sample true 101 2%Q [0%Q] 0%Q = Done d /\ d3_sample false 101 2%Q [0%Q] 0%Q = Done d' /\
    (1 # 16 < d)%Q /\ (d < (1 # 16) + (1 # 60))%Q /\ (1 # 16 < d')%Q /\ (d' < (1 # 16) + (1 # 60))%Q).
Proof.
  split.
  - split; [exists (3 / 4), (1 / 2); pose proof (one_level (3 / 4) (1 / 2)) as H; replace (1 / 16 + (3 / 4 - 3 / 4) ^ 2 / 3 + (1 / 2 - 1 / 2) ^ 2) with (1 / 16) in H by field; exact H|].
    intros A B d H. pose proof (one_level A B) as H'. apply (is_RInt_unique (V := R_CompleteNormedModule)) in H, H'. rewrite H in H'.
    pose proof (pow2_ge_0 (A - 3 / 4)). pose proof (pow2_ge_0 (B - 1 / 2)). lra.
  - do 2 eexists. split; [vm_compute; reflexivity|]. split; [vm_compute; reflexivity|]. repeat split; reflexivity.
Qed.
