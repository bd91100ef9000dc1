(** One sampled value of the rigidity in binary64: grid spacing, slope, squared deviations. *)
From Coq Require Import List ZArith Bool Reals Lra Lia Arith.
From Coq Require Import Floats.SpecFloat.
From Flocq Require Import Core BinarySingleNaN Relative.
From Verif Require Import Base S_Order M_Step M_Quad P_Order P_Step P_Float P_FloatGrid T_FloatGrid T_FloatGap P_FloatMean P_FloatKernel P_FloatSimps.
Import ListNotations.
Local Open Scope R_scope.
Local Notation length := List.length.
#[local] Existing Instance Hprec.
#[local] Existing Instance Hmax.
Local Notation addf := (SFadd b64_prec b64_emax).
Local Notation subf := (SFsub b64_prec b64_emax).
Local Notation mulf := (SFmul b64_prec b64_emax).
Local Notation divf := (SFdiv b64_prec b64_emax).
Local Notation OK x := (Valid x /\ Fin x).
Local Notation b2 e := (bpow radix2 e).
Local Notation z := b64_ofZ.
Local Notation u := (bpow radix2 (-53)).

Lemma u_tiny : 0 < u <= / 1000000.
Proof. split; [apply bpow_gt_0|]. apply Rle_trans with (b2 (-20)); [apply bp_mono; lia|change (b2 (-20)) with (/ 1048576); lra]. Qed.

(** ** The distance between neighbouring grid points *)
Section Spacing.
Variables (lo hi : b64) (n : nat) (M : R).
Hypothesis Vlo : Valid lo.
Hypothesis Vhi : Valid hi.
Hypothesis Flo : Fin lo.
Hypothesis Fhi : Fin hi.
Hypothesis Hn : (2 <= Z.of_nat n <= 2 ^ 50)%Z.
Hypothesis Blo : Rabs (val lo) <= b2 1000.
Hypothesis Bhi : Rabs (val hi) <= b2 1000.
Hypothesis HD : b2 (-900) <= val hi - val lo.
Hypothesis Mlo : Rabs (val lo) <= M.
Hypothesis Mhi : Rabs (val hi) <= M.
Local Notation D := (val hi - val lo).
Local Notation m := (IZR (Z.of_nat n - 1)).
Local Notation eta := (D / m).
Hypothesis Fine : 1024 * (u * M) <= eta.
Hypothesis Reta : b2 (-40) <= eta <= b2 40.
Lemma m_pos : 1 <= m.
Proof. apply IZR_le. lia. Qed.
Lemma step_near : eta * (1 - 3 * u) <= val (divf (subf hi lo) (z (Z.of_nat n - 1))) <= eta * (1 + 3 * u).
Proof.
  destruct (delta_ok lo hi n Vlo Vhi Flo Fhi Blo Bhi HD) as (_ & _ & D1 & D2). destruct (step_ok lo hi n Vlo Vhi Flo Fhi Hn Blo Bhi HD) as (_ & _ & E & _).
  pose proof m_pos as M1. pose proof u_tiny as (U0 & U1). pose proof (bpow_gt_0 radix2 (-900)) as P9. rewrite E. pose proof (bpow_gt_0 radix2 (-40)) as P40.
  assert (I : 0 < / m) by (apply Rinv_0_lt_compat; lra).
  assert (Q : eta * (1 - u) <= val (subf hi lo) / m <= eta * (1 + u)).
  { unfold Rdiv. split; [replace (D * / m * (1 - u)) with (D * (1 - u) * / m) by ring|replace (D * / m * (1 + u)) with (D * (1 + u) * / m) by ring]; apply Rmult_le_compat_r; lra. }
  destruct (rnd_rel (val (subf hi lo) / m)) as (R1 & R2).
  { apply Rle_trans with (b2 (-41)); [apply bp_mono; lia|]. apply Rle_trans with (eta * (1 - u)); [|apply Q]. change (-40)%Z with (-41 + 1)%Z in Reta, P40. rewrite b2_S in Reta, P40. nra. }
  split; nra.
Qed.
Lemma pt_err i : (i < n)%nat -> Rabs (val (pt lo hi n i) - (val lo + INR i * eta)) <= 10 / 1024 * eta.
Proof.
  intros Hi. pose proof m_pos as M1. pose proof u_tiny as (U0 & U1). pose proof (bpow_gt_0 radix2 (-40)) as P40. unfold pt. destruct (Nat.leb_spec n 1); [lia|].
  destruct (Nat.eqb_spec (S i) n) as [E|E].
  - replace (INR i) with m by (rewrite INR_IZR_INZ; f_equal; lia). replace (val hi - (val lo + m * eta)) with 0 by (field; lra). rewrite Rabs_R0. lra.
  - destruct (prod_ok lo hi n Vlo Vhi Flo Fhi Hn Blo Bhi HD i ltac:(lia)) as (_ & _ & Ep & P0 & P1). destruct (point_ok lo hi n Vlo Vhi Flo Fhi Hn Blo Bhi HD i ltac:(lia)) as (_ & _ & Ex & _).
    pose proof step_near as (S1 & S2). set (st := divf _ _) in *. rewrite Ep in P0, P1. rewrite Ex.
    assert (I1 : INR i <= m) by (rewrite INR_IZR_INZ; apply IZR_le; lia). pose proof (pos_INR i) as I0.
    assert (De : INR i * eta <= D). { apply Rle_trans with (m * eta); [apply Rmult_le_compat_r; lra|]. right. field. lra. }
    assert (DM : D <= 2 * M) by (iv Mlo; iv Mhi; lra). assert (M0 : 0 < M) by (pose proof (bpow_gt_0 radix2 (-900)); lra).
    set (t := INR i * eta) in *. assert (t0 : 0 <= t) by (unfold t; apply Rmult_le_pos; lra).
    assert (Is : t * (1 - 3 * u) <= INR i * val st <= t * (1 + 3 * u)).
    { unfold t. split; [replace (INR i * eta * (1 - 3 * u)) with (INR i * (eta * (1 - 3 * u))) by ring|replace (INR i * eta * (1 + 3 * u)) with (INR i * (eta * (1 + 3 * u))) by ring]; apply Rmult_le_compat_l; lra. }
    pose proof (rnd_any (INR i * val st)) as R1. set (p := rnd (INR i * val st)) in *. pose proof (rnd_any (val lo + p)) as R2.
    assert (T : b2 (-1075) <= u * M / 4).
    { apply Rle_trans with (b2 (-955) / 4); [change (-955)%Z with (-957 + 1 + 1)%Z; rewrite !b2_S; pose proof (bp_mono (-1075) (-957) ltac:(lia)); lra|].
      assert (b2 (-902) <= M) by (change (-900)%Z with (-902 + 1 + 1)%Z in HD; rewrite !b2_S in HD; pose proof (bpow_gt_0 radix2 (-902)); lra).
      change (-955)%Z with (-53 + -902)%Z. rewrite bpow_plus. assert (u * b2 (-902) <= u * M) by (apply Rmult_le_compat_l; lra). lra. }
    assert (A1 : Rabs (INR i * val st) <= 21 / 10 * M) by (rewrite Rabs_pos_eq by nra; nra).
    assert (A2 : Rabs (val lo + p) <= M) by (iv Mlo; iv Mhi; apply Rabs_le; lra).
    assert (R1' : Rabs (p - INR i * val st) <= u * (21 / 10 * M) + u * M / 4) by (pose proof (Rmult_le_compat_l u _ _ ltac:(lra) A1); lra).
    assert (R2' : Rabs (rnd (val lo + p) - (val lo + p)) <= u * M + u * M / 4) by (pose proof (Rmult_le_compat_l u _ _ ltac:(lra) A2); lra).
    assert (ut : t * u <= 2 * (u * M)) by nra.
    assert (S3 : Rabs (INR i * val st - t) <= 6 * (u * M)) by (apply Rabs_le; lra).
    iv R1'. iv R2'. iv S3. apply Rabs_le. lra.
Qed.
Lemma spacing_near i : (S i < n)%nat -> Near (subf (pt lo hi n (S i)) (pt lo hi n i)) (97 / 100) (103 / 100) eta.
Proof.
  intros Hi. pose proof (pt_err i ltac:(lia)) as E0. pose proof (pt_err (S i) Hi) as E1. rewrite S_INR in E1. iv E0. iv E1.
  destruct (pt_ok lo hi n Vlo Vhi Flo Fhi Hn Blo Bhi HD i ltac:(lia)) as (V0 & F0 & _). destruct (pt_ok lo hi n Vlo Vhi Flo Fhi Hn Blo Bhi HD (S i) Hi) as (V1 & F1 & _).
  pose proof (bpow_gt_0 radix2 (-40)) as P40. set (x0 := pt lo hi n i) in *. set (x1 := pt lo hi n (S i)) in *.
  destruct (near_rnd (98 / 100) (102 / 100) eta (val x1 - val x0)) as (R & B); [lra|lra| |lra|].
  { split; [eapply Rle_trans; [apply bp_mono|apply Reta]; lia|eapply Rle_trans; [apply Reta|apply bp_mono; lia]]. }
  destruct (sub_spec x1 x0 V1 V0 F1 F0) as (V & S & _). destruct (S B) as (F & E). split; [auto|]. rewrite E. lra.
Qed.
(** Two neighbours lie at least .97 apart, exactly. *)
Lemma spacing_low i : (S i < n)%nat -> 97 / 100 * eta <= val (pt lo hi n (S i)) - val (pt lo hi n i).
Proof.
  intros Hi. pose proof (pt_err i ltac:(lia)) as E0. pose proof (pt_err (S i) Hi) as E1. rewrite S_INR in E1. iv E0. iv E1. pose proof (bpow_gt_0 radix2 (-40)). lra.
Qed.
End Spacing.

(** ** Slope, intercept and squared deviations *)
Section Fit.
Variable eta : R.
Hypothesis Reta : b2 (-40) <= eta <= b2 40.
Variables (grid steps : list b64).
Hypothesis Hg : Forall (fun x => Bd x 68) grid.
Hypothesis Hs : Forall (fun x => Bd x 40) steps.
Hypothesis Lg : (2 <= Z.of_nat (length grid) <= 2 ^ 14)%Z.
Hypothesis Ls : length steps = length grid.
Variables x0 x1 : b64.
Hypothesis I0 : In x0 grid.
Hypothesis I1 : In x1 grid.
Hypothesis Gap : 97 / 100 * eta <= val x1 - val x0.
Lemma np_mul_Bd (a b : list b64) e f g : Forall (fun x => Bd x e) a -> Forall (fun x => Bd x f) b -> (e + f <= g)%Z -> (-1074 <= g <= 1000)%Z -> Forall (fun x => Bd x g) (np_mul a b).
Proof.
  intros Ha Hb He Hg'. unfold np_mul. apply Forall_map, Forall_forall. intros (x, y) Hp. rewrite Forall_forall in Ha, Hb.
  exact (proj1 (Bd_mul x y e f g (Ha x (in_combine_l _ _ _ _ Hp)) (Hb y (in_combine_r _ _ _ _ Hp)) He Hg')).
Qed.
Lemma np_mul_self (a : list b64) : np_mul a a = map (fun x => mulf x x) a.
Proof. unfold np_mul. induction a as [|x a IH]; [reflexivity|]. cbn [combine map]. f_equal. exact IH. Qed.
Lemma mean_x : Bd (nmean grid) 82.
Proof. apply (mean_Bd grid 68 14 82); auto; try lia. intros E. rewrite E in Lg. cbn in Lg. lia. Qed.
Lemma mean_y : Bd (nmean steps) 54.
Proof. apply (mean_Bd steps 40 14 54); auto; try lia. intros E. rewrite E in Ls. cbn in Ls. lia. Qed.
Lemma dev_x : Forall (fun x => Bd x 83) (map (fun v : b64 => subf v (nmean grid)) grid).
Proof. apply Forall_map. eapply Forall_impl; [|exact Hg]. cbv beta. intros x Hx. refine (proj1 (Bd_sub x (nmean grid) 68 82 83 Hx mean_x _ _ _)); lia. Qed.
Lemma dev_y : Forall (fun x => Bd x 55) (map (fun v : b64 => subf v (nmean steps)) steps).
Proof. apply Forall_map. eapply Forall_impl; [|exact Hs]. cbv beta. intros x Hx. refine (proj1 (Bd_sub x (nmean steps) 40 54 55 Hx mean_y _ _ _)); lia. Qed.
Lemma var_low : let v := nsum (np_mul (map (fun v : b64 => subf v (nmean grid)) grid) (map (fun v : b64 => subf v (nmean grid)) grid)) in OK v /\ b2 (-84) <= val v.
Proof.
  cbv zeta. rewrite np_mul_self, map_map. pose proof mean_x as Bm. pose proof (bpow_gt_0 radix2 (-40)) as P40.
  set (mu := nmean grid) in *. set (f := fun x : b64 => mulf (subf x mu) (subf x mu)).
  assert (F : forall x, In x grid -> (Bd (f x) 166 /\ 0 <= val (f x)) /\ val (f x) = rnd (rnd (val x - val mu) * rnd (val x - val mu))).
  { intros x Hx. rewrite Forall_forall in Hg. destruct (Bd_sub x mu 68 82 83 (Hg x Hx) Bm ltac:(lia) ltac:(lia) ltac:(lia)) as (B & E).
    destruct (Bd_mul _ _ 83 83 166 B B ltac:(lia) ltac:(lia)) as (B' & E'). unfold f. rewrite E', E. split; [split; [exact B'|]|reflexivity]. apply rnd_nonneg. apply Rle_0_sqr. }
  assert (A : Forall (fun x => Bd x 166 /\ 0 <= val x) (map f grid)) by (apply Forall_map, Forall_forall; intros x Hx; apply F; exact Hx).
  assert (A' : Forall (fun x => Bd x 166) (map f grid)) by (eapply Forall_impl; [|exact A]; cbv beta; tauto).
  change (nsum (map f grid)) with (fold_left addf (map f grid) (z 0)).
  pose proof (fold_Cnt (map f grid) (z 0) 0 166 A' (Cnt_0 166) ltac:(rewrite map_length; cbn [Nat.add]; lia) ltac:(lia)) as (O & _).
  destruct (fold_nonneg (map f grid) (z 0) 0 166 A (Cnt_0 166) ltac:(rewrite map_length; cbn [Nat.add]; lia) ltac:(lia)) as (_ & I2). change (val (z 0)) with 0 in I2. specialize (I2 (Rle_refl 0)).
  split; [exact O|].
  assert (W : exists x, In x grid /\ 48 / 100 * eta <= Rabs (val x - val mu)).
  { destruct (Rle_lt_dec (48 / 100 * eta) (Rabs (val x0 - val mu))) as [K|K]; [eauto|]. exists x1. split; [exact I1|]. apply Rabs_def2 in K. apply Rle_trans with (val x1 - val mu); [lra|apply Rle_abs]. }
  destruct W as (x & Hx & W). destruct (F x Hx) as (_ & Ef). specialize (I2 (f x) (in_map f _ _ Hx)). eapply Rle_trans; [|exact I2]. rewrite Ef.
  assert (G : b2 (-42) <= Rabs (rnd (val x - val mu))).
  { assert (Q : b2 (-42) <= Rabs (val x - val mu)) by (change (-40)%Z with (-42 + 1 + 1)%Z in Reta; rewrite !b2_S in Reta; pose proof (bpow_gt_0 radix2 (-42)); lra).
    pose proof (fmt_bpow (-42) ltac:(lia)) as Fb. unfold Rabs in Q |- *. destruct (Rcase_abs (val x - val mu)) as [N|N].
    - assert (rnd (val x - val mu) <= - b2 (-42)). { rewrite <- (rnd_fmt (- b2 (-42))) by now apply generic_format_opp. apply rnd_le. lra. } pose proof (bpow_gt_0 radix2 (-42)). destruct (Rcase_abs _); lra.
    - assert (b2 (-42) <= rnd (val x - val mu)). { rewrite <- (rnd_fmt (b2 (-42))) by assumption. apply rnd_le. lra. } pose proof (bpow_gt_0 radix2 (-42)). destruct (Rcase_abs _); lra. }
  rewrite <- (rnd_fmt (b2 (-84))) by (apply fmt_bpow; lia). apply rnd_le. apply Rle_trans with (b2 (-42) * b2 (-42)).
  - rewrite <- bpow_plus. apply bp_mono. lia.
  - set (r := rnd (val x - val mu)) in *. replace (r * r) with (Rabs r * Rabs r) by (rewrite <- Rabs_mult; apply Rabs_pos_eq, Rle_0_sqr). apply Rmult_le_compat; try apply bpow_ge_0; exact G.
Qed.
Lemma slope_Bd : Bd (slope grid steps) 236.
Proof.
  unfold slope. cbv zeta. destruct var_low as (O & V). cbv zeta in O, V. change (@nsub b64 Num_b64) with subf in *.
  match goal with |- Bd (if ?c then _ else _) _ => destruct c end; [split; [apply (Cnt_0 0)|change (val n0) with 0; rewrite Rabs_R0; apply bpow_ge_0]|].
  refine (proj1 (Bd_div _ _ 152 (-84) 236 _ O V _ _)); try lia.
  apply (sum_Bd _ 138 14 152); try lia; [|unfold np_mul; rewrite map_length, combine_length, !map_length, Ls, Nat.min_id; lia]. apply (np_mul_Bd _ _ 83 55); [exact dev_x|exact dev_y|lia|lia].
Qed.
Lemma intercept_Bd : Bd (intercept grid steps (slope grid steps)) 319.
Proof.
  unfold intercept. refine (proj1 (Bd_sub (nmean steps) _ 54 318 319 mean_y (proj1 (Bd_mul _ _ 236 82 318 slope_Bd mean_x _ _)) _ _ _)); lia.
Qed.
Lemma deviation_ok : let K := slope grid steps in Forall (fun v => Bd v 650 /\ 0 <= val v) (sq_lin_deviation steps K (intercept grid steps K) grid).
Proof.
  cbv zeta. pose proof slope_Bd as BK. pose proof intercept_Bd as Bw. set (K := slope grid steps) in *. set (w := intercept grid steps K) in *.
  unfold sq_lin_deviation. apply Forall_map, Forall_forall. intros (s, x) Hp. cbn [fst snd]. cbv zeta. rewrite Forall_forall in Hg, Hs.
  pose proof (Hs s (in_combine_l _ _ _ _ Hp)) as B1. pose proof (Hg x (in_combine_r _ _ _ _ Hp)) as B2.
  destruct (Bd_mul K x 236 68 304 BK B2 ltac:(lia) ltac:(lia)) as (B3 & _). destruct (Bd_sub s _ 40 304 305 B1 B3 ltac:(lia) ltac:(lia) ltac:(lia)) as (B4 & _).
  destruct (Bd_sub _ w 305 319 320 B4 Bw ltac:(lia) ltac:(lia) ltac:(lia)) as (B5 & _). destruct (Bd_mul _ _ 320 320 650 B5 B5 ltac:(lia) ltac:(lia)) as (B6 & E6).
  split; [exact B6|]. match goal with |- 0 <= SF2R _ ?t => change t with (mulf (subf (subf s (mulf K x)) w) (subf (subf s (mulf K x)) w)) end. rewrite E6. apply rnd_nonneg, Rle_0_sqr.
Qed.
End Fit.
