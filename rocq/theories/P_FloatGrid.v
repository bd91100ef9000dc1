(** Binary64 multiplication, division, comparison and integer conversion as rounded real operations, and the points of np.linspace. *)
From Coq Require Import List ZArith Bool Reals Lra Lia Arith.
From Coq Require Import Floats.SpecFloat.
From Flocq Require Import Core BinarySingleNaN Relative.
From Verif Require Import Base S_Order M_Quad P_Order P_Float.
Import ListNotations.
Local Open Scope R_scope.

#[local] Existing Instance Hprec.
#[local] Existing Instance Hmax.
Local Notation mulf := (SFmul b64_prec b64_emax).
Local Notation divf := (SFdiv b64_prec b64_emax).
Local Notation big := (bpow radix2 1024).

Lemma mul_equiv (x y : binary_float b64_prec b64_emax) : mulf (B2SF x) (B2SF y) = B2SF (Bmult mode_NE x y).
Proof.
  case x as [sx|sx| |sx mx ex Bx]; case y as [sy|sy| |sy my ey By]; [now trivial..|]. simpl. rewrite B2SF_SF2B. apply bra_equiv.
Qed.
Lemma div_equiv (x y : binary_float b64_prec b64_emax) : divf (B2SF x) (B2SF y) = B2SF (Bdiv mode_NE x y).
Proof.
  case x as [sx|sx| |sx mx ex Bx]; case y as [sy|sy| |sy my ey By]; [now (trivial || simpl; case Bool.eqb)..|].
  simpl. rewrite B2SF_SF2B. set (melz := SFdiv_core_binary _ _ _ _ _ _). case melz as [[mz ez] lz]. apply bra_equiv.
Qed.
Lemma mul_spec x y : Valid x -> Valid y -> Fin x -> Fin y -> Rabs (rnd (val x * val y)) < big ->
  Valid (mulf x y) /\ Fin (mulf x y) /\ val (mulf x y) = rnd (val x * val y).
Proof.
  intros Vx Vy Fx Fy H. pose proof (mul_equiv (SF2B x Vx) (SF2B y Vy)) as E. rewrite !B2SF_SF2B in E. rewrite E.
  rewrite is_finite_SF_B2SF, SF2R_B2SF.
  pose proof (Bmult_correct b64_prec b64_emax _ _ mode_NE (SF2B x Vx) (SF2B y Vy)) as C.
  rewrite !is_finite_SF2B, Fx, Fy in C. rewrite !B2R_SF2B in C. change (round radix2 (SpecFloat.fexp b64_prec b64_emax) (round_mode mode_NE)) with rnd in C.
  rewrite Rlt_bool_true in C by exact H. destruct C as (C1 & C2 & _). split; [apply valid_binary_B2SF|]. tauto.
Qed.
Lemma div_spec x y : Valid x -> Valid y -> Fin x -> val y <> 0 -> Rabs (rnd (val x / val y)) < big ->
  Valid (divf x y) /\ Fin (divf x y) /\ val (divf x y) = rnd (val x / val y).
Proof.
  intros Vx Vy Fx Hy H. pose proof (div_equiv (SF2B x Vx) (SF2B y Vy)) as E. rewrite !B2SF_SF2B in E. rewrite E.
  rewrite is_finite_SF_B2SF, SF2R_B2SF.
  pose proof (Bdiv_correct b64_prec b64_emax _ _ mode_NE (SF2B x Vx) (SF2B y Vy)) as C.
  rewrite !is_finite_SF2B, Fx in C. rewrite !B2R_SF2B in C. specialize (C Hy). change (round radix2 (SpecFloat.fexp b64_prec b64_emax) (round_mode mode_NE)) with rnd in C.
  rewrite Rlt_bool_true in C by exact H. destruct C as (C1 & C2 & _). split; [apply valid_binary_B2SF|]. tauto.
Qed.
Lemma leb_spec x y : Valid x -> Valid y -> Fin x -> Fin y -> SFleb x y = true <-> val x <= val y.
Proof.
  intros Vx Vy Fx Fy. pose proof (Bleb_correct b64_prec b64_emax (SF2B x Vx) (SF2B y Vy)) as C. rewrite !is_finite_SF2B in C.
  specialize (C Fx Fy). unfold Bleb in C. rewrite !B2SF_SF2B, !B2R_SF2B in C. rewrite C. case Rle_bool_spec; intros H; split; intros; auto; [discriminate|lra].
Qed.
Lemma Z_fmt z : (Z.abs z < 2 ^ 53)%Z -> fmt (IZR z).
Proof.
  intros H. apply generic_format_FLT. apply (FLT_spec radix2 (-1074) b64_prec _ (Float radix2 z 0)); [unfold F2R; cbn [Fnum Fexp bpow]; lra|exact H|cbn [Fexp]; lia].
Qed.
Lemma Z_small z : (0 <= z < 2 ^ 53)%Z -> Rabs (IZR z) < big.
Proof.
  intros H. rewrite Rabs_right by (apply Rle_ge, IZR_le; lia). apply Rlt_le_trans with (IZR (2 ^ 53)); [apply IZR_lt; lia|].
  change (IZR (2 ^ 53)) with (bpow radix2 53). apply bpow_le. lia.
Qed.
Lemma ofZ_spec z : (0 <= z < 2 ^ 53)%Z -> Valid (b64_ofZ z) /\ Fin (b64_ofZ z) /\ val (b64_ofZ z) = IZR z.
Proof.
  intros Hz. destruct z as [|p|p]; [repeat split| |lia]. unfold b64_ofZ. rewrite bn_equiv, is_finite_SF_B2SF, SF2R_B2SF.
  pose proof (binary_normalize_correct b64_prec b64_emax Hprec Hmax mode_NE (Zpos p) 0 false) as C. cbv zeta in C.
  replace (F2R (Float radix2 (Zpos p) 0)) with (IZR (Zpos p)) in C by (unfold F2R; cbn; lra).
  change (round radix2 (SpecFloat.fexp b64_prec b64_emax) (round_mode mode_NE)) with rnd in C.
  rewrite (rnd_fmt (IZR (Zpos p))) in C by (apply Z_fmt; lia). rewrite Rlt_bool_true in C by (apply Z_small; exact Hz).
  destruct C as (C1 & C2 & _). split; [apply valid_binary_B2SF|]. split; [exact C2|exact C1].
Qed.

(** Relative error of one rounding, outside the subnormal range. *)
Lemma rnd_rel x : bpow radix2 (-1022) <= x -> x * (1 - bpow radix2 (-53)) <= rnd x <= x * (1 + bpow radix2 (-53)).
Proof.
  intros H. pose proof (bpow_gt_0 radix2 (-1022)) as P.
  pose proof (relative_error_N_FLT radix2 (-1074) b64_prec eq_refl (fun x => negb (Z.even x)) x) as E.
  rewrite (Rabs_pos_eq x) in E by lra. specialize (E H).
  replace (/ 2 * bpow radix2 (- b64_prec + 1)) with (bpow radix2 (-53)) in E.
  2:{ change (- b64_prec + 1)%Z with (-53 + 1)%Z. rewrite bpow_plus. change (bpow radix2 1) with 2. field. }
  apply Rabs_le_inv in E. lra.
Qed.

(** ** The points of np.linspace *)
Lemma bp_mono a b : (a <= b)%Z -> bpow radix2 a <= bpow radix2 b.
Proof. apply bpow_le. Qed.
Lemma fmt_bpow e : (-1074 <= e)%Z -> fmt (bpow radix2 e).
Proof. intros H. apply generic_format_bpow. unfold FLT_exp, b64_prec. lia. Qed.
Lemma lt_big x e : (-1074 <= e < 1024)%Z -> Rabs x <= bpow radix2 e -> Rabs (rnd x) < big.
Proof. intros He H. apply Rle_lt_trans with (bpow radix2 e); [apply rnd_abs_le; [apply fmt_bpow; lia|exact H]|apply bpow_lt; lia]. Qed.
Lemma fin_notnan x : Fin x -> @NotNaN b64 Num_b64 x.
Proof. intros H. apply isnan_b64_false. intros ->. discriminate. Qed.

Section Grid.
Variables (lo hi : b64) (n : nat).
Hypothesis Vlo : Valid lo.
Hypothesis Vhi : Valid hi.
Hypothesis Flo : Fin lo.
Hypothesis Fhi : Fin hi.
Hypothesis Hn : (2 <= Z.of_nat n <= 2 ^ 50)%Z.
Hypothesis Blo : Rabs (val lo) <= bpow radix2 1000.
Hypothesis Bhi : Rabs (val hi) <= bpow radix2 1000.
Hypothesis HD : bpow radix2 (-900) <= val hi - val lo.
Let D := val hi - val lo.
Let u := bpow radix2 (-53).
Let m := (Z.of_nat n - 1)%Z.
Let delta := SFsub b64_prec b64_emax hi lo.
Let step := divf delta (b64_ofZ m).

Lemma u_small : 0 < u <= / 1024.
Proof. split; [apply bpow_gt_0|]. apply Rle_trans with (bpow radix2 (-10)); [apply bp_mono; lia|]. cbn. lra. Qed.
Lemma D_range : bpow radix2 (-900) <= D <= bpow radix2 1001.
Proof.
  split; [exact HD|]. apply Rabs_le_inv in Blo, Bhi. unfold D. change 1001%Z with (1000 + 1)%Z. rewrite bpow_plus. change (bpow radix2 1) with 2. lra.
Qed.
Lemma delta_ok : Valid delta /\ Fin delta /\ D * (1 - u) <= val delta <= D * (1 + u).
Proof.
  pose proof D_range as (D1 & D2). pose proof (bpow_gt_0 radix2 (-900)).
  destruct (sub_spec hi lo Vhi Vlo Fhi Flo) as (V & S & _). fold delta in V, S.
  destruct S as (Fd & Ed). { apply (lt_big _ 1001); [lia|]. rewrite Rabs_pos_eq; [exact D2|unfold D in D1; lra]. }
  split; [exact V|]. split; [exact Fd|]. rewrite Ed. apply rnd_rel. eapply Rle_trans; [|exact D1]. apply bp_mono. lia.
Qed.
Lemma m_ok : Valid (b64_ofZ m) /\ Fin (b64_ofZ m) /\ val (b64_ofZ m) = IZR m.
Proof. apply ofZ_spec. unfold m. cbn in *. lia. Qed.
Lemma m_range : 1 <= IZR m <= bpow radix2 50.
Proof. split; [apply IZR_le; unfold m; lia|]. change (bpow radix2 50) with (IZR (2 ^ 50)). apply IZR_le. unfold m. lia. Qed.
Lemma step_ok : Valid step /\ Fin step /\ val step = rnd (val delta / IZR m) /\
  bpow radix2 (-952) <= val step <= D * (1 + u) * (1 + u) / IZR m.
Proof.
  destruct delta_ok as (Vd & Fd & Ld & Ud). destruct m_ok as (Vm & Fm & Em). pose proof m_range as (M1 & M2). pose proof D_range as (D1 & D2).
  pose proof u_small as (U0 & U1). pose proof (bpow_gt_0 radix2 (-900)) as P9. 
  assert (Q : bpow radix2 (-951) <= val delta / IZR m).
  { apply Rle_trans with (D * (1 - u) / IZR m); [|apply Rmult_le_compat_r; [left; apply Rinv_0_lt_compat; lra|exact Ld]].
    apply Rmult_le_reg_r with (IZR m); [lra|]. unfold Rdiv. rewrite (Rmult_assoc (D * _)), Rinv_l, Rmult_1_r by lra.
    apply Rle_trans with (bpow radix2 (-951) * bpow radix2 50); [apply Rmult_le_compat_l; [apply bpow_ge_0|exact M2]|].
    rewrite <- bpow_plus. change (-951 + 50)%Z with (-901)%Z. replace (bpow radix2 (-901)) with (bpow radix2 (-900) * / 2).
    2:{ change (-900)%Z with (-901 + 1)%Z. rewrite bpow_plus. change (bpow radix2 1) with 2. field. }
    apply Rmult_le_compat; lra. }
  pose proof (bpow_gt_0 radix2 (-951)) as P951.
  assert (Q2 : val delta / IZR m <= bpow radix2 1002).
  { apply Rle_trans with (val delta). { unfold Rdiv. rewrite <- (Rmult_1_r (val delta)) at 2. apply Rmult_le_compat_l; [nra|]. rewrite <- Rinv_1. apply Rinv_le_contravar; lra. }
    eapply Rle_trans; [exact Ud|]. change 1002%Z with (1001 + 1)%Z. rewrite bpow_plus. change (bpow radix2 1) with 2. apply Rmult_le_compat; lra. }
  destruct (div_spec delta (b64_ofZ m) Vd Vm Fd) as (Vs & Fs & Es); rewrite ?Em in *; [lra| |].
  { apply (lt_big _ 1002); [lia|]. rewrite Rabs_pos_eq by lra. exact Q2. }
  split; [exact Vs|]. split; [exact Fs|]. split; [exact Es|]. unfold step. rewrite Es.
  destruct (rnd_rel (val delta / IZR m)) as (R1 & R2); [eapply Rle_trans; [apply bp_mono|exact Q]; lia|]. fold u in R1, R2. split.
  - apply Rle_trans with (bpow radix2 (-951) * / 2); [|eapply Rle_trans; [|exact R1]; apply Rmult_le_compat; lra].
    change (-951)%Z with (-952 + 1)%Z. rewrite bpow_plus. change (bpow radix2 1) with 2. lra.
  - eapply Rle_trans; [exact R2|]. replace (D * (1 + u) * (1 + u) / IZR m) with (D * (1 + u) / IZR m * (1 + u)) by (field; lra).
    apply Rmult_le_compat_r; [lra|]. apply Rmult_le_compat_r; [left; apply Rinv_0_lt_compat; lra|exact Ud].
Qed.
(** The product i * step, for the interior points. *)
Lemma prod_ok i : (Z.of_nat i < m)%Z -> let p := mulf (b64_ofZ (Z.of_nat i)) step in
  Valid p /\ Fin p /\ val p = rnd (INR i * val step) /\ 0 <= val p <= D.
Proof.
  intros Hi p. destruct step_ok as (Vs & Fs & _ & L & U). destruct delta_ok as (_ & _ & Ld & Ud). pose proof m_range as (M1 & M2).
  pose proof D_range as (D1 & D2). pose proof u_small as (U0 & U1). pose proof (bpow_gt_0 radix2 (-900)) as P9. pose proof (bpow_gt_0 radix2 (-952)) as P952.
  destruct (ofZ_spec (Z.of_nat i)) as (Vi & Fi & Ei); [unfold m in *; cbn in *; lia|]. rewrite <- INR_IZR_INZ in Ei.
  pose proof (pos_INR i) as I0.
  assert (I1 : INR i <= IZR m - 1). { rewrite INR_IZR_INZ, <- minus_IZR. apply IZR_le. lia. }
  assert (K : INR i * val step * (1 + u) <= D).
  { apply Rle_trans with ((IZR m - 1) * (D * (1 + u) * (1 + u) / IZR m) * (1 + u)).
    - apply Rmult_le_compat_r; [lra|]. apply Rmult_le_compat; lra.
    - apply Rmult_le_reg_r with (IZR m); [lra|].
      replace ((IZR m - 1) * (D * (1 + u) * (1 + u) / IZR m) * (1 + u) * IZR m) with (D * ((IZR m - 1) * ((1 + u) * (1 + u) * (1 + u)))) by (field; lra).
      apply Rmult_le_compat_l; [lra|].
      assert (C : (1 + u) * (1 + u) * (1 + u) <= 1 + 4 * u) by nra.
      apply Rle_trans with ((IZR m - 1) * (1 + 4 * u)); [apply Rmult_le_compat_l; lra|].
      assert (B : u * IZR m <= / 8).
      { apply Rle_trans with (u * bpow radix2 50); [apply Rmult_le_compat_l; lra|]. unfold u. rewrite <- bpow_plus. cbn. lra. }
      nra. }
  assert (K0 : 0 <= INR i * val step) by (apply Rmult_le_pos; lra).
  assert (K1 : INR i * val step <= D) by nra.
  destruct (mul_spec (b64_ofZ (Z.of_nat i)) step Vi Vs Fi Fs) as (Vp & Fp & Ep); rewrite ?Ei in *.
  { apply (lt_big _ 1001); [lia|]. rewrite Rabs_pos_eq by exact K0. lra. }
  split; [exact Vp|]. split; [exact Fp|]. split; [exact Ep|]. unfold p. rewrite Ep. split.
  - rewrite <- (rnd_fmt 0) by apply generic_format_0. now apply rnd_le.
  - destruct i as [|i]; [cbn [INR]; rewrite Rmult_0_l, rnd_fmt by apply generic_format_0; lra|].
    destruct (rnd_rel (INR (S i) * val step)) as (_ & R2); [|fold u in R2; lra].
    apply Rle_trans with (1 * bpow radix2 (-952)); [rewrite Rmult_1_l; apply bp_mono; lia|]. apply Rmult_le_compat; try lra. rewrite S_INR. pose proof (pos_INR i). lra.
Qed.
Lemma point_ok i : (Z.of_nat i < m)%Z -> let x := SFadd b64_prec b64_emax lo (mulf (b64_ofZ (Z.of_nat i)) step) in
  Valid x /\ Fin x /\ val x = rnd (val lo + rnd (INR i * val step)) /\ val lo <= val x <= val hi.
Proof.
  intros Hi x. destruct (prod_ok i Hi) as (Vp & Fp & Ep & P0 & P1). set (p := mulf _ _) in *. rewrite Ep in *.
  assert (R : val lo <= rnd (val lo + rnd (INR i * val step)) <= val hi).
  { split; [rewrite <- (rnd_fmt (val lo)) at 1 by now apply valid_fmt|rewrite <- (rnd_fmt (val hi)) by now apply valid_fmt]; apply rnd_le; unfold D in *; lra. }
  destruct (add_spec lo p Vlo Vp Flo Fp) as (V & S & _). rewrite Ep in S.
  destruct S as (Fx & Ex).
  { apply Rle_lt_trans with (bpow radix2 1000); [|apply bpow_lt; lia]. apply Rabs_le_inv in Blo, Bhi. apply Rabs_le. lra. }
  unfold x. rewrite Ex. auto.
Qed.
(** All points: finite, between the ends, ascending. *)
Definition pt (i : nat) : b64 := if Nat.leb n 1 then lo else if Nat.eqb (S i) n then hi else SFadd b64_prec b64_emax lo (mulf (b64_ofZ (Z.of_nat i)) step).
Lemma linspace_pt : @linspace b64 Num_b64 lo hi n = map pt (seq 0 n).
Proof. reflexivity. Qed.
Lemma pt_ok i : (i < n)%nat -> Valid (pt i) /\ Fin (pt i) /\ val lo <= val (pt i) <= val hi.
Proof.
  intros Hi. unfold pt. destruct (Nat.leb_spec n 1); [lia|]. pose proof D_range as (D1 & _). pose proof (bpow_gt_0 radix2 (-900)). unfold D in *.
  destruct (Nat.eqb_spec (S i) n) as [E|E]; [repeat split; auto; lra|]. destruct (point_ok i) as (A & B & _ & C); [unfold m; lia|]. auto.
Qed.
Lemma pt_mono i j : (i <= j < n)%nat -> val (pt i) <= val (pt j).
Proof.
  intros H. destruct (pt_ok i ltac:(lia)) as (_ & _ & Hi). unfold pt in *. destruct (Nat.leb_spec n 1); [lia|].
  destruct (Nat.eqb_spec (S j) n) as [Ej|Ej]; [lra|]. destruct (Nat.eqb_spec (S i) n) as [Ei|Ei]; [lia|].
  destruct (point_ok i) as (_ & _ & -> & _); [unfold m; lia|]. destruct (point_ok j) as (_ & _ & -> & _); [unfold m; lia|].
  apply rnd_le, Rplus_le_compat_l, rnd_le. apply Rmult_le_compat_r; [|apply le_INR; lia]. destruct step_ok as (_ & _ & _ & L & _).
  pose proof (bpow_gt_0 radix2 (-952)). lra.
Qed.
Lemma grid_sorted : @Ascending b64 Num_b64 (linspace lo hi n).
Proof.
  rewrite linspace_pt. unfold Ascending. assert (G : forall k a, (a + k <= n)%nat -> Sorting.Sorted.StronglySorted (@Le b64 Num_b64) (map pt (seq a k))).
  { induction k as [|k IH]; intros a Ha; cbn [seq map]; constructor; [apply IH; lia|]. apply List.Forall_forall. intros x Hx.
    apply in_map_iff in Hx as (i & <- & Hi). apply in_seq in Hi. destruct (pt_ok a ltac:(lia)) as (V1 & F1 & _). destruct (pt_ok i ltac:(lia)) as (V2 & F2 & _).
    apply (leb_spec _ _ V1 V2 F1 F2). apply pt_mono. lia. }
  apply G. lia.
Qed.
Lemma grid_all : List.Forall (fun x => Valid x /\ Fin x /\ val lo <= val x <= val hi) (linspace lo hi n).
Proof. rewrite linspace_pt. apply List.Forall_forall. intros x Hx. apply in_map_iff in Hx as (i & <- & Hi). apply in_seq in Hi. apply pt_ok. lia. Qed.
Lemma grid_ends : (exists x, head_opt (@linspace b64 Num_b64 lo hi n) = Some x /\ val x = val lo) /\ last_opt (@linspace b64 Num_b64 lo hi n) = Some hi.
Proof.
  rewrite linspace_pt. split.
  - exists (pt 0). split; [assert (E : seq 0 n = 0%nat :: seq 1 (n - 1)) by (replace n with (S (n - 1)) at 1 by lia; reflexivity); rewrite E; reflexivity|]. unfold pt. destruct (Nat.leb_spec n 1); [lia|]. destruct (Nat.eqb_spec 1 n); [lia|].
    destruct (point_ok 0) as (_ & _ & -> & _); [unfold m; lia|]. cbn [INR]. rewrite Rmult_0_l, (rnd_fmt 0) by apply generic_format_0. rewrite Rplus_0_r. apply rnd_fmt. now apply valid_fmt.
  - unfold last_opt. rewrite map_length, seq_length, nth_error_map, (nth_error_nth' _ 0%nat) by (rewrite seq_length; lia). rewrite seq_nth by lia. cbn [option_map plus].
    unfold pt. destruct (Nat.leb_spec n 1); [lia|]. now replace (S (n - 1)) with n by lia; rewrite Nat.eqb_refl.
Qed.
End Grid.
