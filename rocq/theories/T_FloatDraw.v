(** Property C110: in binary64 the random window centres stay inside the spectrum. *)
From Coq Require Import List ZArith Bool Reals Lra Lia Arith.
From Coq Require Import Floats.SpecFloat.
From Flocq Require Import Core BinarySingleNaN.
From Verif Require Import Base S_Order M_Quad M_Loops P_Order P_Float P_FloatGrid.
Import ListNotations.
Local Open Scope R_scope.
#[local] Existing Instance Hprec.
#[local] Existing Instance Hmax.
Local Notation fe := (FLT_exp (-1074) b64_prec).
Local Notation big := (bpow radix2 1024).

(** The difference of two floats is exact when it is subnormal. *)
Lemma fmt_FIX x : fmt x -> exists k, x = IZR k * bpow radix2 (-1074).
Proof.
  intros H. apply (generic_format_FIX_FLT radix2 (-1074) b64_prec) in H. apply FIX_format_generic in H. destruct H as [f Hf He].
  exists (Fnum f). rewrite Hf. unfold F2R. now rewrite He.
Qed.
Lemma sub_exact x y : fmt x -> fmt y -> Rabs (x - y) <= bpow radix2 (-1021) -> fmt (x - y).
Proof.
  intros Hx Hy H. apply fmt_FIX in Hx as (k & ->). apply fmt_FIX in Hy as (l & ->).
  apply (generic_format_FLT_FIX radix2 (-1074) b64_prec); [exact H|]. apply generic_format_FIX.
  apply (FIX_spec radix2 (-1074) _ (Float radix2 (k - l) (-1074))); [|reflexivity]. unfold F2R. cbn [Fnum Fexp]. rewrite minus_IZR. ring.
Qed.
(** One part in 2^53 below a normal number is nearer to its predecessor than to it. *)
Lemma below_mid y : fmt y -> bpow radix2 (-1022) < y -> y - y * bpow radix2 (-53) < (pred radix2 fe y + y) / 2.
Proof.
  intros Fy Hy. pose proof (bpow_gt_0 radix2 (-1022)) as P. rewrite pred_eq_pos by lra. unfold pred_pos.
  pose proof (bpow_mag_le radix2 y ltac:(lra)) as L. pose proof (bpow_mag_gt radix2 y) as U. rewrite Rabs_pos_eq in L, U by lra.
  set (e1 := mag_val radix2 y (mag radix2 y)) in *. assert (He1 : (-1022 < e1)%Z) by (apply (lt_bpow radix2); lra).
  case Req_bool_spec; intros E.
  - assert (-1022 < e1 - 1)%Z by (apply (lt_bpow radix2); lra). rewrite E at 1 2 3. rewrite <- bpow_plus.
    unfold FLT_exp, b64_prec. replace (Z.max (e1 - 1 - 53) (-1074)) with (e1 - 1 + -53)%Z by lia.
    pose proof (bpow_gt_0 radix2 (e1 - 1 + -53)). lra.
  - rewrite ulp_neq_0 by lra. unfold cexp. fold e1. unfold FLT_exp, b64_prec. replace (Z.max (e1 - 53) (-1074)) with (e1 - 1 + (-53) + 1)%Z by lia.
    rewrite (bpow_plus radix2 (e1 - 1 + -53) 1), (bpow_plus radix2 (e1 - 1) (-53)).
    change (bpow radix2 1) with 2. pose proof (bpow_gt_0 radix2 (-53)). assert (bpow radix2 (e1 - 1) < y) by lra. nra.
Qed.
(** With D the difference of two floats and 0 <= w <= 1 - 2^-53, rounding twice does not exceed D. *)
Lemma product_below a b w : fmt a -> fmt b -> a <= b -> 0 <= w <= 1 - bpow radix2 (-53) -> 0 <= rnd (rnd (b - a) * w) <= b - a.
Proof.
  intros Fa Fb Hab (W0 & W1). set (D := b - a). assert (HD : 0 <= D) by (unfold D; lra). set (y := rnd D).
  assert (Fy : fmt y) by (apply generic_format_round; [apply FLT_exp_valid; reflexivity|apply valid_rnd_N]).
  assert (Y0 : 0 <= y) by (unfold y; rewrite <- (rnd_fmt 0) by apply generic_format_0; now apply rnd_le).
  pose proof (bpow_gt_0 radix2 (-53)) as P53.
  split. { rewrite <- (rnd_fmt 0) by apply generic_format_0. apply rnd_le. nra. }
  destruct (Rle_or_lt y D) as [L|L]. { eapply Rle_trans; [|exact L]. rewrite <- (rnd_fmt y Fy) at 2. apply rnd_le. nra. }
  assert (Big : bpow radix2 (-1021) < D).
  { destruct (Rlt_or_le (bpow radix2 (-1021)) D) as [B|B]; [exact B|]. exfalso.
    assert (fmt D) by (apply sub_exact; auto; rewrite Rabs_pos_eq; assumption). unfold y in L. rewrite rnd_fmt in L by assumption. lra. }
  assert (Hy : bpow radix2 (-1022) < y). { pose proof (bpow_lt radix2 (-1022) (-1021) ltac:(lia)). lra. }
  assert (Y1 : 0 < y) by (pose proof (bpow_gt_0 radix2 (-1022)); lra).
  assert (Q : rnd (y * w) <= pred radix2 fe y).
  { apply round_N_le_midp; [apply FLT_exp_valid; reflexivity|now apply generic_format_pred; [apply FLT_exp_valid; reflexivity|]|].
    rewrite succ_pred by (auto; apply FLT_exp_valid; reflexivity). apply Rle_lt_trans with (y - y * bpow radix2 (-53)); [nra|]. now apply below_mid. }
  eapply Rle_trans; [exact Q|]. destruct (Rle_or_lt (pred radix2 fe y) D) as [K|K]; [exact K|]. exfalso.
  assert (fmt (pred radix2 fe y)) by now apply generic_format_pred; [apply FLT_exp_valid; reflexivity|].
  assert (y <= pred radix2 fe y). { rewrite <- (rnd_fmt (pred radix2 fe y)) by assumption. apply rnd_le. lra. }
  pose proof (pred_lt_id radix2 fe y ltac:(lra)). lra.
Qed.

(** C110. np.random.uniform(lo, hi) in binary64 from a number in [0, 1 - 2^-53]: finite and between lo and hi, when hi - lo does
    not overflow. *)
Theorem C110_centre : forall lo hi w : b64,
  valid_binary b64_prec b64_emax lo = true -> valid_binary b64_prec b64_emax hi = true -> valid_binary b64_prec b64_emax w = true ->
  is_finite_SF lo = true -> is_finite_SF hi = true -> is_finite_SF w = true ->
  SF2R radix2 lo <= SF2R radix2 hi -> 0 <= SF2R radix2 w <= 1 - bpow radix2 (-53) -> is_finite_SF (SFsub b64_prec b64_emax hi lo) = true ->
  let c := uniform lo hi w in is_finite_SF c = true /\ SF2R radix2 lo <= SF2R radix2 c <= SF2R radix2 hi /\ Le lo c /\ Le c hi.
Proof.
  intros lo hi w V1 V2 V3 F1 F2 F3 Hle Hw Fd c.
  destruct (sub_spec hi lo V2 V1 F2 F1) as (Vd & S & O). destruct (S (O Fd)) as (_ & Ed).
  pose proof (product_below _ _ _ (valid_fmt lo V1) (valid_fmt hi V2) Hle Hw) as (P0 & P1).
  pose proof (bpow_gt_0 radix2 (-53)) as P53.
  assert (D0 : 0 <= rnd (val hi - val lo)) by (rewrite <- (rnd_fmt 0) by apply generic_format_0; apply rnd_le; lra).
  destruct (mul_spec (SFsub b64_prec b64_emax hi lo) w Vd V3 Fd F3) as (Vp & Fp & Ep).
  { rewrite Ed. apply Rle_lt_trans with (Rabs (rnd (val hi - val lo))); [|exact (O Fd)]. rewrite (Rabs_pos_eq _ D0), (Rabs_pos_eq _ P0).
    rewrite <- (rnd_fmt (rnd (val hi - val lo))) at 2 by (apply generic_format_round; [apply FLT_exp_valid; reflexivity|apply valid_rnd_N]). apply rnd_le. nra. }
  rewrite Ed in Ep. destruct (add_spec lo _ V1 Vp F1 Fp) as (Vc & S2 & _). rewrite Ep in S2.
  assert (R : val lo <= rnd (val lo + rnd (rnd (val hi - val lo) * val w)) <= val hi).
  { split; [rewrite <- (rnd_fmt (val lo)) at 1 by now apply valid_fmt|rewrite <- (rnd_fmt (val hi)) at 2 by now apply valid_fmt]; apply rnd_le; lra. }
  destruct S2 as (Fc & Ec).
  { apply Rle_lt_trans with (Rmax (Rabs (val lo)) (Rabs (val hi))); [|apply Rmax_lub_lt; now apply val_lt].
    pose proof (Rmax_l (Rabs (val lo)) (Rabs (val hi))). pose proof (Rmax_r (Rabs (val lo)) (Rabs (val hi))).
    pose proof (Rle_abs (val hi)). pose proof (Rle_abs (- val lo)) as K. rewrite Rabs_Ropp in K. apply Rabs_le. lra. }
  change (SFadd b64_prec b64_emax lo (SFmul b64_prec b64_emax (SFsub b64_prec b64_emax hi lo) w)) with c in *.
  split; [exact Fc|]. rewrite Ec. split; [exact R|].
  split; [apply (leb_spec lo c V1 Vc F1 Fc)|apply (leb_spec c hi Vc V2 Fc F2)]; rewrite Ec; tauto.
Qed.
Print Assumptions C110_centre.

(** C110. So the windows sampled for the rigidity of a sorted binary64 spectrum are centred between its first and last level. *)
Theorem C110_rigidity : forall (u : list b64) lo hi simpson gridsize L draws i, Ascending u -> head_opt u = Some lo -> last_opt u = Some hi ->
  List.Forall (fun x => valid_binary b64_prec b64_emax x = true /\ is_finite_SF x = true) u -> is_finite_SF (SFsub b64_prec b64_emax hi lo) = true ->
  (valid_binary b64_prec b64_emax (draws i) = true /\ is_finite_SF (draws i) = true /\ 0 <= SF2R radix2 (draws i) <= 1 - bpow radix2 (-53)) ->
  exists c, delta_sample simpson gridsize L u draws i = d3_sample simpson gridsize L u c /\ is_finite_SF c = true /\ Le lo c /\ Le c hi.
Proof.
  intros u lo hi simpson g L draws i Hs Hlo Hhi Hf Hd (V3 & F3 & Hw). exists (uniform lo hi (draws i)). unfold delta_sample. rewrite Hlo, Hhi.
  assert (Ilo : In lo u) by (destruct u; [discriminate|injection Hlo as ->; now left]).
  assert (Ihi : In hi u) by (unfold last_opt in Hhi; eapply nth_error_In; exact Hhi).
  rewrite List.Forall_forall in Hf. destruct (Hf lo Ilo) as (V1 & F1). destruct (Hf hi Ihi) as (V2 & F2).
  assert (Hle : val lo <= val hi).
  { destruct u as [|x u]; [discriminate|]. injection Hlo as ->. destruct Ihi as [->|Ihi]; [lra|]. apply Sorting.Sorted.StronglySorted_inv in Hs as (_ & Hs).
    rewrite List.Forall_forall in Hs. apply (leb_spec lo hi V1 V2 F1 F2). exact (Hs hi Ihi). }
  split; [reflexivity|]. destruct (C110_centre lo hi (draws i) V1 V2 V3 F1 F2 F3 Hle Hw Hd) as (A & _ & B & C). auto.
Qed.
Print Assumptions C110_rigidity.

(** np.random.uniform documents the half-open interval [lo, hi).  That is false in binary64: between 1 and its successor
    1 + 2^-52 the largest random number 1 - 2^-53 gives hi itself.  If hi - lo overflows, the centre is infinite. *)
Theorem C110_half_open_refuted :
  uniform (S754_finite false (2 ^ 52) (-52)) (S754_finite false (2 ^ 52 + 1) (-52)) (S754_finite false (2 ^ 53 - 1) (-53)) = S754_finite false (2 ^ 52 + 1) (-52) /\
  uniform (S754_finite true (2 ^ 52) 971) (S754_finite false (2 ^ 52) 971) (S754_finite false (2 ^ 52) (-53)) = S754_infinity false.
Proof. vm_compute. split; reflexivity. Qed.
Print Assumptions C110_half_open_refuted.
(** 0.1 + (0.8 - 0.1) * 0.3 = 0.31000000000000005, with all the rounding errors. *)
Example C110_case : uniform (S754_finite false 7205759403792794 (-56)) (S754_finite false 7205759403792794 (-53)) (S754_finite false 5404319552844595 (-54)) = S754_finite false 5584463537939416 (-54).
Proof. vm_compute. reflexivity. Qed.
