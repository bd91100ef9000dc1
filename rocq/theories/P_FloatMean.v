(** Rounding error of the compensated running mean (the updates of levelvariance.py and rigidity.py) in binary64. *)
From Coq Require Import List ZArith Bool Reals Lra Lia Arith.
From Coq Require Import Floats.SpecFloat.
From Flocq Require Import Core BinarySingleNaN Relative.
From Verif Require Import Base S_Order M_Quad P_Order P_Float P_FloatGrid T_FloatDraw T_FloatGap.
Import ListNotations.
Local Open Scope R_scope.
#[local] Existing Instance Hprec.
#[local] Existing Instance Hmax.
Local Notation addf := (SFadd b64_prec b64_emax).
Local Notation subf := (SFsub b64_prec b64_emax).
Local Notation divf := (SFdiv b64_prec b64_emax).

(** ** The arithmetic of one update, over reals *)
Lemma abs_mul_le u a b : 0 <= u -> Rabs a <= b -> u * Rabs a <= u * b.
Proof. intros. now apply Rmult_le_compat_l. Qed.
Lemma abs_scale K a b : 0 <= K -> Rabs a <= b -> Rabs (K * a) <= K * b.
Proof. intros. rewrite Rabs_mult, (Rabs_pos_eq K) by assumption. now apply Rmult_le_compat_l. Qed.
Ltac iv H := apply Rabs_le_inv in H.
Lemma step_real u B K eta x s c d q r m t c' : 0 < B -> 0 < u <= / 1024 -> 1 <= K -> K * u <= / 8 -> 0 <= eta -> K * eta <= u * B / 2 ->
  Rabs x <= B -> Rabs s <= 2 * B -> Rabs c <= 12 * (u * B) ->
  Rabs (d - (x - s)) <= u * Rabs (x - s) -> Rabs (q - d / K) <= u * Rabs (d / K) + eta -> Rabs (r - (q - c)) <= u * Rabs (q - c) ->
  Rabs (m - (s + r)) <= u * Rabs (s + r) -> Rabs (t - (m - s)) <= u * Rabs (m - s) -> Rabs (c' - (t - r)) <= u * Rabs (t - r) ->
  Rabs c' <= 12 * (u * B) /\ Rabs (K * (m - c') - ((K - 1) * (s - c) + x)) <= 29 * (u * B) /\
  Rabs (x - s) <= 3 * B /\ Rabs (d / K) <= 4 * B /\ Rabs (q - c) <= 5 * B /\ Rabs (s + r) <= 7 * B /\ Rabs (m - s) <= 6 * B /\ Rabs (t - r) <= B.
Proof.
  intros HB (U0 & U1) HK Ku He Ke Hx Hs Hc H1 H2 H3 H4 H5 H6. set (V := u * B) in *.
  assert (V0 : 0 < V) by (apply Rmult_lt_0_compat; assumption). assert (V1 : V <= B / 1024) by (unfold V; nra).
  assert (KV : K * V <= B / 8) by (unfold V; nra).
  assert (X1 : Rabs (x - s) <= 3 * B) by (iv Hx; iv Hs; apply Rabs_le; lra).
  assert (X2 : Rabs (d - (x - s)) <= 3 * V) by (pose proof (abs_mul_le u _ _ ltac:(lra) X1); unfold V; lra).
  assert (X3 : Rabs d <= 301 / 100 * B) by (iv X1; iv X2; apply Rabs_le; lra).
  assert (Q0 : Rabs (K * q - d) <= u * Rabs d + V / 2).
  { replace (K * q - d) with (K * (q - d / K)) by (field; lra). eapply Rle_trans; [apply abs_scale; [lra|exact H2]|].
    unfold Rdiv at 1. rewrite Rabs_mult, (Rabs_pos_eq (/ K)) by (left; apply Rinv_0_lt_compat; lra).
    replace (K * (u * (Rabs d * / K) + eta)) with (u * Rabs d + K * eta) by (field; lra). lra. }
  pose proof (abs_mul_le u _ _ ltac:(lra) X3) as X3u. replace (u * (301 / 100 * B)) with (301 / 100 * V) in X3u by (unfold V; ring).
  assert (Q1 : Rabs (K * q - d) <= 351 / 100 * V) by lra.
  assert (KX : Rabs (K * q - (x - s)) <= 651 / 100 * V) by (iv Q1; iv X2; apply Rabs_le; lra).
  assert (Kc : Rabs (K * c) <= 12 * (K * V)) by (eapply Rle_trans; [apply abs_scale; [lra|exact Hc]|lra]).
  assert (Kqc : Rabs (K * (q - c)) <= 46 / 10 * B) by (iv KX; iv X1; iv Kc; apply Rabs_le; lra).
  assert (R1 : Rabs (K * (r - (q - c))) <= 46 / 10 * V).
  { eapply Rle_trans; [apply abs_scale; [lra|exact H3]|]. replace (K * (u * Rabs (q - c))) with (u * (K * Rabs (q - c))) by ring.
    rewrite <- (Rabs_pos_eq K) at 1 by lra. rewrite <- Rabs_mult. pose proof (abs_mul_le u _ _ ltac:(lra) Kqc). unfold V. lra. }
  assert (R2 : Rabs (K * r) <= 47 / 10 * B) by (iv R1; iv Kqc; apply Rabs_le; lra).
  assert (Rr : Rabs r <= 47 / 10 * B).
  { eapply Rle_trans; [|exact R2]. rewrite Rabs_mult, (Rabs_pos_eq K) by lra. pose proof (Rabs_pos r). nra. }
  assert (S1 : Rabs (s + r) <= 67 / 10 * B) by (iv Rr; iv Hs; apply Rabs_le; lra).
  assert (M1 : Rabs (m - (s + r)) <= 67 / 10 * V) by (pose proof (abs_mul_le u _ _ ltac:(lra) S1); unfold V; lra).
  assert (KM : Rabs (K * (m - (s + r))) <= 3 / 10 * B).
  { eapply Rle_trans; [apply abs_scale; [lra|exact H4]|]. apply Rle_trans with (u * (K * Rabs s) + u * Rabs (K * r)).
    - rewrite Rabs_mult, (Rabs_pos_eq K) by lra. pose proof (Rabs_triang s r). assert (0 <= K * u) by nra.
      replace (K * (u * Rabs (s + r))) with (K * u * Rabs (s + r)) by ring. replace (u * (K * Rabs s) + u * (K * Rabs r)) with (K * u * (Rabs s + Rabs r)) by ring.
      now apply Rmult_le_compat_l.
    - pose proof (abs_mul_le u _ _ ltac:(lra) R2). replace (u * (K * Rabs s)) with (K * u * Rabs s) by ring.
      assert (K * u * Rabs s <= / 8 * (2 * B)) by (apply Rmult_le_compat; try nra; apply Rabs_pos). replace (u * (47 / 10 * B)) with (47 / 10 * V) in H by (unfold V; ring). lra. }
  assert (Kms : Rabs (K * (m - s)) <= 5 * B) by (iv KM; iv R2; apply Rabs_le; lra).
  assert (T1 : Rabs (K * (t - (m - s))) <= 5 * V).
  { eapply Rle_trans; [apply abs_scale; [lra|exact H5]|]. replace (K * (u * Rabs (m - s))) with (u * (K * Rabs (m - s))) by ring.
    rewrite <- (Rabs_pos_eq K) at 1 by lra. rewrite <- Rabs_mult. pose proof (abs_mul_le u _ _ ltac:(lra) Kms). unfold V. lra. }
  assert (T0 : Rabs (t - (m - s)) <= 5 * V).
  { eapply Rle_trans; [|exact T1]. rewrite Rabs_mult, (Rabs_pos_eq K) by lra. pose proof (Rabs_pos (t - (m - s))). nra. }
  assert (TR : Rabs (t - r) <= 117 / 10 * V) by (iv T0; iv M1; apply Rabs_le; lra).
  assert (KTR : Rabs (K * (t - r)) <= 31 / 100 * B) by (iv T1; iv KM; apply Rabs_le; lra).
  assert (C1 : Rabs (c' - (t - r)) <= 117 / 10 * V / 1024).
  { pose proof (abs_mul_le u _ _ ltac:(lra) TR). assert (u * (117 / 10 * V) <= / 1024 * (117 / 10 * V)) by (apply Rmult_le_compat_r; lra). lra. }
  assert (C2 : Rabs (K * (c' - (t - r))) <= 31 / 100 * V).
  { eapply Rle_trans; [apply abs_scale; [lra|exact H6]|]. replace (K * (u * Rabs (t - r))) with (u * (K * Rabs (t - r))) by ring.
    rewrite <- (Rabs_pos_eq K) at 1 by lra. rewrite <- Rabs_mult. pose proof (abs_mul_le u _ _ ltac:(lra) KTR). unfold V. lra. }
  split; [iv C1; iv TR; apply Rabs_le; lra|]. split.
  - replace (K * (m - c') - ((K - 1) * (s - c) + x)) with (K * q - (x - s) + K * (r - (q - c)) - K * (t - (m - s)) - K * (c' - (t - r)) - c) by ring.
    iv KX; iv R1; iv T1; iv C2; iv Hc. apply Rabs_le. lra.
  - assert (KI : forall a b, Rabs (K * a) <= b -> Rabs a <= b).
    { intros a b Hab. rewrite Rabs_mult, (Rabs_pos_eq K) in Hab by lra. pose proof (Rabs_pos a). nra. }
    split; [exact X1|]. split. { unfold Rdiv. rewrite Rabs_mult, (Rabs_pos_eq (/ K)) by (left; apply Rinv_0_lt_compat; lra).
      assert (/ K <= 1) by (rewrite <- Rinv_1; apply Rinv_le_contravar; lra). assert (0 < / K) by (apply Rinv_0_lt_compat; lra). pose proof (Rabs_pos d). nra. }
    split; [apply KI; lra|]. split; [lra|]. split; [apply KI; lra|lra].
Qed.

(** ** Rounding errors of the operations *)
Lemma rnd_sub_rel x y : fmt x -> fmt y -> Rabs (rnd (x - y) - (x - y)) <= bpow radix2 (-53) * Rabs (x - y).
Proof.
  intros Fx Fy. destruct (Rle_or_lt y x) as [H|H]; [rewrite (Rabs_pos_eq (x - y)) by lra; now apply rnd_sub_err|].
  pose proof (rnd_sub_err y x Fy Fx ltac:(lra)) as E. replace (x - y) with (- (y - x)) by ring. rewrite rnd_opp, Rabs_Ropp.
  replace (- rnd (y - x) - - (y - x)) with (- (rnd (y - x) - (y - x))) by ring. rewrite Rabs_Ropp, (Rabs_pos_eq (y - x)) by lra. exact E.
Qed.
Lemma rnd_add_rel x y : fmt x -> fmt y -> Rabs (rnd (x + y) - (x + y)) <= bpow radix2 (-53) * Rabs (x + y).
Proof. intros Fx Fy. replace (x + y) with (x - - y) by ring. apply rnd_sub_rel; [exact Fx|now apply generic_format_opp]. Qed.
Lemma rnd_any z : Rabs (rnd z - z) <= bpow radix2 (-53) * Rabs z + bpow radix2 (-1075).
Proof.
  destruct (error_N_FLT radix2 (-1074) b64_prec eq_refl (fun x => negb (Z.even x)) z) as (eps & eta & He & Ht & _ & E).
  rewrite E. replace (z * (1 + eps) + eta - z) with (eps * z + eta) by ring. eapply Rle_trans; [apply Rabs_triang|]. rewrite Rabs_mult.
  replace (/ 2 * bpow radix2 (-1074)) with (bpow radix2 (-1075)) in Ht by (change (-1074)%Z with (-1075 + 1)%Z; rewrite bpow_plus; change (bpow radix2 1) with 2; field).
  replace (/ 2 * bpow radix2 (- b64_prec + 1)) with (bpow radix2 (-53)) in He by (change (- b64_prec + 1)%Z with (-53 + 1)%Z; rewrite bpow_plus; change (bpow radix2 1) with 2; field).
  pose proof (Rabs_pos z). apply Rplus_le_compat; [now apply Rmult_le_compat_r|exact Ht].
Qed.
Local Notation OK x := (Valid x /\ Fin x).
Lemma sub_err x y : OK x -> OK y -> Rabs (val x - val y) <= bpow radix2 1010 ->
  OK (subf x y) /\ Rabs (val (subf x y) - (val x - val y)) <= bpow radix2 (-53) * Rabs (val x - val y).
Proof.
  intros (Vx & Fx) (Vy & Fy) H. destruct (sub_spec x y Vx Vy Fx Fy) as (V & S & _). destruct (S (lt_big _ 1010 ltac:(lia) H)) as (F & E).
  split; [auto|]. rewrite E. apply rnd_sub_rel; now apply valid_fmt.
Qed.
Lemma add_err x y : OK x -> OK y -> Rabs (val x + val y) <= bpow radix2 1010 ->
  OK (addf x y) /\ Rabs (val (addf x y) - (val x + val y)) <= bpow radix2 (-53) * Rabs (val x + val y).
Proof.
  intros (Vx & Fx) (Vy & Fy) H. destruct (add_spec x y Vx Vy Fx Fy) as (V & S & _). destruct (S (lt_big _ 1010 ltac:(lia) H)) as (F & E).
  split; [auto|]. rewrite E. apply rnd_add_rel; now apply valid_fmt.
Qed.
Lemma div_err x k : OK x -> (0 < k < 2 ^ 53)%Z -> Rabs (val x / IZR k) <= bpow radix2 1010 ->
  OK (divf x (b64_ofZ k)) /\ Rabs (val (divf x (b64_ofZ k)) - val x / IZR k) <= bpow radix2 (-53) * Rabs (val x / IZR k) + bpow radix2 (-1075).
Proof.
  intros (Vx & Fx) Hk H. destruct (ofZ_spec k ltac:(lia)) as (Vk & Fk & Ek). assert (0 < IZR k) by (apply IZR_lt; lia).
  destruct (div_spec x (b64_ofZ k) Vx Vk Fx) as (V & F & E); rewrite ?Ek in *; [lra|now apply (lt_big _ 1010)|].
  split; [auto|]. rewrite E. apply rnd_any.
Qed.
Lemma abs_err r e u : Rabs (r - e) <= u * Rabs e -> 0 <= u <= 1 -> Rabs r <= 2 * Rabs e.
Proof. intros H Hu. pose proof (Rabs_triang (r - e) e) as T. replace (r - e + e) with r in T by ring. pose proof (Rabs_pos e). nra. Qed.

(** ** One update of the running mean: kahan_add s ((x - s) / k) c *)
Definition fupdate (s x c : b64) (k : Z) : b64 * b64 := kahan_add s (ndiv (nsub x s) (nofZ k)) c.
Section Update.
Variable B : R.
Hypothesis HB : bpow radix2 (-900) <= B <= bpow radix2 1000.
Local Notation u := (bpow radix2 (-53)).
Lemma B_pos : 0 < B.
Proof. pose proof (bpow_gt_0 radix2 (-900)). lra. Qed.
Lemma u_range : 0 < u <= / 1024.
Proof. split; [apply bpow_gt_0|]. apply Rle_trans with (bpow radix2 (-10)); [apply bp_mono; lia|]. cbn. lra. Qed.
Lemma mult_big c : 0 <= c <= 1024 -> c * B <= bpow radix2 1010.
Proof.
  intros H. change 1010%Z with (10 + 1000)%Z. rewrite bpow_plus. change (bpow radix2 10) with 1024. pose proof B_pos. apply Rmult_le_compat; lra.
Qed.
Lemma update_ok s x c k : OK s -> OK x -> OK c -> (1 <= k <= 2 ^ 50)%Z -> Rabs (val x) <= B -> Rabs (val s) <= 2 * B -> Rabs (val c) <= 12 * (u * B) ->
  let m := fst (fupdate s x c k) in let c' := snd (fupdate s x c k) in
  OK m /\ OK c' /\ Rabs (val c') <= 12 * (u * B) /\
  Rabs (IZR k * (val m - val c') - ((IZR k - 1) * (val s - val c) + val x)) <= 29 * (u * B).
Proof.
  intros Os Ox Oc Hk Hx Hs Hc m c'. pose proof B_pos as B0. pose proof u_range as (U0 & U1). destruct HB as (HB1 & HB2).
  assert (K1 : 1 <= IZR k) by (apply IZR_le; lia).
  assert (Ku : IZR k * u <= / 8).
  { assert (IZR k <= bpow radix2 50) by (change (bpow radix2 50) with (IZR (2 ^ 50)); apply IZR_le; lia).
    apply Rle_trans with (bpow radix2 50 * u); [apply Rmult_le_compat_r; lra|]. rewrite <- bpow_plus. cbn. lra. }
  set (eta := bpow radix2 (-1075)). assert (E0 : 0 < eta) by apply bpow_gt_0.
  assert (Ke : IZR k * eta <= u * B / 2).
  { assert (IZR k <= bpow radix2 50) by (change (bpow radix2 50) with (IZR (2 ^ 50)); apply IZR_le; lia).
    apply Rle_trans with (bpow radix2 50 * eta); [apply Rmult_le_compat_r; lra|]. unfold eta. rewrite <- bpow_plus.
    apply Rle_trans with (u * bpow radix2 (-900) / 2); [|unfold Rdiv; rewrite !(Rmult_comm u), !Rmult_assoc; apply Rmult_le_compat_r; nra].
    rewrite <- bpow_plus. replace (bpow radix2 (-53 + -900) / 2) with (bpow radix2 (-954)) by (change (-53 + -900)%Z with (-954 + 1)%Z; rewrite bpow_plus; change (bpow radix2 1) with 2; field).
    apply bp_mono. lia. }
  assert (eB : eta <= B) by nra. assert (cB : Rabs (val c) <= B) by nra.
  destruct (sub_err x s Ox Os) as (Od & E1). { eapply Rle_trans; [|apply (mult_big 3); lra]. iv Hx; iv Hs; apply Rabs_le; lra. }
  set (d := subf x s) in *. assert (Bd : Rabs (val d) <= 6 * B).
  { eapply Rle_trans; [apply (abs_err _ _ u E1); lra|]. assert (Rabs (val x - val s) <= 3 * B) by (iv Hx; iv Hs; apply Rabs_le; lra). lra. }
  assert (Bdk : Rabs (val d / IZR k) <= 6 * B).
  { unfold Rdiv. rewrite Rabs_mult, (Rabs_pos_eq (/ IZR k)) by (left; apply Rinv_0_lt_compat; lra).
    assert (/ IZR k <= 1) by (rewrite <- Rinv_1; apply Rinv_le_contravar; lra). assert (0 < / IZR k) by (apply Rinv_0_lt_compat; lra). pose proof (Rabs_pos (val d)). nra. }
  destruct (div_err d k Od) as (Oq & E2); [lia|eapply Rle_trans; [exact Bdk|apply mult_big; lra]|]. set (q := divf d (b64_ofZ k)) in *. fold eta in E2.
  assert (Bq : Rabs (val q) <= 13 * B).
  { pose proof (Rabs_triang (val q - val d / IZR k) (val d / IZR k)) as T. replace (val q - val d / IZR k + val d / IZR k) with (val q) in T by ring. pose proof (Rabs_pos (val d / IZR k)). nra. }
  destruct (sub_err q c Oq Oc) as (Or & E3). { eapply Rle_trans; [|apply (mult_big 14); lra]. iv Bq; iv cB; apply Rabs_le; lra. }
  set (r := subf q c) in *. assert (Br : Rabs (val r) <= 28 * B).
  { eapply Rle_trans; [apply (abs_err _ _ u E3); lra|]. assert (Rabs (val q - val c) <= 14 * B) by (iv Bq; iv cB; apply Rabs_le; lra). lra. }
  destruct (add_err s r Os Or) as (Om & E4). { eapply Rle_trans; [|apply (mult_big 30); lra]. iv Br; iv Hs; apply Rabs_le; lra. }
  change (addf s r) with m in *. assert (Bm : Rabs (val m) <= 60 * B).
  { eapply Rle_trans; [apply (abs_err _ _ u E4); lra|]. assert (Rabs (val s + val r) <= 30 * B) by (iv Br; iv Hs; apply Rabs_le; lra). lra. }
  destruct (sub_err m s Om Os) as (Ot & E5). { eapply Rle_trans; [|apply (mult_big 62); lra]. iv Bm; iv Hs; apply Rabs_le; lra. }
  set (t := subf m s) in *. assert (Bt : Rabs (val t) <= 124 * B).
  { eapply Rle_trans; [apply (abs_err _ _ u E5); lra|]. assert (Rabs (val m - val s) <= 62 * B) by (iv Bm; iv Hs; apply Rabs_le; lra). lra. }
  destruct (sub_err t r Ot Or) as (Oc' & E6). { eapply Rle_trans; [|apply (mult_big 152); lra]. iv Bt; iv Br; apply Rabs_le; lra. }
  change (subf t r) with c' in *.
  destruct (step_real u B (IZR k) eta (val x) (val s) (val c) (val d) (val q) (val r) (val m) (val t) (val c')) as (R1 & R2 & _); auto; try lra.
Qed.
End Update.
