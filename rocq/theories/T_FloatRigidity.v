(** Property C146: the spectral rigidity computed in binary64 is a finite number, and every sampled value is at least zero, when the
    window is not too small for the magnitude of the levels. *)
From Coq Require Import List ZArith Bool Reals Lra Lia Arith.
From Coq Require Import Floats.SpecFloat.
From Flocq Require Import Core BinarySingleNaN Relative.
From Verif Require Import Base S_Order M_Step M_Quad M_Loops P_Order P_Step P_Loops P_Delta P_Float P_FloatGrid T_FloatGrid T_FloatDraw T_FloatGap P_FloatMean T_FloatMean P_FloatKernel P_FloatSimps P_FloatSample.
Import ListNotations.
Local Open Scope R_scope.
Local Notation length := List.length.
#[local] Existing Instance Hprec.
#[local] Existing Instance Hmax.
Local Notation addf := (SFadd b64_prec b64_emax).
Local Notation subf := (SFsub b64_prec b64_emax).
Local Notation mulf := (SFmul b64_prec b64_emax).
Local Notation divf := (SFdiv b64_prec b64_emax).
Local Notation OK x := (Valid x /\ Fin x).
Local Notation b2 e := (bpow radix2 e).
Local Notation z := b64_ofZ.
Local Notation u := (bpow radix2 (-53)).

Lemma window_ok (c L : b64) : OK c -> OK L -> b2 (-20) <= val L <= b2 40 -> Rabs (val c) <= b2 26 * val L ->
  let lo := subf c (divf L (z 2)) in let hi := addf c (divf L (z 2)) in
  OK lo /\ OK hi /\ Rabs (val lo) <= b2 27 * val L /\ Rabs (val hi) <= b2 27 * val L /\ 99 / 100 * val L <= val hi - val lo <= 101 / 100 * val L.
Proof.
  intros Oc OL (L1 & L2) Hc lo hi. pose proof (bpow_gt_0 radix2 (-20)) as P20.
  assert (BL : Bd L 40) by (split; [exact OL|rewrite Rabs_pos_eq by lra; exact L2]). destruct (near_Z 2 ltac:(lia)) as (O2 & N1 & N2).
  destruct (Bd_div L (z 2) 40 0 41 BL O2) as (BH & EH); [change (b2 0) with 1; lra|lia|lia|]. set (H := divf L (z 2)) in *.
  assert (HH : 499 / 1000 * val L <= val H <= 501 / 1000 * val L).
  { rewrite EH. replace (val (z 2)) with 2 by lra. destruct (near_rnd (1 / 2) (1 / 2) (val L) (val L / 2)) as (R & _); try lra. split; [eapply Rle_trans; [apply bp_mono|exact L1]; lia|eapply Rle_trans; [exact L2|apply bp_mono; lia]]. }
  assert (Bc : Bd c 66).
  { split; [exact Oc|]. eapply Rle_trans; [exact Hc|]. change 66%Z with (26 + 40)%Z. rewrite bpow_plus. apply Rmult_le_compat_l; [apply bpow_ge_0|exact L2]. }
  destruct (Bd_sub c H 66 41 67 Bc BH ltac:(lia) ltac:(lia) ltac:(lia)) as (Blo & Elo). destruct (Bd_add c H 66 41 67 Bc BH ltac:(lia) ltac:(lia) ltac:(lia)) as (Bhi & Ehi).
  fold lo in Blo, Elo. fold hi in Bhi, Ehi. split; [apply Blo|]. split; [apply Bhi|].
  pose proof (rnd_any (val c - val H)) as R1. pose proof (rnd_any (val c + val H)) as R2. rewrite <- Elo in R1. rewrite <- Ehi in R2. pose proof u_tiny as (U0 & U1).
  assert (A1 : Rabs (val c - val H) <= (b2 26 + 1) * val L) by (iv Hc; apply Rabs_le; lra). assert (A2 : Rabs (val c + val H) <= (b2 26 + 1) * val L) by (iv Hc; apply Rabs_le; lra).
  assert (T : b2 (-1075) <= / 1024 * val L). { apply Rle_trans with (b2 (-10) * b2 (-20)); [rewrite <- bpow_plus; apply bp_mono; lia|]. change (b2 (-10)) with (/ 1024). lra. }
  assert (W : u * ((b2 26 + 1) * val L) <= / 1024 * val L).
  { rewrite <- Rmult_assoc. apply Rmult_le_compat_r; [lra|]. apply Rle_trans with (u * b2 27); [apply Rmult_le_compat_l; [lra|]; change (b2 26) with 67108864; change (b2 27) with 134217728; lra|].
    rewrite <- bpow_plus. apply Rle_trans with (b2 (-10)); [apply bp_mono; lia|change (b2 (-10)) with (/ 1024); lra]. }
  pose proof (Rmult_le_compat_l u _ _ ltac:(lra) A1) as B1. pose proof (Rmult_le_compat_l u _ _ ltac:(lra) A2) as B2.
  iv R1. iv R2. iv A1. iv A2. change (b2 26) with 67108864 in *. change (b2 27) with 134217728. split; [apply Rabs_le; lra|]. split; [apply Rabs_le; lra|]. lra.
Qed.
Lemma in_pt lo hi n i : (i < n)%nat -> In (pt lo hi n i) (@linspace b64 Num_b64 lo hi n) /\ nth i (@linspace b64 Num_b64 lo hi n) (z 0) = pt lo hi n i.
Proof.
  intros Hi. rewrite linspace_pt. split; [apply in_map, in_seq; lia|]. rewrite (nth_indep _ _ (pt lo hi n 0)) by (rewrite map_length, seq_length; lia). rewrite map_nth, seq_nth by lia. reflexivity.
Qed.
Lemma CountLe_range (x : list b64) v : (0 <= CountLe x v <= Z.of_nat (length x))%Z.
Proof. induction x as [|a x IH]; [cbn; lia|]. cbn [CountLe length]. destruct (nle a v); lia. Qed.

Lemma sample_ok simpson g (L : b64) (x : list b64) e0 (c : b64) :
  Forall NotNaN x -> Ascending x -> head_opt x = Some e0 -> (Z.of_nat (length x) <= 2 ^ 40)%Z -> OK c -> OK L -> b2 (-20) <= val L <= b2 40 ->
  Rabs (val c) <= b2 26 * val L -> (3 <= Z.of_nat g <= 2 ^ 14)%Z -> exists d, d3_sample simpson g L x c = Done d /\ Bd d 920 /\ 0 <= val d.
Proof.
  intros Hx Sx H0 Nx Oc OL HL Hc Hg. destruct (window_ok c L Oc OL HL Hc) as (Olo & Ohi & Mlo & Mhi & D1 & D2). cbv zeta in *. pose proof (bpow_gt_0 radix2 (-20)) as P20. destruct HL as (L1 & L2).
  unfold d3_sample. change (@nsub b64 Num_b64 c (ndiv L (nofZ 2))) with (subf c (divf L (z 2))). change (@nadd b64 Num_b64 c (ndiv L (nofZ 2))) with (addf c (divf L (z 2))).
  set (lo := subf c (divf L (z 2))) in *. set (hi := addf c (divf L (z 2))) in *. destruct Olo as (Vlo & Flo). destruct Ohi as (Vhi & Fhi).
  assert (ML : b2 27 * val L <= b2 67) by (change 67%Z with (27 + 40)%Z; rewrite bpow_plus; apply Rmult_le_compat_l; [apply bpow_ge_0|exact L2]).
  assert (Blo : Rabs (val lo) <= b2 1000) by (pose proof (bp_mono 67 1000 ltac:(lia)); lra). assert (Bhi : Rabs (val hi) <= b2 1000) by (pose proof (bp_mono 67 1000 ltac:(lia)); lra).
  assert (HD : b2 (-900) <= val hi - val lo) by (change (-20)%Z with (-21 + 1)%Z in L1; rewrite b2_S in L1; pose proof (bp_mono (-900) (-21) ltac:(lia)); lra).
  assert (Hn : (2 <= Z.of_nat g <= 2 ^ 50)%Z) by lia. set (m := IZR (Z.of_nat g - 1)). set (eta := (val hi - val lo) / m).
  assert (m1 : 2 <= m <= 16384) by (split; apply IZR_le; lia). assert (Im : 0 < / m) by (apply Rinv_0_lt_compat; lra).
  assert (E1 : b2 (-15) * val L <= eta).
  { apply Rmult_le_reg_r with m; [lra|]. unfold eta. replace ((val hi - val lo) / m * m) with (val hi - val lo) by (field; lra). change (b2 (-15)) with (/ 32768). nra. }
  assert (Reta : b2 (-40) <= eta <= b2 40).
  { split.
    - eapply Rle_trans; [|exact E1]. apply Rle_trans with (b2 (-15) * b2 (-20)); [rewrite <- bpow_plus; apply bp_mono; lia|apply Rmult_le_compat_l; [apply bpow_ge_0|exact L1]].
    - apply Rle_trans with (val L); [|exact L2]. apply Rmult_le_reg_r with m; [lra|]. unfold eta. replace ((val hi - val lo) / m * m) with (val hi - val lo) by (field; lra). nra. }
  assert (Fine : 1024 * (u * (b2 27 * val L)) <= eta).
  { eapply Rle_trans; [|exact E1]. replace (1024 * (u * (b2 27 * val L))) with (b2 10 * u * b2 27 * val L) by (change (b2 10) with 1024; ring). rewrite <- !bpow_plus. apply Rmult_le_compat_r; [lra|apply bp_mono; lia]. }
  assert (Sp : forall i, (S i < g)%nat -> Near (subf (pt lo hi g (S i)) (pt lo hi g i)) (97 / 100) (103 / 100) eta).
  { intros i Hi. apply (spacing_near lo hi g (b2 27 * val L)); auto. }
  assert (Gap : 97 / 100 * eta <= val (pt lo hi g 1) - val (pt lo hi g 0)) by (apply (spacing_low lo hi g (b2 27 * val L)); auto; lia).
  pose proof (grid_all lo hi g Vlo Vhi Flo Fhi Hn Blo Bhi HD) as Ga. destruct (grid_ends lo hi g Vlo Vhi Flo Fhi Hn Blo Bhi HD) as (_ & Gl).
  set (grid := @linspace b64 Num_b64 lo hi g) in *. assert (Lg : length grid = g) by (unfold grid, linspace; now rewrite map_length, seq_length).
  assert (GB : Forall (fun y => Bd y 68) grid).
  { eapply Forall_impl; [|exact Ga]. cbv beta. intros y (Vy & Fy & Hy). split; [auto|]. pose proof (bp_mono 67 68 ltac:(lia)). iv Mlo. iv Mhi. apply Rabs_le. lra. }
  rewrite (step_fast_sorted x grid e0 hi Hx) by first [assumption|eapply Forall_impl; [|exact Ga]; intros y (_ & Fy & _); now apply fin_notnan|exact (grid_sorted lo hi g Vlo Vhi Flo Fhi Hn Blo Bhi HD)].
  set (counts := if neq hi e0 then repeat 0%Z (length grid) else map (CountLe x) grid). cbv zeta. set (steps := map (@nofZ b64 Num_b64) counts).
  assert (Lc : length counts = g) by (unfold counts; destruct (neq hi e0); [rewrite repeat_length|rewrite map_length]; exact Lg).
  assert (Cr : Forall (fun k => (0 <= k <= 2 ^ 40)%Z) counts).
  { unfold counts. apply Forall_forall. intros k Hk. destruct (neq hi e0); [apply repeat_spec in Hk; lia|]. apply in_map_iff in Hk as (y & <- & _). pose proof (CountLe_range x y). lia. }
  assert (SB : Forall (fun y => Bd y 40) steps).
  { unfold steps. apply Forall_map. eapply Forall_impl; [|exact Cr]. cbv beta. intros k Hk. apply (Bd_Z k 40); lia. }
  destruct (in_pt lo hi g 0 ltac:(lia)) as (In0 & _). destruct (in_pt lo hi g 1 ltac:(lia)) as (In1 & _). fold grid in In0, In1.
  pose proof (deviation_ok eta Reta grid steps GB SB ltac:(lia) ltac:(unfold steps; rewrite map_length; lia) _ _ In0 In1 Gap) as Dv. cbv zeta in Dv.
  set (ys := sq_lin_deviation _ _ _ grid) in *.
  assert (Hgr : forall i, (S i < length grid)%nat -> Near (subf (nth (S i) grid (z 0)) (nth i grid (z 0))) (97 / 100) (103 / 100) eta).
  { intros i Hi. rewrite Lg in Hi. unfold grid. rewrite (proj2 (in_pt lo hi g i ltac:(lia))), (proj2 (in_pt lo hi g (S i) Hi)). now apply Sp. }
  assert (R : Bd (if simpson then int_simps_nonunif grid ys else integrate_fast grid ys) 900 /\ 0 <= val (if simpson then int_simps_nonunif grid ys else integrate_fast grid ys)).
  { destruct simpson; [apply (simps_ok eta Reta grid ys); auto; lia|apply (trapz_ok eta Reta grid ys); auto; lia]. }
  set (I := if simpson then int_simps_nonunif grid ys else integrate_fast grid ys) in *. destruct R as (BI & PI). exists (divf I L). split; [reflexivity|].
  destruct (Bd_div I L 900 (-20) 920 BI OL L1 ltac:(lia) ltac:(lia)) as (Bd' & Ed). split; [exact Bd'|]. rewrite Ed. apply rnd_nonneg. apply Rmult_le_pos; [exact PI|left; apply Rinv_0_lt_compat; lra].
Qed.

(** C146. For at most 2^40 ascending levels (no NaN), a window length between 2^-20 and 2^40, a centre of magnitude at most 2^26 window lengths
    and a grid of 3 to 2^14 points, one sampled value of the rigidity (rigidity.py:254-264) by either rule is a finite number and is not negative. *)
Theorem C146_sample : forall simpson g (L : b64) (x : list b64) (c : b64),
  x <> [] -> Forall NotNaN x -> Ascending x -> (Z.of_nat (length x) <= 2 ^ 40)%Z ->
  valid_binary b64_prec b64_emax c = true -> is_finite_SF c = true -> valid_binary b64_prec b64_emax L = true -> is_finite_SF L = true ->
  bpow radix2 (-20) <= SF2R radix2 L <= bpow radix2 40 -> Rabs (SF2R radix2 c) <= bpow radix2 26 * SF2R radix2 L -> (3 <= Z.of_nat g <= 2 ^ 14)%Z ->
  exists d, d3_sample simpson g L x c = Done d /\ is_finite_SF d = true /\ 0 <= SF2R radix2 d.
Proof.
  intros simpson g L x c Hne Hx Sx Nx Vc Fc VL FL HL Hc Hg. destruct x as [|e0 x]; [congruence|].
  destruct (sample_ok simpson g L (e0 :: x) e0 c Hx Sx eq_refl Nx (conj Vc Fc) (conj VL FL) HL Hc Hg) as (d & E & ((_ & Fd) & _) & Pd). exists d. auto.
Qed.
Print Assumptions C146_sample.

Lemma set_nth_Forall {A} (P : A -> Prop) (l : list A) : forall i v, Forall P l -> P v -> Forall P (set_nth l i v).
Proof. induction l as [|a l IH]; intros i v Hl Hv; destruct i; cbn [set_nth]; auto; inversion Hl; subst; constructor; auto. Qed.
Lemma d_buf_all size (v : nat -> b64) (P : b64 -> Prop) : P (z 0) -> forall m, (forall j, (j <= m)%nat -> P (d_mean (d_after size v j))) -> Forall P (d_buf (d_after size v m)).
Proof.
  intros P0. induction m as [|m IH]; intros H.
  - cbn [d_after delta_init d_buf]. apply set_nth_Forall; [|exact (H 0%nat ltac:(lia))]. apply Forall_forall. intros y Hy. apply repeat_spec in Hy. subst y. exact P0.
  - cbn [d_after]. unfold delta_pass. cbn [d_buf]. apply set_nth_Forall; [apply IH; intros j Hj; apply H; lia|exact (H (S m) ltac:(lia))].
Qed.
Lemma d_buf_len size (v : nat -> b64) m : length (d_buf (d_after size v m)) = Z.to_nat size.
Proof. induction m as [|m IH]; cbn [d_after delta_init delta_pass d_buf]; [now rewrite set_nth_length, repeat_length|]. unfold delta_pass. cbn [d_buf]. now rewrite set_nth_length. Qed.

(** C146. For finite ascending levels of magnitude at most 2^26 window lengths, and any draws in [0, 1 - 2^-53], delta_L returns a finite number: neither NaN nor
    infinite, whatever the tolerance and the iteration limits up to 2^50. *)
Theorem C146_rigidity : forall (x : list b64) (L : b64) g mx mn tol simpson draws,
  x <> [] -> Forall (fun y => valid_binary b64_prec b64_emax y = true /\ is_finite_SF y = true /\ Rabs (SF2R radix2 y) <= bpow radix2 26 * SF2R radix2 L) x ->
  Ascending x -> (Z.of_nat (length x) <= 2 ^ 40)%Z ->
  valid_binary b64_prec b64_emax L = true -> is_finite_SF L = true -> bpow radix2 (-20) <= SF2R radix2 L <= bpow radix2 40 -> (3 <= Z.of_nat g <= 2 ^ 14)%Z -> (mx <= 2 ^ 50)%Z ->
  (forall i, valid_binary b64_prec b64_emax (draws i) = true /\ is_finite_SF (draws i) = true /\ 0 <= SF2R radix2 (draws i) <= 1 - bpow radix2 (-53)) ->
  exists v conv k, delta_L x L g mx mn tol simpson draws = Done (v, conv, k) /\ is_finite_SF v = true.
Proof.
  intros x L g mx mn tol simpson draws Hne Hx Sx Nx VL FL HL Hg Hmx Hd.
  destruct x as [|lo t]; [congruence|]. destruct (last_opt (lo :: t)) as [hi|] eqn:El.
  2:{ unfold last_opt in El. apply nth_error_None in El. cbn [length] in El. lia. }
  assert (Hin : In hi (lo :: t)) by (unfold last_opt in El; now apply nth_error_In in El).
  pose proof Hx as Hx'. rewrite Forall_forall in Hx'. destruct (Hx' lo (or_introl eq_refl)) as (V1 & F1 & M1). destruct (Hx' hi Hin) as (V2 & F2 & M2).
  assert (Hnn : Forall NotNaN (lo :: t)) by (eapply Forall_impl; [|exact Hx]; cbv beta; intros y (_ & Fy & _); now apply fin_notnan).
  assert (Hle : val lo <= val hi).
  { destruct Hin as [->|Hin]; [lra|]. apply (leb_spec lo hi V1 V2 F1 F2). apply Sorting.Sorted.StronglySorted_inv in Sx as (_ & Sx). rewrite Forall_forall in Sx. exact (Sx hi Hin). }
  assert (ML : b2 26 * val L <= b2 66) by (change 66%Z with (26 + 40)%Z; rewrite bpow_plus; apply Rmult_le_compat_l; [apply bpow_ge_0|apply HL]).
  assert (Fs : Fin (subf hi lo)).
  { assert (B1 : Bd lo 66) by (split; [auto|lra]). assert (B2 : Bd hi 66) by (split; [auto|lra]). apply (Bd_sub hi lo 66 66 67 B2 B1); lia. }
  assert (Hs : forall i, exists d, delta_sample simpson g L (lo :: t) draws i = Done d /\ Bd d 920 /\ 0 <= val d).
  { intros i. unfold delta_sample. cbn [head_opt]. rewrite El. destruct (Hd i) as (Vd & Fd & Rd). destruct (C110_centre lo hi (draws i) V1 V2 Vd F1 F2 Fd Hle Rd Fs) as (Fc & Rc & _).
    assert (Oc : OK (uniform lo hi (draws i))).
    { split; [|exact Fc]. assert (B1 : Bd lo 66) by (split; [auto|lra]). assert (B2 : Bd hi 66) by (split; [auto|lra]). destruct (Bd_sub hi lo 66 66 67 B2 B1 ltac:(lia) ltac:(lia) ltac:(lia)) as (B3 & _).
      assert (B4 : Bd (draws i) 0). { split; [auto|]. change (b2 0) with 1. pose proof u_tiny as (U0 & _). rewrite Rabs_pos_eq; lra. }
      destruct (Bd_mul _ _ 67 0 67 B3 B4 ltac:(lia) ltac:(lia)) as (B5 & _). exact (proj1 (proj1 (proj1 (Bd_add lo _ 66 67 68 B1 B5 ltac:(lia) ltac:(lia) ltac:(lia))))). }
    apply (sample_ok simpson g L (lo :: t) lo _ Hnn Sx eq_refl Nx Oc (conj VL FL) HL); [|exact Hg]. iv M1. iv M2. apply Rabs_le. lra. }
  set (v := fun i => match delta_sample simpson g L (lo :: t) draws i with Done d => d | _ => z 0 end).
  assert (Ev : forall i, delta_sample simpson g L (lo :: t) draws i = Done (v i)) by (intros i; unfold v; destruct (Hs i) as (d & -> & _); reflexivity).
  assert (Bv : forall i, OK (v i) /\ Rabs (val (v i)) <= b2 920) by (intros i; unfold v; destruct (Hs i) as (d & -> & Hd' & _); exact Hd').
  destruct (delta_run_done BUFFER v (delta_sample simpson g L (lo :: t) draws) mx mn tol Ev) as (m & E & H1 & H2 & _).
  unfold delta_L. rewrite E. do 3 eexists. split; [reflexivity|].
  assert (BB : b2 (-900) <= b2 920 <= b2 1000) by (split; apply bp_mono; lia).
  assert (Bm : forall j, (j <= m)%nat -> Bd (d_mean (d_after BUFFER v j)) 921).
  { intros j Hj. destruct (d_after_Inv (b2 920) BUFFER v BB Bv j ltac:(lia)) as (Om & _ & _ & Hm & _). split; [exact Om|]. change 921%Z with (920 + 1)%Z. rewrite b2_S. exact Hm. }
  refine (proj2 (proj1 (_ : Bd _ 990))).
  assert (Len : length (d_buf (d_after BUFFER v m)) = Z.to_nat BUFFER) by apply d_buf_len.
  assert (All : Forall (fun y => Bd y 921) (d_buf (d_after BUFFER v m))).
  { apply (d_buf_all BUFFER v (fun y => Bd y 921)); [|exact Bm]. split; [apply (Cnt_0 0)|]. change (val (z 0)) with 0. rewrite Rabs_R0. apply bpow_ge_0. }
  apply (mean_Bd _ 921 10 990); auto; try lia; [intros K; rewrite K in Len; cbn in Len; lia|rewrite Len; unfold BUFFER; lia].
Qed.
Print Assumptions C146_rigidity.

(** C146 is false for a window too small for its centre.  With length 2^-60 about 1.5 all grid points are the same number, the spacings are 0 and the Simpson rule
    divides 0 by 0: the sample is NaN, and the rigidity over the levels 1, 2 (draws 1/2) is returned as NaN, not converged.  The trapezoidal rule gives 0. *)
Theorem C146_small_window_refuted : let tiny := S754_finite false (2 ^ 52) (-112) in let c := S754_finite false 6755399441055744 (-52) in let half := S754_finite false (2 ^ 52) (-53) in
  SF2R radix2 tiny = bpow radix2 (-60) /\ SF2R radix2 c = 3 / 2 /\ SF2R radix2 half = / 2 /\
  d3_sample true 5 tiny [z 1; z 2] c = Done S754_nan /\ d3_sample false 5 tiny [z 1; z 2] c = Done (S754_zero false) /\
  delta_L [z 1; z 2] tiny 5 3 0 (z 1) true (fun _ => half) = Done (S754_nan, false, 3%Z).
Proof.
  intros tiny c half. split; [unfold tiny, SF2R, F2R; cbn [Fnum Fexp cond_Zopp]; change (IZR (Z.pos (2 ^ 52))) with (b2 52); rewrite <- bpow_plus; reflexivity|].
  split; [unfold c, SF2R, F2R; cbn; lra|]. split; [unfold half, SF2R, F2R; cbn; lra|]. repeat split; vm_compute; reflexivity.
Qed.
(** Levels 1, 2, 3, 5, 8, 13, window of length 4 about 3: the values 0.063333... (Simpson) and 0.07 (trapezoidal) on five points, and a rounding residue of about 2^-105 on
    four points, where the staircase lies on a line; the rigidity over three draws. *)
Example C146_case : let half := S754_finite false (2 ^ 52) (-53) in let x := map z [1; 2; 3; 5; 8; 13]%Z in
  d3_sample true 5 (z 4) x (z 3) = Done (S754_finite false 4563647622402105 (-56)) /\ d3_sample false 5 (z 4) x (z 3) = Done (S754_finite false 5044031582654957 (-56)) /\
  d3_sample true 4 (z 4) x (z 3) = Done (S754_finite false 7505999378950826 (-158)) /\
  delta_L x (z 4) 5 3 0 (z 1) true (fun i => match i with O => half | _ => z 0 end) = Done (S754_finite false 7583661452525038 (-65), true, 3%Z) /\
  (exists d, d3_sample true 5 (z 4) x (z 3) = Done d /\ is_finite_SF d = true /\ 0 <= SF2R radix2 d).
Proof.
  intros half x. split; [vm_compute; reflexivity|]. split; [vm_compute; reflexivity|]. split; [vm_compute; reflexivity|]. split; [vm_compute; reflexivity|].
  destruct (ofZ_spec 4 ltac:(lia)) as (V4 & F4 & E4). destruct (ofZ_spec 3 ltac:(lia)) as (V3 & F3 & E3).
  apply C146_sample; try assumption; try (cbn; lia); try discriminate.
  - repeat (apply Forall_cons || apply Forall_nil); vm_compute; reflexivity.
  - unfold Ascending. repeat (apply Sorting.Sorted.SSorted_cons || apply Sorting.Sorted.SSorted_nil || apply Forall_cons || apply Forall_nil || (vm_compute; reflexivity)).
  - rewrite E4. change (b2 40) with 1099511627776. change (b2 (-20)) with (/ 1048576). lra.
  - rewrite E3, E4. change (b2 26) with 67108864. rewrite Rabs_pos_eq by lra. lra.
Qed.
